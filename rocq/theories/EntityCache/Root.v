(** Requests for root fields through the entity cache (C42).

    Modelled code: crates/engine/src/resolver/graphql/root_fields.rs
    - execute (91-151): the cache is used if the subgraph has a time to live
    - fetch_response_with_cache (208-237), GraphqlWithCachePutIngester (251-295)
    - fetch_response_without_cache (154-206)
    together with the keys (Key), the store in memory (Store) and the time to live (Ttl).

    Simplifications: requests come one after the other (a second identical request that
    comes before the first is answered is sent as well).  The subgraph's answer, for how
    long it may be kept, and whether it can be kept at all (Ttl) are an oracle, which may
    answer the same request differently each time. *)

From Coq Require Import List NArith Bool Lia.
From Verif.OpCache Require Import Tiered Model Spec Keys.
From Verif.EntityCache Require Import Key Store.
Import ListNotations.
Local Open Scope N_scope.

Record request := MkReq {
  q_root : root_request;
  q_mutation : bool
}.

Section System.
  (** The answer to a request, and for how long it may be kept; depends on everything
      that was sent before. *)
  Variable subgraph : list request -> request -> bytes * option N.
  (** The subgraphs with a time to live. *)
  Variable caching : bytes -> bool.

  Inductive op := Ask (q : request) | Wait (d : N) | Evict (k : bytes).

  Record state := MkS {
    (** what happened to the store *)
    s_store : list (event bytes);
    (** the requests sent to the subgraphs, with when and what they answered; newest last *)
    s_sent : list (N * request * bytes)
  }.

  Definition requests (s : state) : list request := map (fun x => snd (fst x)) (s_sent s).

  Definition send (s : state) (q : request) : state * bytes * option N :=
    let '(a, ttl) := subgraph (requests s) q in
    (MkS (s_store s) (s_sent s ++ [(elapsed bytes (s_store s), q, a)]), a, ttl).

  Definition step (s : state) (o : op) : state * option bytes :=
    match o with
    | Wait d => (MkS (s_store s ++ [ETick d]) (s_sent s), None)
    | Evict k => (MkS (s_store s ++ [EEvict k]) (s_sent s), None)
    | Ask q =>
        if caching (rr_subgraph (q_root q)) then
          match memory_get (s_store s) (root_key (q_root q)) with
          | Some a => (s, Some a)
          | None =>
              let '(s', a, ttl) := send s q in
              (MkS (match ttl with Some t => s_store s' ++ [EPut (root_key (q_root q)) a t] | None => s_store s' end) (s_sent s'), Some a)
          end
        else let '(s', a, _) := send s q in (s', Some a)
    end.

  Definition run (ops : list op) : state := fold_left (fun s o => fst (step s o)) ops (MkS [] []).

  (** ** Specification *)

  Definition well_formed (q : request) : Prop :=
    nul_free (rr_subgraph (q_root q)) /\ headers_ok (rr_headers (q_root q)).

  Fixpoint asked (ops : list op) : list request :=
    match ops with
    | Ask q :: r => q :: asked r
    | _ :: r => asked r
    | [] => []
    end.

  (** ** Proofs *)

  Lemma run_snoc : forall ops o, run (ops ++ [o]) = fst (step (run ops) o).
  Proof. intros. unfold run. rewrite fold_left_app. reflexivity. Qed.

  Lemma asked_app : forall a b, asked (a ++ b) = asked a ++ asked b.
  Proof. induction a as [|[q|d|k] a IH]; intros b; cbn; [reflexivity|f_equal; apply IH|apply IH|apply IH]. Qed.

  (** Everything in the store was sent, and answered that. *)
  Definition inv (ops : list op) (s : state) : Prop :=
    (forall a k v t b, s_store s = a ++ EPut k v t :: b ->
       exists q, k = root_key (q_root q) /\ In q (asked ops) /\ In (elapsed bytes a, q, v) (s_sent s)) /\
    (forall t q a, In (t, q, a) (s_sent s) -> In q (asked ops)).

  Lemma app_snoc_cases : forall A (l : list A) x a y b, l ++ [x] = a ++ y :: b ->
    (b = [] /\ x = y /\ l = a) \/ exists b', b = b' ++ [x] /\ l = a ++ y :: b'.
  Proof.
    intros A l x a y b E. destruct b as [|z b'] using rev_ind.
    - left. apply app_inj_tail in E. destruct E as [-> ->]. auto.
    - right. exists b'. replace (a ++ y :: b' ++ [z]) with ((a ++ y :: b') ++ [z]) in E by (rewrite <- app_assoc; reflexivity).
      apply app_inj_tail in E. destruct E as [-> ->]. auto.
  Qed.

  Lemma inv_run : forall ops, inv ops (run ops).
  Proof.
    induction ops as [|o ops IH] using rev_ind.
    { split; [|intros t q a []]. intros [|x a] k v t b X; discriminate. }
    rewrite run_snoc. destruct IH as [I1 I2]. unfold inv.
    assert (Keep : forall a k v t b, s_store (run ops) = a ++ EPut k v t :: b ->
       exists q, k = root_key (q_root q) /\ In q (asked (ops ++ [o])) /\ In (elapsed bytes a, q, v) (s_sent (run ops))).
    { intros a k v t b X. destruct (I1 a k v t b X) as (q & A & B & C). exists q. rewrite asked_app, in_app_iff. auto. }
    assert (Keep2 : forall t q a, In (t, q, a) (s_sent (run ops)) -> In q (asked (ops ++ [o]))).
    { intros t q a X. rewrite asked_app, in_app_iff. left. apply (I2 _ _ _ X). }
    destruct o as [q|d|k]; cbn [step].
    - assert (Sent : forall t q' a a0, In (t, q', a) (s_sent (run ops) ++ [(elapsed bytes (s_store (run ops)), q, a0)]) -> In q' (asked (ops ++ [Ask q]))).
      { intros t q' a a0 X. apply in_app_iff in X. destruct X as [X|[X|[]]]; [apply (Keep2 _ _ _ X)|].
        injection X as <- <- <-. rewrite asked_app, in_app_iff. right. left. reflexivity. }
      destruct (caching _).
      + destruct (memory_get _ _) as [v|] eqn:G; [cbn [fst]; split; [exact Keep|exact Keep2]|].
        unfold send. destruct (subgraph (requests (run ops)) q) as [a0 ttl]. cbn [fst s_store s_sent]. split.
        * intros a k v t b X.
          destruct ttl as [t0|].
          -- apply app_snoc_cases in X. destruct X as [(-> & X & Ea)|(b' & -> & X)].
             ++ injection X as <- <- <-. exists q. split; [reflexivity|]. split; [rewrite asked_app, in_app_iff; right; left; reflexivity|].
                apply in_app_iff. right. left. rewrite Ea. reflexivity.
             ++ destruct (Keep a k v t b' X) as (q' & A & B & C). exists q'. rewrite in_app_iff. auto.
          -- destruct (Keep a k v t b X) as (q' & A & B & C). exists q'. rewrite in_app_iff. auto.
        * intros t q' a. apply Sent.
      + unfold send. destruct (subgraph (requests (run ops)) q) as [a0 ttl]. cbn [fst s_store s_sent]. split.
        * intros a k v t b X. destruct (Keep a k v t b X) as (q' & A & B & C). exists q'. rewrite in_app_iff. auto.
        * intros t q' a. apply Sent.
    - cbn [fst s_store s_sent]. split; [|exact Keep2]. intros a k v t b X. apply app_snoc_cases in X.
      destruct X as [(_ & X & _)|(b' & _ & X)]; [discriminate|]. apply (Keep _ _ _ _ _ X).
    - cbn [fst s_store s_sent]. split; [|exact Keep2]. intros a k0 v t b X. apply app_snoc_cases in X.
      destruct X as [(_ & X & _)|(b' & _ & X)]; [discriminate|]. apply (Keep _ _ _ _ _ X).
  Qed.

  (** What is shown for a request is what its subgraph answered to the very same
      request: just now, or before, in which case it may still be kept. *)
  Theorem C42_own_answer : forall ops q v, Forall well_formed (asked ops) -> well_formed q ->
    snd (step (run ops) (Ask q)) = Some v ->
    (requests (fst (step (run ops) (Ask q))) = requests (run ops) ++ [q] /\ v = fst (subgraph (requests (run ops)) q)) \/
    (exists t q' , In (t, q', v) (s_sent (run ops)) /\ q_root q' = q_root q /\
       exists ttl a b, s_store (run ops) = a ++ EPut (root_key (q_root q)) v ttl :: b /\ t = elapsed bytes a /\
         elapsed bytes b <= ttl).
  Proof.
    intros ops q v Wf W H. cbn [step] in *.
    assert (Now : forall r : state * option bytes, r = (let '(s', a, _) := send (run ops) q in (s', Some a)) ->
      snd r = Some v -> requests (fst r) = requests (run ops) ++ [q] /\ v = fst (subgraph (requests (run ops)) q)).
    { intros r -> Hr. unfold send in *. destruct (subgraph (requests (run ops)) q) as [a ttl]. cbn in *.
      injection Hr as <-. split; [|reflexivity]. unfold requests. cbn. rewrite map_app. reflexivity. }
    destruct (caching _).
    - destruct (memory_get (s_store (run ops)) (root_key (q_root q))) as [v'|] eqn:G.
      + right. cbn in H. injection H as ->. destruct (C27_memory _ _ _ _ G) as (ttl & b & (a & Ea & _ & _) & L).
        destruct (inv_run ops) as [I1 _]. destruct (I1 a _ v ttl b Ea) as (q' & K & Iq & Is).
        exists (elapsed bytes a), q'. split; [exact Is|]. split.
        * rewrite Forall_forall in Wf. destruct (Wf q' Iq) as [Wa Wb]. destruct W as [Wc Wd].
          symmetry. apply C25_root_requests; assumption.
        * exists ttl, a, b. auto.
      + left. unfold send in *. destruct (subgraph (requests (run ops)) q) as [a ttl] eqn:Sg. cbn in *.
        injection H as <-. split; [|reflexivity]. unfold requests. cbn. rewrite map_app. reflexivity.
    - left. apply (Now _ eq_refl H).
  Qed.

  (** Without caching every request is sent, once, in order. *)
  Theorem C42_sent_partial : (forall s, caching s = false) -> forall ops, requests (run ops) = asked ops.
  Proof.
    intros C ops. induction ops as [|o ops IH] using rev_ind; [reflexivity|]. rewrite run_snoc, asked_app.
    destruct o as [q|d|k]; cbn [step].
    - rewrite C. unfold send. rewrite IH. destruct (subgraph (asked ops) q) as [a ttl]. unfold requests in *. cbn.
      rewrite map_app, IH. reflexivity.
    - cbn. rewrite app_nil_r. exact IH.
    - cbn. rewrite app_nil_r. exact IH.
  Qed.
End System.

(** A counter: "increment" is a mutation, its answer may be kept for 60s by default.
    The second identical mutation is not sent: it has no effect. *)
Definition increment : request := MkReq (MkRoot [99] [] [43]) true.

Definition counter (sent : list request) (q : request) : bytes * option N :=
  ([N.of_nat (List.length sent) + 1], Some 60000000000).

Theorem C42_mutations_refuted : exists subgraph caching ops q,
  q_mutation q = true /\ asked ops = [q; q] /\ requests (run subgraph caching ops) = [q] /\ well_formed q.
Proof.
  exists counter, (fun _ => true), [Ask increment; Wait 30000000000; Ask increment], increment.
  split; [reflexivity|]. split; [reflexivity|]. split; [vm_compute; reflexivity|].
  split; [intros [X|[]]; discriminate|]. split; [apply PeanoNat.Nat.ltb_lt; reflexivity|constructor].
Qed.

Example C42_example :
  requests (run counter (fun _ => false) [Ask increment; Wait 30000000000; Ask increment]) = [increment; increment] /\
  requests (run counter (fun _ => true) [Ask increment; Wait 61000000000; Ask increment]) = [increment; increment] /\
  snd (step counter (fun _ => true) (run counter (fun _ => true) [Ask increment; Wait 30000000000]) (Ask increment)) = Some [1].
Proof. repeat split; vm_compute; reflexivity. Qed.
