(** Sharing the responses of requests in flight (C46).

    Modelled code: TrafficShaping::deduplicate,
    crates/runtime-local/src/fetch/traffic_shaping.rs 24-56, which every request
    to a GraphQL subgraph goes through (crates/runtime-local/src/fetch.rs 40-52),
    with tokio's OnceCell::get_or_init.

    A request is a task that is advanced by events: it arrives, it is polled, the
    response to the request it has sent arrives, or it is dropped. Any
    interleaving of the tasks' events is a run. *)

From Coq Require Import String List Bool NArith Lia PeanoNat Permutation.
From Verif Require Import Fetch.Key.
Import ListNotations.
Local Open Scope list_scope.

Section Dedup.

(** Responses, whatever they are: also errors. *)
Variable response : Type.
(** TrafficShapingConfig::inflight_deduplication. *)
Variable enabled : bool.

(** *** Model *)

(** tokio::sync::OnceCell: a value, a permit to initialise it, held by at most one
    task, and the queue of those who wait for the permit. *)
Record cell := Cell {
  value : option response;
  owner : option nat;
  queue : list nat
}.

Inductive status :=
| Direct                               (** own request sent, line 33 *)
| Held (c : nat)                       (** has the cell, line 43, get_or_init not yet polled *)
| Waiting (c : nat)                    (** in the queue of the cell *)
| Granted (c : nat)                    (** given the permit, not yet polled since *)
| Sent (c : nat)                       (** own request sent, line 46 *)
| Storing (c : nat) (v : response)     (** past line 47, the cell isn't set yet *)
| Answered (v : response)
| Gone.

Record state := State {
  tasks : nat -> option (request * status);
  cells : nat -> cell;
  fresh : nat;                         (** cells allocated so far *)
  inflight : list (key * nat)
}.

Definition init : state := State (fun _ => None) (fun _ => Cell None None []) 0 [].

Definition upd {A} (f : nat -> A) (x : nat) (a : A) : nat -> A := fun y => if Nat.eqb y x then a else f y.

Inductive event :=
| Arrive (i : nat) (r : request)
| Poll (i : nat)
| Respond (i : nat) (v : response)
| Cancel (i : nat).

Definition set_task (s : state) (i : nat) (r : request) (t : status) : state :=
  State (upd (tasks s) i (Some (r, t))) (cells s) (fresh s) (inflight s).
Definition set_cell (s : state) (c : nat) (x : cell) : state :=
  State (tasks s) (upd (cells s) c x) (fresh s) (inflight s).

Definition lookup (k : key) (m : list (key * nat)) : option nat :=
  option_map snd (find (fun e => key_eqb (fst e) k) m).
Definition remove (k : key) (m : list (key * nat)) : list (key * nat) :=
  filter (fun e => negb (key_eqb (fst e) k)) m.

(** 32-43. Task names are used once. *)
Definition arrive (s : state) (i : nat) (r : request) : state :=
  match tasks s i with
  | Some _ => s
  | None =>
      if negb enabled || is_mutation r then set_task s i r Direct
      else match lookup (request_key r) (inflight s) with
           | Some c => set_task s i r (Held c)
           | None =>
               let c := fresh s in
               State (upd (tasks s) i (Some (r, Held c))) (upd (cells s) c (Cell None None [])) (S c)
                 ((request_key r, c) :: inflight s)
           end
  end.

(** 45-55. get_or_init returns the value if there is one; otherwise the task takes
    the permit or queues for it. The holder of the permit runs lines 46-48 and
    sets the cell, which wakes the others up. *)
Definition poll (s : state) (i : nat) : state :=
  match tasks s i with
  | Some (r, Held c) =>
      let x := cells s c in
      match value x with
      | Some v => set_task s i r (Answered v)
      | None =>
          match owner x with
          | None => set_task (set_cell s c (Cell None (Some i) (queue x))) i r (Sent c)
          | Some _ => set_task (set_cell s c (Cell None (owner x) (queue x ++ [i]))) i r (Waiting c)
          end
      end
  | Some (r, Waiting c) =>
      match value (cells s c) with
      | Some v => set_task s i r (Answered v)
      | None => s
      end
  | Some (r, Granted c) => set_task s i r (Sent c)
  | Some (r, Storing c v) =>
      set_task (set_cell s c (Cell (Some v) None [])) i r (Answered v)
  | _ => s
  end.

(** 33 and 46-47. *)
Definition respond (s : state) (i : nat) (v : response) : state :=
  match tasks s i with
  | Some (r, Direct) => set_task s i r (Answered v)
  | Some (r, Sent c) =>
      let s := set_task s i r (Storing c v) in
      State (tasks s) (cells s) (fresh s) (remove (request_key r) (inflight s))
  | _ => s
  end.

(** The permit goes to the first in the queue. *)
Definition release (s : state) (c : nat) : state :=
  match queue (cells s c) with
  | [] => set_cell s c (Cell (value (cells s c)) None [])
  | j :: q =>
      let s := set_cell s c (Cell (value (cells s c)) (Some j) q) in
      match tasks s j with
      | Some (r, _) => set_task s j r (Granted c)
      | None => s
      end
  end.

(** The future is dropped, as when the client goes away. There is no await
    between the response and the cell being set. *)
Definition cancel (s : state) (i : nat) : state :=
  match tasks s i with
  | Some (r, Direct) | Some (r, Held _) => set_task s i r Gone
  | Some (r, Waiting c) =>
      let x := cells s c in
      set_task (set_cell s c (Cell (value x) (owner x) (filter (fun j => negb (Nat.eqb j i)) (queue x)))) i r Gone
  | Some (r, Granted c) | Some (r, Sent c) => release (set_task s i r Gone) c
  | _ => s
  end.

Definition step (s : state) (e : event) : state :=
  match e with
  | Arrive i r => arrive s i r
  | Poll i => poll s i
  | Respond i v => respond s i v
  | Cancel i => cancel s i
  end.

Definition run (es : list event) : state := fold_left step es init.

(** *** Specification *)

(** The task has sent its request and the response hasn't come yet. *)
Definition sent (s : state) (i : nat) (r : request) : Prop :=
  tasks s i = Some (r, Direct) \/ exists c, tasks s i = Some (r, Sent c).

(** The task is still there. *)
Definition live (s : state) (i : nat) (r : request) : Prop :=
  exists t, tasks s i = Some (r, t) /\ t <> Gone /\ forall v, t <> Answered v.

(** A request that may share a response. *)
Definition shareable (r : request) : Prop := enabled = true /\ is_mutation r = false.

(** Where the answer of a task comes from: at some point of the run, a task that
    had sent the same request got that response, and this task was there. *)
Definition origin (es : list event) (i : nat) (r : request) (v : response) : Prop :=
  exists before j rj after,
    es = before ++ Respond j v :: after /\
    sent (run before) j rj /\ live (run before) i r /\
    (j = i \/ (shareable r /\ shareable rj /\ same_request rj r)).

(** *** Invariant *)

Definition at_cell (t : status) : option nat :=
  match t with
  | Held c | Waiting c | Granted c | Sent c | Storing c _ => Some c
  | _ => None
  end.

Definition owning (t : status) : option nat :=
  match t with Granted c | Sent c | Storing c _ => Some c | _ => None end.

Lemma key_eqb_refl : forall r, key_eqb (request_key r) (request_key r) = true.
Proof. intros r. apply C46_key. unfold same_request. auto. Qed.

Lemma same_request_sym : forall r s, same_request r s -> same_request s r.
Proof. unfold same_request. intros r s (A & B & C & D & E). repeat split; auto. apply Permutation_sym, E. Qed.

Lemma same_request_trans : forall r s t, same_request r s -> same_request s t -> same_request r t.
Proof.
  unfold same_request. intros r s t (A & B & C & D & E) (A' & B' & C' & D' & E').
  repeat split; try congruence. eapply Permutation_trans; eauto.
Qed.

Record inv (s : state) : Prop := {
  (** the map: one cell per request, not set and not about to be *)
  i_key : forall k c, In (k, c) (inflight s) -> exists r0, k = request_key r0;
  i_alloc : forall k c, In (k, c) (inflight s) -> c < fresh s;
  i_unset : forall k c, In (k, c) (inflight s) -> value (cells s c) = None;
  i_unstored : forall k c i r v, In (k, c) (inflight s) -> tasks s i = Some (r, Storing c v) -> False;
  i_member : forall k c i r t, In (k, c) (inflight s) -> tasks s i = Some (r, t) -> at_cell t = Some c ->
    key_eqb k (request_key r) = true;
  i_uniq : forall k c k' c', In (k, c) (inflight s) -> In (k', c') (inflight s) -> key_eqb k k' = true -> c = c';
  i_cell : forall k c k', In (k, c) (inflight s) -> In (k', c) (inflight s) -> k = k';
  (** the tasks of a cell *)
  i_share : forall i r t c, tasks s i = Some (r, t) -> at_cell t = Some c -> shareable r;
  i_lt : forall i r t c, tasks s i = Some (r, t) -> at_cell t = Some c -> c < fresh s;
  i_reg : forall i r t c, tasks s i = Some (r, t) -> at_cell t = Some c -> value (cells s c) = None ->
    (exists k, In (k, c) (inflight s)) \/ (exists j r' v, tasks s j = Some (r', Storing c v));
  i_same : forall i r t j r' t' c, tasks s i = Some (r, t) -> at_cell t = Some c ->
    tasks s j = Some (r', t') -> at_cell t' = Some c -> same_request r r';
  (** the permit *)
  i_own : forall i r t c, tasks s i = Some (r, t) -> owning t = Some c -> owner (cells s c) = Some i;
  i_none : forall i r t c, tasks s i = Some (r, t) -> owning t = Some c -> value (cells s c) = None;
  i_owner : forall c i, owner (cells s c) = Some i -> exists r t, tasks s i = Some (r, t) /\ owning t = Some c;
  (** the queue *)
  i_queue : forall c i, In i (queue (cells s c)) -> exists r, tasks s i = Some (r, Waiting c);
  i_queued : forall c i, In i (queue (cells s c)) -> owner (cells s c) <> None;
  i_wait : forall i r c, tasks s i = Some (r, Waiting c) -> value (cells s c) = None -> In i (queue (cells s c));
  i_nodup : forall c, NoDup (queue (cells s c));
  i_direct : forall i r, tasks s i = Some (r, Direct) -> ~ shareable r
}.

Lemma upd_same {A} (f : nat -> A) x a : upd f x a x = a.
Proof. unfold upd. rewrite Nat.eqb_refl. reflexivity. Qed.
Lemma upd_other {A} (f : nat -> A) x a y : y <> x -> upd f x a y = f y.
Proof. unfold upd. intros H. destruct (Nat.eqb_spec y x); congruence. Qed.

Ltac cases1 :=
  repeat match goal with
  | H : _ /\ _ |- _ => destruct H
  | H : exists _, _ |- _ => destruct H
  | H : Some _ = Some _ |- _ => injection H; clear H; intros; subst
  | H : (_, _) = (_, _) |- _ => injection H; clear H; intros; subst
  | H : None = Some _ |- _ => discriminate H
  | H : Some _ = None |- _ => discriminate H
  | H : tasks ?s ?i = Some _, H' : tasks ?s ?i = Some _ |- _ => rewrite H in H'
  | H : In _ (_ :: _) |- _ => destruct H
  | H : In _ [] |- _ => destruct H
  | H : context [upd _ ?x _ ?x] |- _ => rewrite upd_same in H
  | N : ?y <> ?x, H : context [upd _ ?x _ ?y] |- _ => rewrite (upd_other _ x _ y N) in H
  | H : context [upd _ ?x _ ?y] |- _ =>
      let E := fresh "E" in destruct (Nat.eq_dec y x) as [E|E]; [try subst y; try subst x|]
  | |- context [upd _ ?x _ ?x] => rewrite upd_same
  | N : ?y <> ?x |- context [upd _ ?x _ ?y] => rewrite (upd_other _ x _ y N)
  | |- context [upd _ ?x _ ?y] =>
      let E := fresh "E" in destruct (Nat.eq_dec y x) as [E|E]; [try subst y; try subst x|]
  end.
Ltac cases := cases1; cbn [at_cell owning value owner queue] in *; cases1; try congruence.

Lemma init_inv : inv init.
Proof. constructor; unfold init; cbn; intros; try contradiction; try discriminate; try constructor. Qed.

Ltac facts V :=
  match goal with
  | T : tasks _ _ = Some (?r, _) |- shareable ?r => eapply (i_share _ V _ _ _ _ T); first [eassumption|reflexivity]
  | T1 : tasks _ _ = Some (?r, _), T2 : tasks _ _ = Some (?r', _) |- same_request ?r ?r' =>
      eapply (i_same _ V _ _ _ _ _ _ _ T1); [|exact T2|]; first [eassumption|reflexivity]
  | H : owner (cells _ _) = Some _ |- _ =>
      destruct (i_owner _ V _ _ H) as (? & ? & ? & ?); clear H; cases
  | H : In _ (queue (cells _ _)) |- _ =>
      destruct (i_queue _ V _ _ H) as (? & ?); clear H; cases
  | |- _ \/ _ =>
      let j := fresh "j" in let r' := fresh "r'" in let v' := fresh "v'" in
      edestruct (i_reg _ V) as [?|(j & r' & v' & ?)];
      [eassumption|first [eassumption|reflexivity]|eassumption
      |left; eauto
      |right; exists j, r', v'; cases; eauto]
  end.

Ltac go V := unfold set_task, set_cell; cbn [tasks cells fresh inflight]; pose proof V as V'; destruct V'; constructor;
   cbn [tasks cells fresh inflight]; intros; cases; eauto; try solve [facts V; eauto].

Lemma key_same : forall s, inv s -> forall k c i r t r', In (k, c) (inflight s) -> key_eqb k (request_key r') = true ->
  tasks s i = Some (r, t) -> at_cell t = Some c -> same_request r r'.
Proof.
  intros s V k c i r t r' H1 H2 H3 H4. pose proof (i_member _ V _ _ _ _ _ H1 H3 H4) as H5.
  destruct (i_key _ V _ _ H1) as (r0 & ->). apply C46_key in H2, H5.
  eapply same_request_trans; [apply same_request_sym, H5|exact H2].
Qed.

Lemma same_request_refl : forall r, same_request r r.
Proof. intros r. unfold same_request. auto. Qed.

Lemma alloc_inv : forall s r, inv s -> lookup (request_key r) (inflight s) = None ->
  inv (State (tasks s) (upd (cells s) (fresh s) (Cell None None [])) (S (fresh s)) ((request_key r, fresh s) :: inflight s)).
Proof.
  intros s r V L. unfold lookup in L. destruct (find _ _) as [[k c']|] eqn:F; [discriminate|]. clear L.
  assert (NK : forall k c, In (k, c) (inflight s) -> key_eqb k (request_key r) = false) by
    (intros k c H; apply (find_none _ _ F) in H; exact H). clear F.
  assert (NC : forall k, ~ In (k, fresh s) (inflight s)).
  { intros k H. apply (i_alloc _ V) in H. lia. }
  assert (NT : forall i r' t, tasks s i = Some (r', t) -> at_cell t <> Some (fresh s)).
  { intros i r' t H1 H2. pose proof (i_lt _ V _ _ _ _ H1 H2). lia. }
  assert (NK2 : forall k c, In (k, c) (inflight s) -> key_eqb (request_key r) k = false).
  { intros k c H. pose proof (NK _ _ H) as E. destruct (i_key _ V _ _ H) as (r0 & ->).
    destruct (key_eqb (request_key r) (request_key r0)) eqn:E2; [|reflexivity].
    apply C46_key, same_request_sym, C46_key in E2. congruence. }
  go V.
  - apply (i_alloc _ V) in H. lia.
  - eapply NT; [eassumption|reflexivity].
  - exfalso. eapply NT; eauto.
  - apply NK in H. congruence.
  - apply NK2 in H0. congruence.
  - exfalso. eapply NC; eauto.
  - exfalso. eapply NC; eauto.
  - pose proof (i_lt _ V _ _ _ _ H H0). lia.
  - exfalso. eapply NT; eauto.
  - destruct (i_reg _ V _ _ _ _ H H0 H1) as [[k ?]|?]; [left; exists k; right; assumption|right; assumption].
  - exfalso. eapply NT; [eassumption|]. destruct t; cbn in *; congruence.
  - exfalso. eapply NT; [eassumption|reflexivity].
  - constructor.
Qed.

Lemma join_inv : forall s i r k c, inv s -> tasks s i = None -> shareable r -> In (k, c) (inflight s) ->
  key_eqb k (request_key r) = true -> inv (set_task s i r (Held c)).
Proof.
  intros s i r k c V Ti SS F1 F2.
  go V.
  - assert (k0 = k) by eauto. subst. exact F2.
  - apply same_request_refl.
  - eapply (key_same _ V _ _ _ _ _ _ F1 F2); eauto.
  - apply same_request_sym. eapply (key_same _ V _ _ _ _ _ _ F1 F2); eauto.
Qed.

Lemma arrive_inv : forall s i r, inv s -> inv (arrive s i r).
Proof.
  intros s i r V. unfold arrive. destruct (tasks s i) as [[r0 t0]|] eqn:Ti; [exact V|].
  destruct (negb enabled || is_mutation r) eqn:Sh.
  - assert (NS : ~ shareable r).
    { unfold shareable. intros [A B]. rewrite A, B in Sh. discriminate. }
    go V.
  - assert (SS : shareable r).
    { apply orb_false_iff in Sh. destruct Sh as [A B]. apply negb_false_iff in A. split; assumption. }
    destruct (lookup (request_key r) (inflight s)) as [c|] eqn:L.
    + unfold lookup in L. destruct (find _ _) as [[k c']|] eqn:F; [|discriminate]. cbn in L.
      injection L as ->. apply find_some in F. cbn [fst] in F. destruct F as [F1 F2].
      eapply join_inv; eauto.
    + cbv zeta. pose proof (alloc_inv s r V L) as V'.
      exact (join_inv _ i r _ (fresh s) V' Ti SS (or_introl eq_refl) (key_eqb_refl r)).
Qed.

Lemma set_empty : forall s c v, inv s -> value (cells s c) = Some v -> owner (cells s c) = None /\ queue (cells s c) = [].
Proof.
  intros s c v V Vc. assert (O : owner (cells s c) = None).
  { destruct (owner (cells s c)) as [j|] eqn:O; [|reflexivity].
    destruct (i_owner _ V _ _ O) as (r & t & H1 & H2). pose proof (i_none _ V _ _ _ _ H1 H2). congruence. }
  split; [exact O|]. destruct (queue (cells s c)) as [|j q] eqn:Q; [reflexivity|].
  exfalso. apply (i_queued _ V c j); [rewrite Q; left; reflexivity|exact O].
Qed.

Lemma wait_inv : forall s i r c n, inv s -> tasks s i = Some (r, Held c) -> value (cells s c) = None ->
  owner (cells s c) = Some n ->
  inv (set_task (set_cell s c (Cell None (owner (cells s c)) (queue (cells s c) ++ [i]))) i r (Waiting c)).
Proof.
  intros s i r c n V Ti Vc Oc. rewrite Oc.
  assert (NQ : forall c', ~ In i (queue (cells s c'))).
  { intros c' H. destruct (i_queue _ V _ _ H) as [r' H']. congruence. }
  go V.
  - destruct (i_reg _ V _ _ _ _ Ti eq_refl Vc) as [?|(j & r' & v' & ?)]; [left; assumption|].
    right. exists j, r', v'. cases.
  - destruct (i_reg _ V _ _ _ _ H H0 Vc) as [?|(j & r' & v' & ?)]; [left; assumption|].
    right. exists j, r', v'. cases.
  - destruct (i_reg _ V _ _ _ _ H H0 H1) as [?|(j & r' & v' & ?)]; [left; assumption|].
    right. exists j, r', v'. cases.
  - pose proof (i_own _ V _ _ _ _ H H0). congruence.
  - apply in_app_or in H. destruct H as [H|[H|[]]]; [eauto|congruence].
  - exfalso. eapply NQ; eauto.
  - apply in_or_app. right. left. reflexivity.
  - apply in_or_app. left. eauto.
  - eapply Permutation_NoDup; [apply Permutation_cons_append|]. constructor; auto.
Qed.

Lemma poll_inv : forall s i, inv s -> inv (poll s i).
Proof.
  intros s i V. unfold poll. destruct (tasks s i) as [[r0 t0]|] eqn:Ti; [|exact V].
  destruct t0; try exact V.
  - destruct (value (cells s c)) eqn:Vc.
    + go V.
    + destruct (owner (cells s c)) eqn:Oc.
      * rewrite <- Oc. eapply wait_inv; eauto.
      * go V. pose proof (i_own _ V _ _ _ _ H H0). congruence.
  - destruct (value (cells s c)) eqn:Vc; [|exact V].
    destruct (set_empty s c r V Vc) as [Oc Qc].
    go V. exfalso. destruct (i_queue _ V _ _ H) as [r' H']. assert (c0 = c) by congruence. subst c0.
    rewrite Qc in H. exact H.
  - go V.
  - go V.
    + exfalso. eapply (i_unstored _ V); eauto.
    + pose proof (i_own _ V _ _ _ _ H H0). pose proof (i_own _ V _ _ _ _ Ti eq_refl). congruence.
    + pose proof (i_own _ V _ _ _ _ H H0). pose proof (i_own _ V _ _ _ _ Ti eq_refl). congruence.
    + constructor.
Qed.

Lemma respond_inv : forall s i v, inv s -> inv (respond s i v).
Proof.
  intros s i v V. unfold respond. destruct (tasks s i) as [[r0 t0]|] eqn:Ti; [|exact V].
  destruct t0; try exact V.
  - go V.
  - assert (IR : forall k c, In (k, c) (remove (request_key r0) (inflight s)) ->
              In (k, c) (inflight s) /\ key_eqb k (request_key r0) = false).
    { intros k c'. unfold remove. rewrite filter_In. cbn. rewrite negb_true_iff. auto. }
    assert (NR : forall k c, In (k, c) (inflight s) -> key_eqb k (request_key r0) = false ->
              In (k, c) (remove (request_key r0) (inflight s))).
    { intros k c' H1 H2. unfold remove. rewrite filter_In. cbn. rewrite negb_true_iff. auto. }
    assert (NC : forall k, ~ In (k, c) (remove (request_key r0) (inflight s))).
    { intros k H. apply IR in H. destruct H as [H1 H2].
      pose proof (i_member _ V _ _ _ _ _ H1 Ti eq_refl). congruence. }
    go V.
    all: try match goal with H : In _ (remove _ _) |- _ => pose proof (IR _ _ H) as [? ?] end; eauto.
    + eapply NC; eauto.
    + apply (i_uniq0 k c0 k' c'); [apply IR, H|apply IR, H0|exact H1].
    + apply (i_cell0 k c0 k'); [apply IR, H|apply IR, H0].
    + right. exists i, r, v. cases.
    + destruct (Nat.eq_dec c0 c) as [->|Nc]; [right; exists i, r0, v; cases|].
      destruct (i_reg _ V _ _ _ _ H H0 H1) as [[k Hk]|(j & r' & v' & ?)].
      * left. exists k. apply NR; [exact Hk|].
        destruct (key_eqb k (request_key r0)) eqn:E1; [|reflexivity]. exfalso.
        destruct (i_reg _ V _ _ _ _ Ti eq_refl (i_none _ V _ _ _ _ Ti eq_refl)) as [[k' Hk']|(j & r' & v' & Hj)].
        -- pose proof (i_member _ V _ _ _ _ _ Hk' Ti eq_refl) as E2.
           apply Nc. eapply (i_uniq _ V _ _ _ _ Hk Hk').
           destruct (i_key _ V _ _ Hk) as [r1 ->]. destruct (i_key _ V _ _ Hk') as [r2 ->].
           apply C46_key. apply C46_key in E1, E2.
           eapply same_request_trans; [exact E1|apply same_request_sym, E2].
        -- pose proof (i_own _ V _ _ _ _ Ti eq_refl). pose proof (i_own _ V _ _ _ _ Hj eq_refl).
           assert (j = i) by congruence. subst j. congruence.
      * right. exists j, r', v'. cases.
Qed.

Lemma release_inv : forall s i r t c, inv s -> tasks s i = Some (r, t) -> t = Granted c \/ t = Sent c ->
  inv (release (set_task s i r Gone) c).
Proof.
  intros s i r t c V Ti Ht. assert (Ot : owning t = Some c) by (destruct Ht; subst; reflexivity).
  pose proof (i_own _ V _ _ _ _ Ti Ot) as Oc. pose proof (i_none _ V _ _ _ _ Ti Ot) as Vc.
  assert (NS : forall c' v, t <> Storing c' v) by (intros; destruct Ht; congruence).
  assert (NW : forall c', t <> Waiting c') by (intros; destruct Ht; congruence).
  assert (At : at_cell t = Some c) by (destruct Ht; subst; reflexivity). clear Ht.
  assert (RC : exists k, In (k, c) (inflight s)).
  { destruct (i_reg _ V _ _ _ _ Ti At Vc) as [?|(j & r' & v' & Hj)]; [assumption|].
    pose proof (i_own _ V _ _ _ _ Hj eq_refl). assert (j = i) by congruence. subst j. congruence. }
  unfold release, set_task, set_cell. cbn [tasks cells fresh inflight]. rewrite Vc.
  destruct (queue (cells s c)) as [|j q] eqn:Q.
  - go V.
    + destruct (i_reg _ V _ _ _ _ H H0 H1) as [?|(j & r' & v' & Hj)]; [left; assumption|].
      right. exists j, r', v'. cases.
    + pose proof (i_own _ V _ _ _ _ H H0). congruence.
    + destruct (i_queue _ V _ _ H) as [r' H']. congruence.
    + pose proof (i_wait _ V _ _ _ H Vc) as W. rewrite Q in W. exact W.
    + constructor.
  - assert (Qj : In j (queue (cells s c))) by (rewrite Q; left; reflexivity).
    destruct (i_queue _ V _ _ Qj) as [rj Tj].
    assert (Nj : j <> i) by (intros ->; congruence).
    pose proof (i_nodup _ V c) as Dq. rewrite Q in Dq. apply NoDup_cons_iff in Dq. destruct Dq as [Dj Dq].
    assert (IQ : forall x, In x q -> In x (queue (cells s c))) by (intros; rewrite Q; right; assumption).
    rewrite (upd_other _ _ _ _ Nj), Tj.
    go V.
    + destruct (i_reg _ V _ _ _ _ H H0 H1) as [?|(j' & r' & v' & Hj)]; [left; assumption|].
      right. exists j', r', v'. cases.
    + pose proof (i_own _ V _ _ _ _ H H0). congruence.
    + destruct (i_queue _ V _ _ (IQ _ H)) as [r' H']. congruence.
    + destruct (i_queue _ V _ _ H) as [r' H']. congruence.
    + destruct (i_queue _ V _ _ H) as [r' H']. congruence.
    + pose proof (i_wait _ V _ _ _ H Vc) as W. rewrite Q in W. destruct W; [congruence|assumption].
Qed.

Lemma cancel_inv : forall s i, inv s -> inv (cancel s i).
Proof.
  intros s i V. unfold cancel. destruct (tasks s i) as [[r0 t0]|] eqn:Ti; [|exact V].
  destruct t0; try exact V.
  - go V.
  - go V.
  - assert (F : forall x, In x (filter (fun j => negb (Nat.eqb j i)) (queue (cells s c))) <->
                          In x (queue (cells s c)) /\ x <> i).
    { intros x. rewrite filter_In, negb_true_iff, Nat.eqb_neq. reflexivity. }
    go V.
    + apply F in H. destruct H. congruence.
    + apply F in H. destruct H. eauto.
    + apply F in H. destruct H. eauto.
    + apply F. split; eauto.
    + apply NoDup_filter, i_nodup0.
  - eapply release_inv; eauto.
  - eapply release_inv; eauto.
Qed.

Lemma step_inv : forall s e, inv s -> inv (step s e).
Proof. intros s [i r|i|i v|i] V; [apply arrive_inv|apply poll_inv|apply respond_inv|apply cancel_inv]; exact V. Qed.

Lemma run_snoc : forall es e, run (es ++ [e]) = step (run es) e.
Proof. intros es e. unfold run. apply fold_left_app. Qed.

Lemma run_inv : forall es, inv (run es).
Proof.
  intros es. induction es as [|e es IH] using rev_ind; [exact init_inv|]. rewrite run_snoc. apply step_inv, IH.
Qed.

(** *** C46: where responses come from *)

Lemma origin_snoc : forall es e i r v, origin es i r v -> origin (es ++ [e]) i r v.
Proof.
  intros es e i r v (before & j & rj & after & E & H). exists before, j, rj, (after ++ [e]).
  split; [|exact H]. rewrite E, <- app_assoc. reflexivity.
Qed.

Record hist (es : list event) (s : state) : Prop := {
  h_answered : forall i r v, tasks s i = Some (r, Answered v) -> origin es i r v;
  h_storing : forall j rj c v i r t, tasks s j = Some (rj, Storing c v) -> tasks s i = Some (r, t) ->
    at_cell t = Some c -> origin es i r v;
  h_set : forall c v i r t, value (cells s c) = Some v -> tasks s i = Some (r, t) -> at_cell t = Some c ->
    origin es i r v
}.

Lemma hist_snoc : forall es e s, hist es s -> hist (es ++ [e]) s.
Proof. intros es e s []. constructor; intros; eapply origin_snoc; eauto. Qed.

Ltac gh Hh := unfold set_task, set_cell; cbn [tasks cells fresh inflight];
  pose proof Hh as Hh'; destruct Hh'; constructor; cbn [tasks cells fresh inflight]; intros; cases; eauto.

Lemma release_hist : forall es s i r t c, inv s -> hist es s -> tasks s i = Some (r, t) -> t = Granted c \/ t = Sent c ->
  hist es (release (set_task s i r Gone) c).
Proof.
  intros es s i r t c V H Ti Ht.
  assert (Ot : owning t = Some c) by (destruct Ht; subst; reflexivity).
  pose proof (i_none _ V _ _ _ _ Ti Ot) as Vc.
  unfold release, set_task, set_cell. cbn [tasks cells fresh inflight]. rewrite Vc.
  destruct (queue (cells s c)) as [|j q] eqn:Q.
  - gh H.
  - assert (Qj : In j (queue (cells s c))) by (rewrite Q; left; reflexivity).
    destruct (i_queue _ V _ _ Qj) as [rj Tj].
    assert (Nj : j <> i) by (intros ->; destruct Ht; congruence).
    rewrite (upd_other _ _ _ _ Nj), Tj.
    gh H. all: eapply h_storing0; eauto; reflexivity.
Qed.

Lemma step_hist : forall es e, hist es (run es) -> hist (es ++ [e]) (step (run es) e).
Proof.
  intros es e H0. pose proof (run_inv es) as V. pose proof (hist_snoc _ e _ H0) as H. clear H0.
  assert (RI : forall i v r t, e = Respond i v -> tasks (run es) i = Some (r, t) -> (t = Direct \/ exists c, t = Sent c) ->
                 forall i' r' t', tasks (run es) i' = Some (r', t') -> (i' = i \/ exists c, at_cell t = Some c /\ at_cell t' = Some c) ->
                 origin (es ++ [e]) i' r' v).
  { intros i v r t -> Ti Ht i' r' t' Ti' Hi. exists es, i, r, []. split; [reflexivity|]. split; [|split].
    - destruct Ht as [->|[c ->]]; [left; exact Ti|right; exists c; exact Ti].
    - exists t'. split; [exact Ti'|]. destruct Hi as [->|(c & _ & A)].
      + rewrite Ti in Ti'. injection Ti' as <- <-. destruct Ht as [->|[c ->]]; split; congruence.
      + destruct t'; cbn in A; try discriminate; split; congruence.
    - destruct Hi as [->|(c & A & B)]; [left; reflexivity|right].
      split; [eapply (i_share _ V); eauto|]. split; [eapply (i_share _ V _ _ _ _ Ti); eauto|].
      eapply (i_same _ V _ _ _ _ _ _ _ Ti); eauto. }
  set (s := run es) in *. clearbody s. destruct e as [i r|i|i v|i]; cbn [step].
  - clear RI. unfold arrive. destruct (tasks s i) as [[r0 t0]|] eqn:Ti; [exact H|].
    destruct (negb enabled || is_mutation r).
    + gh H.
    + destruct (lookup (request_key r) (inflight s)) as [c|] eqn:L.
      * unfold lookup in L. destruct (find _ _) as [[k c']|] eqn:F; [|discriminate]. cbn in L.
        injection L as ->. apply find_some in F. cbn [fst] in F. destruct F as [F1 F2].
        pose proof (i_unset _ V _ _ F1) as U. pose proof (fun i r v => i_unstored _ V _ _ i r v F1) as W.
        gh H. exfalso. eauto.
      * cbv zeta. gh H.
        exfalso. pose proof (i_lt _ V _ _ _ _ H0 eq_refl). lia.
  - clear RI. unfold poll. destruct (tasks s i) as [[r0 t0]|] eqn:Ti; [|exact H].
    destruct t0; try exact H.
    + destruct (value (cells s c)) eqn:Vc.
      * gh H.
        all: try (eapply h_set0; eauto; reflexivity).
      * destruct (owner (cells s c)); gh H.
      all: try (eapply h_storing0; eauto; reflexivity).
    + destruct (value (cells s c)) eqn:Vc; [|exact H]. gh H.
      all: try (eapply h_set0; eauto; reflexivity).
    + gh H.
      all: try (eapply h_storing0; eauto; reflexivity).
    + gh H.
      all: try (eapply h_storing0; eauto; reflexivity).
  - unfold respond. destruct (tasks s i) as [[r0 t0]|] eqn:Ti; [|exact H].
    destruct t0; try exact H.
    + gh H.
    + gh H. eapply (RI _ _ _ _ eq_refl Ti); [right; eauto|eassumption|]. right. exists c0. cbn. auto.
  - clear RI. unfold cancel. destruct (tasks s i) as [[r0 t0]|] eqn:Ti; [|exact H].
    destruct t0; try exact H.
    + gh H.
    + gh H.
    + gh H.
    + eapply release_hist; eauto.
    + eapply release_hist; eauto.
Qed.

Lemma run_hist : forall es, hist es (run es).
Proof.
  intros es. induction es as [|e es IH] using rev_ind.
  - constructor; cbn; intros; discriminate.
  - rewrite run_snoc. apply step_hist, IH.
Qed.

(** The answer a request gets was sent by the subgraph for the same request,
    after the request came in: never an older one. *)
Theorem C46_origin : forall es i r v, tasks (run es) i = Some (r, Answered v) -> origin es i r v.
Proof. intros es i r v H. exact (h_answered _ _ (run_hist es) _ _ _ H). Qed.

(** A mutation, or any request if responses aren't to be shared, is sent at once,
    and its answer is its own. *)
Theorem C46_own : forall es i r, ~ shareable r ->
  (tasks (run es) i = None -> sent (run (es ++ [Arrive i r])) i r) /\
  forall v, tasks (run es) i = Some (r, Answered v) ->
    exists before after, es = before ++ Respond i v :: after /\ sent (run before) i r.
Proof.
  intros es i r NS. split.
  - intros Ti. rewrite run_snoc. cbn [step]. unfold arrive. rewrite Ti.
    assert (E : negb enabled || is_mutation r = true).
    { destruct enabled eqn:E1; [|reflexivity]. destruct (is_mutation r) eqn:E2; [reflexivity|].
      exfalso. apply NS. split; assumption. }
    rewrite E. left. cbn. apply upd_same.
  - intros v H. apply C46_origin in H. destruct H as (before & j & rj & after & E & S1 & L & J).
    destruct J as [->|[J _]]; [|contradiction]. exists before, after. split; [exact E|].
    destruct L as (t & Lt & _). destruct S1 as [S1|[c S1]]; rewrite S1 in Lt; injection Lt as -> _;
    [left; exact S1|right; exists c; exact S1].
Qed.

(** At most one of the requests that are the same is at the subgraph at a time. *)
Theorem C46_single : forall es i r j r',
  sent (run es) i r -> sent (run es) j r' -> shareable r -> shareable r' -> same_request r r' -> i = j.
Proof.
  intros es i r j r' Si Sj Hr Hr' E. pose proof (run_inv es) as V. set (s := run es) in *. clearbody s.
  destruct Si as [Si|[c Si]]; [destruct (i_direct _ V _ _ Si Hr)|].
  destruct Sj as [Sj|[c' Sj]]; [destruct (i_direct _ V _ _ Sj Hr')|].
  assert (R : forall i r c, tasks s i = Some (r, Sent c) -> exists k, In (k, c) (inflight s)).
  { intros i0 r0 c0 H. destruct (i_reg _ V _ _ _ _ H eq_refl (i_none _ V _ _ _ _ H eq_refl)) as [?|(l & r1 & v & Hl)]; [assumption|].
    pose proof (i_own _ V _ _ _ _ H eq_refl). pose proof (i_own _ V _ _ _ _ Hl eq_refl). assert (l = i0) by congruence.
    subst l. congruence. }
  destruct (R _ _ _ Si) as [k Hk]. destruct (R _ _ _ Sj) as [k' Hk'].
  pose proof (i_member _ V _ _ _ _ _ Hk Si eq_refl) as M. pose proof (i_member _ V _ _ _ _ _ Hk' Sj eq_refl) as M'.
  destruct (i_key _ V _ _ Hk) as [r0 ->]. destruct (i_key _ V _ _ Hk') as [r0' ->].
  apply C46_key in M, M'.
  assert (c = c').
  { eapply (i_uniq _ V _ _ _ _ Hk Hk'). apply C46_key.
    eapply same_request_trans; [exact M|]. eapply same_request_trans; [exact E|]. apply same_request_sym, M'. }
  subst c'. pose proof (i_own _ V _ _ _ _ Si eq_refl). pose proof (i_own _ V _ _ _ _ Sj eq_refl). congruence.
Qed.

(** *** C46: nobody is left behind *)

Definition advances (e : event) : Prop := match e with Poll _ | Respond _ _ => True | _ => False end.

Lemma run_app : forall es es', run (es ++ es') = fold_left step es' (run es).
Proof. intros es es'. unfold run. apply fold_left_app. Qed.


Lemma poll_granted : forall s i r c, tasks s i = Some (r, Granted c) -> poll s i = set_task s i r (Sent c).
Proof. intros s i r c H. unfold poll. rewrite H. reflexivity. Qed.
Lemma poll_storing : forall s i r c v, tasks s i = Some (r, Storing c v) ->
  poll s i = set_task (set_cell s c (Cell (Some v) None [])) i r (Answered v).
Proof. intros s i r c v H. unfold poll. rewrite H. reflexivity. Qed.
Lemma respond_sent : forall s i r c v, tasks s i = Some (r, Sent c) ->
  respond s i v = State (upd (tasks s) i (Some (r, Storing c v))) (cells s) (fresh s) (remove (request_key r) (inflight s)).
Proof. intros s i r c v H. unfold respond. rewrite H. reflexivity. Qed.

Lemma owner_advances : forall s i r t c (v0 : response), inv s -> tasks s i = Some (r, t) -> owning t = Some c ->
  exists es v, Forall advances es /\ value (cells (fold_left step es s) c) = Some v /\
    tasks (fold_left step es s) i = Some (r, Answered v) /\
    forall j, j <> i -> tasks (fold_left step es s) j = tasks s j.
Proof.
  intros s i r t c v0 V Ti Ot. destruct t; cbn in Ot; try discriminate; injection Ot as ->.
  - exists [Poll i; Respond i v0; Poll i], v0. split; [repeat constructor|].
    cbn [fold_left step]. rewrite (poll_granted _ _ _ _ Ti).
    rewrite (respond_sent _ i r c v0) by apply upd_same.
    erewrite poll_storing by apply upd_same. unfold set_task, set_cell. cbn [tasks cells]. rewrite !upd_same.
    split; [reflexivity|]. split; [reflexivity|]. intros j Nj. rewrite !upd_other by exact Nj. reflexivity.
  - exists [Respond i v0; Poll i], v0. split; [repeat constructor|].
    cbn [fold_left step]. rewrite (respond_sent _ i r c v0) by exact Ti.
    erewrite poll_storing by apply upd_same. unfold set_task, set_cell. cbn [tasks cells]. rewrite !upd_same.
    split; [reflexivity|]. split; [reflexivity|]. intros j Nj. rewrite !upd_other by exact Nj. reflexivity.
  - exists [Poll i], v. split; [repeat constructor|].
    cbn [fold_left step]. unfold poll, set_task, set_cell. rewrite Ti. cbn [tasks cells]. rewrite !upd_same.
    split; [reflexivity|]. split; [reflexivity|]. intros j Nj. rewrite !upd_other by exact Nj. reflexivity.
Qed.

(** Whatever has happened, including requests dropped at any point, a request that
    is still there can be answered without any other one coming in: it has sent
    its own, or it waits for one that has or can. *)
Theorem C46_progress : forall es i r, response -> live (run es) i r ->
  exists es' v, Forall advances es' /\ tasks (run (es ++ es')) i = Some (r, Answered v).
Proof.
  intros es i r v0 (t & Ti & N1 & N2). pose proof (run_inv es) as V.
  assert (G : exists es' v, Forall advances es' /\ tasks (fold_left step es' (run es)) i = Some (r, Answered v)).
  2:{ destruct G as (es' & v & A & B). exists es', v. split; [exact A|]. rewrite run_app. exact B. }
  set (s := run es) in *. clearbody s. clear es.
  assert (W : forall s, inv s -> forall c, tasks s i = Some (r, Waiting c) ->
     exists es' v, Forall advances es' /\ tasks (fold_left step es' s) i = Some (r, Answered v)).
  { clear s V Ti. intros s V c Ti. destruct (value (cells s c)) as [v|] eqn:Vc.
    - exists [Poll i], v. split; [repeat constructor|]. cbn [fold_left step]. unfold poll. rewrite Ti, Vc.
      cbn. apply upd_same.
    - pose proof (i_wait _ V _ _ _ Ti Vc) as Q. pose proof (i_queued _ V _ _ Q) as O.
      destruct (owner (cells s c)) as [j|] eqn:Oc; [|congruence].
      destruct (i_owner _ V _ _ Oc) as (rj & tj & Tj & Otj).
      destruct (owner_advances s j rj tj c v0 V Tj Otj) as (es' & v & A & B & _ & D).
      assert (Nj : i <> j) by (intros ->; rewrite Ti in Tj; injection Tj as _ <-; discriminate).
      exists (es' ++ [Poll i]), v. split; [apply Forall_app; split; [exact A|repeat constructor]|].
      rewrite fold_left_app. cbn [fold_left step]. unfold poll. rewrite (D _ Nj), Ti, B. cbn. apply upd_same. }
  destruct t; try congruence.
  - exists [Respond i v0], v0. split; [repeat constructor|]. cbn [fold_left step]. unfold respond. rewrite Ti. cbn. apply upd_same.
  - pose proof (poll_inv s i V) as V'. remember (poll s i) as s' eqn:Es.
    assert (P : (exists v, tasks s' i = Some (r, Answered v)) \/ tasks s' i = Some (r, Sent c) \/ tasks s' i = Some (r, Waiting c)).
    { subst s'. unfold poll. rewrite Ti. destruct (value (cells s c)) as [v|]; [left; exists v; cbn; apply upd_same|].
      destruct (owner (cells s c)); [right; right|right; left]; cbn; apply upd_same. }
    assert (Q : exists es' v, Forall advances es' /\ tasks (fold_left step es' s') i = Some (r, Answered v)).
    { destruct P as [[v P]|[P|P]].
      - exists [], v. split; [constructor|exact P].
      - destruct (owner_advances s' i r _ c v0 V' P eq_refl) as (es' & v & A & _ & B & _). exists es', v. auto.
      - eapply W; eauto. }
    destruct Q as (es' & v & A & B). exists (Poll i :: es'), v. split; [constructor; [exact I|exact A]|].
    cbn [fold_left step]. rewrite <- Es. exact B.
  - eapply W; eauto.
  - destruct (owner_advances s i r _ c v0 V Ti eq_refl) as (es' & v & A & _ & B & _). exists es', v. auto.
  - destruct (owner_advances s i r _ c v0 V Ti eq_refl) as (es' & v & A & _ & B & _). exists es', v. auto.
  - destruct (owner_advances s i r _ c v0 V Ti eq_refl) as (es' & v0' & A & _ & B & _). exists es', v0'. auto.
Qed.

End Dedup.

(** *** Examples *)

Definition q (user : string) : request := sample [(b "authorization", b user)].
Definition mut : request := Request 1 (b "http://products/") (b "POST") [] (b "{}") true.

(** Tasks 0, 1 and 2 make the same request: 0 sends it, the others wait; 0 is
    dropped, 1 sends it instead and both get the response. Task 3 makes another. *)
Example C46_origin_example :
  let es := [Arrive nat 0 (q "me"); Poll nat 0; Arrive nat 1 (q "me"); Poll nat 1; Arrive nat 2 (q "me"); Arrive nat 3 (q "you");
             Poll nat 2; Poll nat 3; Cancel nat 0; Poll nat 1; Respond nat 3 7; Respond nat 1 5; Arrive nat 4 (q "me"); Poll nat 4;
             Poll nat 1; Poll nat 2; Poll nat 3] in
  let s := run nat true es in
  map (fun i => option_map snd (tasks nat s i)) [0; 1; 2; 3; 4] =
    [Some (Gone nat); Some (Answered nat 5); Some (Answered nat 5); Some (Answered nat 7); Some (Sent nat 2)].
Proof. vm_compute. reflexivity. Qed.

Example C46_own_example :
  let es := [Arrive nat 0 mut; Arrive nat 1 mut; Respond nat 1 6; Respond nat 0 5] in
  map (fun i => option_map snd (tasks nat (run nat true es) i)) [0; 1] = [Some (Answered nat 5); Some (Answered nat 6)].
Proof. vm_compute. reflexivity. Qed.

(** The map isn't always emptied: when all requests are dropped the cell stays. *)
Theorem C46_leak_refuted : exists es,
  (forall i r, ~ live nat (run nat true es) i r) /\ inflight nat (run nat true es) <> [].
Proof.
  exists [Arrive nat 0 (q "me"); Poll nat 0; Cancel nat 0]. split.
  - intros i r (t & T & N1 & N2). destruct i as [|i].
    + vm_compute in T. injection T as _ <-. congruence.
    + discriminate.
  - vm_compute. discriminate.
Qed.

(** Sharing makes a difference: a response for another user. *)
Theorem C46_other_headers_refuted : exists es i r v j rj before after,
  tasks nat (run nat true es) i = Some (r, Answered nat v) /\ es = before ++ Respond nat j v :: after /\
  tasks nat (run nat true before) j = Some (rj, Sent nat 0) /\ j <> i /\
  ~ Permutation (headers r) (headers rj).
Proof.
  set (r1 := sample [(b "x-user", b "123")]). set (r2 := sample [(b "x-user1", b "23")]).
  exists [Arrive nat 0 r1; Poll nat 0; Arrive nat 1 r2; Poll nat 1; Respond nat 0 5; Poll nat 0; Poll nat 1], 1, r2, 5, 0, r1,
    [Arrive nat 0 r1; Poll nat 0; Arrive nat 1 r2; Poll nat 1], [Poll nat 0; Poll nat 1].
  split; [vm_compute; reflexivity|]. split; [reflexivity|]. split; [vm_compute; reflexivity|]. split; [discriminate|].
  intros P. apply (Permutation_in (b "x-user1", b "23")) in P; [|left; reflexivity].
  destruct P as [P|[]]. discriminate.
Qed.
