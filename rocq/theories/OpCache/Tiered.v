(** The operation cache of the gateways (C28).

    Modelled code (crates/runtime-local/src/operation_cache):
    - in_memory.rs 45-61 (insert and get; a capacity of 0 disables it)
    - redis.rs 30-76 (insert and get of the shared store)
    - tiered.rs 32-58 (insert and get through both)

    Every gateway has its own memory tier; the store is shared.  Looking up a
    key takes several steps, and so does inserting (the store is written to by a
    task of its own); other gateways and requests run in between.  Simplifications:
    - Evictions by mini_moka and by Redis are events which may happen at any time.
    - A value which can't be encoded or decoded, and any network failure, is a
      failed operation ([ok] = false): nothing is written, nothing is found.
    - Encoding and decoding (postcard) are not modelled.
    - Strings are lists of bytes. *)

From Coq Require Import List Arith NArith Bool Lia.
Import ListNotations.
Local Open Scope nat_scope.

Definition bytes := list N.

Definition beqb (a b : bytes) : bool := if list_eq_dec N.eq_dec a b then true else false.

Section Tiered.
  Variable V : Type.
  (** Of a gateway: whether the memory tier is enabled, whether it uses the
      shared store, and its prefix for the keys. *)
  Variable enabled distributed : nat -> bool.
  Variable prefix : nat -> bytes.

  (** Where a lookup is: memory, store, putting what was found in the store into
      memory, done. *)
  Inductive rstate :=
  | RMem
  | RRedis
  | RFound (v : V)
  | RDone (r : option V).

  Record tier := MkT {
    t_mem : nat -> bytes -> option V;
    t_redis : bytes -> option V;
    (** Writes to the store not done yet. *)
    t_writes : list (bytes * V);
    t_readers : list (nat * bytes * rstate)
  }.

  Definition t_new : tier := MkT (fun _ _ => None) (fun _ => None) [] [].

  Definition upd (m : bytes -> option V) (k : bytes) (v : option V) : bytes -> option V :=
    fun k' => if beqb k k' then v else m k'.
  Definition upd_mem (m : nat -> bytes -> option V) (g : nat) (k : bytes) (v : option V) : nat -> bytes -> option V :=
    fun g' => if g =? g' then upd (m g) k v else m g'.

  (** in_memory.rs 45-49 *)
  Definition mem_insert (t : tier) (g : nat) (k : bytes) (v : V) : tier :=
    if enabled g
    then MkT (upd_mem (t_mem t) g k (Some v)) (t_redis t) (t_writes t) (t_readers t)
    else t.

  (** in_memory.rs 51-56 *)
  Definition mem_get (t : tier) (g : nat) (k : bytes) : option V :=
    if enabled g then t_mem t g k else None.

  (** redis.rs 36-37, 51: format!("{}{key}", self.key_prefix) *)
  Definition redis_key (g : nat) (k : bytes) : bytes := prefix g ++ k.

  (** tiered.rs 37-45 *)
  Definition t_insert (t : tier) (g : nat) (k : bytes) (v : V) : tier :=
    let t1 := mem_insert t g k v in
    if distributed g
    then MkT (t_mem t1) (t_redis t1) (t_writes t1 ++ [(redis_key g k, v)]) (t_readers t1)
    else t1.

  Fixpoint set_nth {A} (n : nat) (x : A) (l : list A) : list A :=
    match l, n with
    | [], _ => []
    | _ :: r, O => x :: r
    | y :: r, S n' => y :: set_nth n' x r
    end.

  Fixpoint remove_nth {A} (n : nat) (l : list A) : list A :=
    match l, n with
    | [], _ => []
    | _ :: r, O => r
    | y :: r, S n' => y :: remove_nth n' r
    end.

  Inductive event :=
  (** a value is inserted by a gateway *)
  | TInsert (g : nat) (k : bytes) (v : V)
  (** a gateway starts looking up a key *)
  | TGet (g : nat) (k : bytes)
  (** the next step of a lookup *)
  | TStep (i : nat) (ok : bool)
  (** a write to the store *)
  | TWrite (i : nat) (ok : bool)
  | TEvict (g : nat) (k : bytes)
  | TExpire (k : bytes).

  (** get of tiered.rs 47-57, one step. *)
  Definition t_step_reader (t : tier) (i : nat) (ok : bool) : tier :=
    match nth_error (t_readers t) i with
    | None => t
    | Some (g, k, st) =>
        let become (t : tier) st' := MkT (t_mem t) (t_redis t) (t_writes t) (set_nth i (g, k, st') (t_readers t)) in
        match st with
        | RMem =>
            match mem_get t g k with
            | Some v => become t (RDone (Some v))
            | None => become t (if distributed g then RRedis else RDone None)
            end
        | RRedis =>
            match (if ok then t_redis t (redis_key g k) else None) with
            | Some v => become t (RFound v)
            | None => become t (RDone None)
            end
        | RFound v => become (mem_insert t g k v) (RDone (Some v))
        | RDone _ => t
        end
    end.

  Definition t_step (t : tier) (e : event) : tier :=
    match e with
    | TInsert g k v => t_insert t g k v
    | TGet g k => MkT (t_mem t) (t_redis t) (t_writes t) (t_readers t ++ [(g, k, RMem)])
    | TStep i ok => t_step_reader t i ok
    | TWrite i ok =>
        match nth_error (t_writes t) i with
        | None => t
        | Some (k, v) =>
            MkT (t_mem t) (if ok then upd (t_redis t) k (Some v) else t_redis t)
              (remove_nth i (t_writes t)) (t_readers t)
        end
    | TEvict g k => MkT (upd_mem (t_mem t) g k None) (t_redis t) (t_writes t) (t_readers t)
    | TExpire k => MkT (t_mem t) (upd (t_redis t) k None) (t_writes t) (t_readers t)
    end.

  Definition t_run (es : list event) : tier := fold_left t_step es t_new.

  (** ** What is claimed *)

  (** A single cache from which nothing is ever evicted. *)
  Fixpoint unbounded (es : list event) (k : bytes) : option V :=
    match es with
    | [] => None
    | e :: r =>
        match unbounded r k with
        | Some v => Some v
        | None => match e with TInsert _ k' v => if beqb k' k then Some v else None | _ => None end
        end
    end.

  Definition inserted (es : list event) (k : bytes) (v : V) : Prop := exists g, In (TInsert g k v) es.

  (** All keys have the same length (they end in a digest). *)
  Definition same_length (n : nat) (e : event) : Prop :=
    match e with TInsert _ k _ | TGet _ k => List.length k = n | _ => True end.

  (** ** Proofs *)

  Lemma beqb_eq : forall a b, beqb a b = true <-> a = b.
  Proof. intros a b. unfold beqb. destruct (list_eq_dec N.eq_dec a b); split; congruence. Qed.

  Lemma beqb_refl : forall a, beqb a a = true.
  Proof. intros a. apply beqb_eq. reflexivity. Qed.

  Lemma nth_set : forall A (l : list A) n x m y, nth_error (set_nth n x l) m = Some y ->
    (m = n /\ y = x) \/ nth_error l m = Some y.
  Proof.
    induction l as [|a l IH]; intros [|n] x [|m] y H; cbn in *; auto; try discriminate.
    - left. inversion H. auto.
    - destruct (IH n x m y H) as [[-> ->]|X]; auto.
  Qed.

  Lemma nth_set_same : forall A (l : list A) n x y, nth_error l n = Some y -> nth_error (set_nth n x l) n = Some x.
  Proof. induction l as [|a l IH]; intros [|n] x y H; cbn in *; try discriminate; eauto. Qed.

  Lemma in_remove : forall A (l : list A) n x, In x (remove_nth n l) -> In x l.
  Proof.
    induction l as [|a l IH]; intros [|n] x H; cbn in *; auto. destruct H as [->|H]; eauto.
  Qed.

  Lemma app_same_length : forall A (p q k k' : list A), List.length k = List.length k' -> p ++ k = q ++ k' -> p = q /\ k = k'.
  Proof.
    induction p as [|a p IH]; intros [|b q] k k' L E; cbn in *.
    - auto.
    - exfalso. subst k. cbn in L. rewrite app_length in L. lia.
    - exfalso. subst k'. cbn in L. rewrite app_length in L. lia.
    - inversion E; subst. destruct (IH q k k' L H1) as [-> ->]. auto.
  Qed.

  (** Everything in the caches was inserted. *)
  Record sound (n : nat) (es : list event) (t : tier) : Prop := MkSound {
    sd_mem : forall g k v, t_mem t g k = Some v -> inserted es k v;
    sd_redis : forall p k v, List.length k = n -> t_redis t (p ++ k) = Some v -> inserted es k v;
    sd_writes : forall p k v, List.length k = n -> In (p ++ k, v) (t_writes t) -> inserted es k v;
    sd_found : forall i g k v, nth_error (t_readers t) i = Some (g, k, RFound v) -> inserted es k v;
    sd_done : forall i g k v, nth_error (t_readers t) i = Some (g, k, RDone (Some v)) -> inserted es k v;
    sd_len : forall i g k st, nth_error (t_readers t) i = Some (g, k, st) -> List.length k = n
  }.

  Lemma mem_insert_mem : forall t g k v g' k' v', t_mem (mem_insert t g k v) g' k' = Some v' ->
    (g' = g /\ k' = k /\ v' = v) \/ t_mem t g' k' = Some v'.
  Proof.
    intros t g k v g' k' v' H. unfold mem_insert in H. destruct (enabled g); [|auto]. cbn in H. unfold upd_mem in H.
    destruct (g =? g') eqn:Eg; [|auto]. apply Nat.eqb_eq in Eg. subst g'. unfold upd in H.
    destruct (beqb k k') eqn:Ek; [|auto]. apply beqb_eq in Ek. subst. inversion H; subst. left. auto.
  Qed.

  Lemma mem_insert_rest : forall t g k v, t_redis (mem_insert t g k v) = t_redis t /\
    t_writes (mem_insert t g k v) = t_writes t /\ t_readers (mem_insert t g k v) = t_readers t.
  Proof. intros t g k v. unfold mem_insert. destruct (enabled g); auto. Qed.

  Lemma inserted_app : forall es e k v, inserted es k v -> inserted (es ++ [e]) k v.
  Proof. intros es e k v (g & H). exists g. apply in_or_app. left. exact H. Qed.

  Lemma inserted_here : forall es g k v, inserted (es ++ [TInsert g k v]) k v.
  Proof. intros es g k v. exists g. apply in_or_app. right. left. reflexivity. Qed.

  Lemma sound_step : forall n es t e, sound n es t -> same_length n e -> sound n (es ++ [e]) (t_step t e).
  Proof.
    intros n es t e [Sm Sr Sw Sf Sd Sl] Le.
    assert (Keep : forall k v, inserted es k v -> inserted (es ++ [e]) k v) by (intros; apply inserted_app; assumption).
    destruct e as [g k v|g k|i ok|i ok|g k|k]; cbn [t_step].
    - cbn in Le. unfold t_insert. destruct (mem_insert_rest t g k v) as (Er & Ew & Ed).
      assert (M : forall g' k' v', t_mem (mem_insert t g k v) g' k' = Some v' -> inserted (es ++ [TInsert g k v]) k' v').
      { intros g' k' v' H. apply mem_insert_mem in H. destruct H as [(-> & -> & ->)|H]; [apply inserted_here|eauto]. }
      destruct (distributed g); constructor; cbn; rewrite ?Er, ?Ew, ?Ed; eauto.
      intros p k' v' L H. apply in_app_iff in H. destruct H as [H|[H|[]]]; [eauto|].
      unfold redis_key in H. inversion H; subst.
      destruct (app_same_length _ (prefix g) p k k') as [_ ->]; [congruence|congruence|]. apply inserted_here.
    - cbn in Le. constructor; cbn; eauto.
      + intros i g' k' v' H. destruct (Nat.lt_ge_cases i (List.length (t_readers t))) as [C|C].
        * rewrite nth_error_app1 in H by exact C. eauto.
        * rewrite nth_error_app2 in H by exact C. destruct (i - List.length (t_readers t)) as [|[|j]]; discriminate.
      + intros i g' k' v' H. destruct (Nat.lt_ge_cases i (List.length (t_readers t))) as [C|C].
        * rewrite nth_error_app1 in H by exact C. eauto.
        * rewrite nth_error_app2 in H by exact C. destruct (i - List.length (t_readers t)) as [|[|j]]; discriminate.
      + intros i g' k' st H. destruct (Nat.lt_ge_cases i (List.length (t_readers t))) as [C|C].
        * rewrite nth_error_app1 in H by exact C. eauto.
        * rewrite nth_error_app2 in H by exact C. destruct (i - List.length (t_readers t)) as [|[|j]]; cbn in H; inversion H; subst; reflexivity.
    - unfold t_step_reader. destruct (nth_error (t_readers t) i) as [[[g k] st]|] eqn:En; [|constructor; eauto].
      assert (Ln : List.length k = n) by eauto.
      assert (B : forall t' st', t_redis t' = t_redis t -> t_writes t' = t_writes t -> t_readers t' = t_readers t ->
        (forall g' k' v', t_mem t' g' k' = Some v' -> inserted es k' v') ->
        (forall v', st' = RFound v' \/ st' = RDone (Some v') -> inserted es k v') ->
        sound n (es ++ [TStep i ok]) (MkT (t_mem t') (t_redis t') (t_writes t') (set_nth i (g, k, st') (t_readers t')))).
      { intros t' st' Er Ew Ed M N. constructor; cbn; rewrite ?Er, ?Ew, ?Ed; eauto.
        - intros j g' k' v' H. apply nth_set in H. destruct H as [[-> H]|H]; [|eauto]. inversion H; subst. eauto.
        - intros j g' k' v' H. apply nth_set in H. destruct H as [[-> H]|H]; [|eauto]. inversion H; subst. eauto.
        - intros j g' k' st'' H. apply nth_set in H. destruct H as [[-> H]|H]; [|eauto]. inversion H; subst. reflexivity. }
      destruct st as [| |v|r].
      + unfold mem_get. destruct (enabled g).
        * destruct (t_mem t g k) as [v|] eqn:Em.
          -- apply B; auto. intros v' [H|H]; inversion H; subst. eauto.
          -- apply B; auto. intros v' H. destruct (distributed g); destruct H as [H|H]; discriminate.
        * apply B; auto. intros v' H. destruct (distributed g); destruct H as [H|H]; discriminate.
      + destruct (if ok then t_redis t (redis_key g k) else None) as [v|] eqn:Er.
        * apply B; auto. intros v' [H|H]; inversion H; subst. destruct ok; [|discriminate]. eapply Sr; [reflexivity|exact Er].
        * apply B; auto. intros v' [H|H]; inversion H; subst.
      + destruct (mem_insert_rest t g k v) as (Er & Ew & Ed). apply B; auto.
        * intros g' k' v' H. apply mem_insert_mem in H. destruct H as [(-> & -> & ->)|H]; eauto.
        * intros v' [H|H]; inversion H; subst. eauto.
      + constructor; eauto.
    - destruct (nth_error (t_writes t) i) as [[k v]|] eqn:En; [|constructor; eauto].
      constructor; cbn; eauto.
      + intros p k' v' L H. destruct ok; [|eauto]. unfold upd in H. destruct (beqb k (p ++ k')) eqn:Ek; [|eauto].
        apply beqb_eq in Ek. subst. inversion H; subst. apply nth_error_In in En. eauto.
      + intros p k' v' L H. apply in_remove in H. eauto.
    - constructor; cbn; eauto. intros g' k' v' H. unfold upd_mem in H. destruct (g =? g') eqn:Eg; [|eauto].
      apply Nat.eqb_eq in Eg. subst. unfold upd in H. destruct (beqb k k'); [discriminate|eauto].
    - constructor; cbn; eauto. intros p k' v' L H. unfold upd in H. destruct (beqb k (p ++ k')); [discriminate|eauto].
  Qed.

  Lemma sound_run : forall n es, Forall (same_length n) es -> sound n es (t_run es).
  Proof.
    intros n es. induction es as [|e es IH] using rev_ind; intros H.
    - unfold t_run. cbn. constructor; cbn; intros; try discriminate; try contradiction;
        destruct i; discriminate.
    - apply Forall_app in H. destruct H as [H1 H2]. inversion H2; subst. unfold t_run. rewrite fold_left_app. cbn.
      apply sound_step; [apply IH; exact H1|assumption].
  Qed.

  (** Whatever a lookup finds was inserted under that key before. *)
  Theorem C28_found_was_inserted : forall n es i g k v, Forall (same_length n) es ->
    nth_error (t_readers (t_run es)) i = Some (g, k, RDone (Some v)) -> inserted es k v.
  Proof. intros n es i g k v H E. exact (sd_done _ _ _ (sound_run n es H) i g k v E). Qed.

  Lemma unbounded_inserted : forall es k v, inserted es k v -> exists v', unbounded es k = Some v' /\ inserted es k v'.
  Proof.
    induction es as [|e es IH]; intros k v (g & I); [destruct I|]. cbn [unbounded].
    destruct (unbounded es k) as [v'|] eqn:U.
    - exists v'. split; [reflexivity|].
      assert (A : forall es v', unbounded es k = Some v' -> inserted es k v').
      { clear. induction es as [|e es IH]; intros v' H; [discriminate|]. cbn in H.
        destruct (unbounded es k) as [w|] eqn:U.
        - inversion H; subst. destruct (IH v' eq_refl) as (g & I). exists g. right. exact I.
        - destruct e as [g k' w|g k'|i ok|i ok|g k'|k']; try discriminate. destruct (beqb k' k) eqn:E; [|discriminate].
          apply beqb_eq in E. inversion H; subst. exists g. left. reflexivity. }
      destruct (A es v' U) as (g' & J). exists g'. right. exact J.
    - destruct I as [->|I].
      + rewrite beqb_refl. exists v. split; [reflexivity|]. exists g. left. reflexivity.
      + destruct (IH k v (ex_intro _ g I)) as (v' & X & _). congruence.
  Qed.

  (** When the values inserted under a key are all the same, a lookup misses or
      finds what an unbounded cache would have. *)
  Theorem C28_transparent : forall n es i g k r, Forall (same_length n) es ->
    (forall k v v', inserted es k v -> inserted es k v' -> v = v') ->
    nth_error (t_readers (t_run es)) i = Some (g, k, RDone r) -> r = None \/ r = unbounded es k.
  Proof.
    intros n es i g k [v|] H F E; [right|left; reflexivity].
    pose proof (C28_found_was_inserted n es i g k v H E) as I.
    destruct (unbounded_inserted es k v I) as (v' & -> & I'). f_equal. eapply F; eassumption.
  Qed.

  (** What is in memory is found in a step, what is in the store in three, and
      from then on in memory. *)
  Theorem C28_hits : forall t i g k v ok, nth_error (t_readers t) i = Some (g, k, RMem) ->
    (mem_get t g k = Some v ->
     nth_error (t_readers (t_step t (TStep i ok))) i = Some (g, k, RDone (Some v))) /\
    (mem_get t g k = None -> distributed g = true -> t_redis t (redis_key g k) = Some v ->
     let t' := fold_left t_step [TStep i true; TStep i true; TStep i true] t in
     nth_error (t_readers t') i = Some (g, k, RDone (Some v)) /\
     (enabled g = true -> mem_get t' g k = Some v)).
  Proof.
    intros t i g k v ok En. split.
    - intros M. cbn. unfold t_step_reader. rewrite En, M. cbn. eapply nth_set_same. exact En.
    - intros M D R. cbn [fold_left t_step].
      assert (S1 : t_step_reader t i true = MkT (t_mem t) (t_redis t) (t_writes t) (set_nth i (g, k, RRedis) (t_readers t))).
      { unfold t_step_reader. rewrite En, M, D. reflexivity. }
      rewrite S1. set (t1 := MkT _ _ _ (set_nth i (g, k, RRedis) (t_readers t))).
      assert (E1 : nth_error (t_readers t1) i = Some (g, k, RRedis)) by (eapply nth_set_same; exact En).
      assert (S2 : t_step_reader t1 i true = MkT (t_mem t1) (t_redis t1) (t_writes t1) (set_nth i (g, k, RFound v) (t_readers t1))).
      { unfold t_step_reader. rewrite E1. cbn [t1 t_redis]. rewrite R. reflexivity. }
      rewrite S2. set (t2 := MkT _ _ _ (set_nth i (g, k, RFound v) (t_readers t1))).
      assert (E2 : nth_error (t_readers t2) i = Some (g, k, RFound v)) by (eapply nth_set_same; exact E1).
      unfold t_step_reader. rewrite E2. cbn [t_readers]. destruct (mem_insert_rest t2 g k v) as (_ & _ & Ed). rewrite Ed.
      split; [eapply nth_set_same; exact E2|]. intros Eg. unfold mem_get, mem_insert. rewrite Eg. cbn.
      unfold upd_mem. rewrite Nat.eqb_refl. unfold upd. rewrite beqb_refl. reflexivity.
  Qed.
End Tiered.

Arguments TInsert {V}. Arguments TGet {V}. Arguments TStep {V}. Arguments TWrite {V}.
Arguments TEvict {V}. Arguments TExpire {V}.
Arguments RMem {V}. Arguments RRedis {V}. Arguments RFound {V}. Arguments RDone {V}.
Arguments t_readers {V}. Arguments t_mem {V}. Arguments t_redis {V}. Arguments t_writes {V}.
Arguments inserted {V}. Arguments unbounded {V}. Arguments same_length {V}.

(** Gateway 0 inserts; gateway 1 misses before the write to the store happened,
    and finds the value afterwards; then 1 evicts it, and finds it again. *)
Example C28_example :
  let es := [TInsert 0 [7%N] 42; TGet 1 [7%N]; TStep 0 true; TStep 0 true; TWrite 0 true;
             TGet 1 [7%N]; TStep 1 true; TStep 1 true; TStep 1 true;
             TEvict 1 [7%N]; TGet 1 [7%N]; TStep 2 true; TStep 2 true; TStep 2 true] in
  t_readers (t_run nat (fun _ => true) (fun _ => true) (fun _ => []) es) =
    [(1, [7%N], RDone None); (1, [7%N], RDone (Some 42)); (1, [7%N], RDone (Some 42))].
Proof. reflexivity. Qed.

(** When different values are inserted under a key, a gateway goes on with the
    old one: the last value inserted is not always the one found. *)
Theorem C28_last_value_refuted : exists es,
  Forall (same_length 1) es /\ unbounded es [7%N] = Some 2 /\
  nth_error (t_readers (t_run nat (fun _ => true) (fun _ => true) (fun _ => []) es)) 0 = Some (0, [7%N], RDone (Some 1)).
Proof.
  exists [TInsert 0 [7%N] 1; TInsert 1 [7%N] 2; TWrite 0 true; TWrite 0 true; TGet 0 [7%N]; TStep 0 true].
  split; [repeat constructor|]. split; reflexivity.
Qed.

(** With keys of different lengths, the keys of two gateways with different
    prefixes could be the same. *)
Theorem C28_lengths_needed_refuted : exists es v,
  nth_error (t_readers (t_run nat (fun _ => true) (fun _ => true) (fun g => if g =? 0 then [1%N] else [1%N; 2%N]) es)) 0
    = Some (1, [3%N], RDone (Some v)) /\ ~ inserted es [3%N] v.
Proof.
  exists [TInsert 0 [2%N; 3%N] 5; TWrite 0 true; TGet 1 [3%N]; TStep 0 true; TStep 0 true; TStep 0 true], 5.
  split; [reflexivity|]. intros (g & I). cbn in I. intuition discriminate.
Qed.
