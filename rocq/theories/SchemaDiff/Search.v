(* The searches and sorts of Rust's standard library that the two crates use.

   `slice::binary_search_by` and `slice::partition_point` are modelled by the
   loop of the standard library, because two of the callers use them on slices
   that are not ordered for the comparison they pass.  `slice::sort` is a
   stable sort. *)
From Coq Require Import String List Bool Arith Lia Permutation Sorted.
Import ListNotations.

(* core::slice::binary_search_by: `inl i` is `Ok(i)` and `inr i` is `Err(i)`.
   `cmp x` is the order of the element relative to what is searched. *)
Fixpoint bsearch_loop {A} (cmp : A -> comparison) (l : list A) (fuel base size : nat) : nat :=
  match fuel with
  | O => base
  | S fuel =>
      if Nat.leb size 1 then base
      else
        let half := Nat.div2 size in
        let mid := base + half in
        let base :=
          match nth_error l mid with
          | Some x => match cmp x with Gt => base | _ => mid end
          | None => base
          end in
        bsearch_loop cmp l fuel base (size - half)
  end.

Definition bsearch {A} (cmp : A -> comparison) (l : list A) : nat + nat :=
  match l with
  | nil => inr 0
  | _ =>
      let base := bsearch_loop cmp l (length l) 0 (length l) in
      match nth_error l base with
      | Some x => match cmp x with Eq => inl base | Lt => inr (S base) | Gt => inr base end
      | None => inr base
      end
  end.

(* core::slice::partition_point *)
Definition partition_point {A} (pred : A -> bool) (l : list A) : nat :=
  match bsearch (fun x => if pred x then Lt else Gt) l with
  | inl i => i
  | inr i => i
  end.

(* alloc::slice::sort, by insertion. *)
Fixpoint insert {A} (leb : A -> A -> bool) (x : A) (l : list A) : list A :=
  match l with
  | nil => [x]
  | y :: r => if leb x y then x :: l else y :: insert leb x r
  end.

Definition sort {A} (leb : A -> A -> bool) (l : list A) : list A := fold_right (insert leb) nil l.

Fixpoint take_while {A} (p : A -> bool) (l : list A) : list A :=
  match l with
  | nil => nil
  | x :: r => if p x then x :: take_while p r else nil
  end.

(** Facts *)

Lemma insert_perm : forall A (leb : A -> A -> bool) x l, Permutation (x :: l) (insert leb x l).
Proof.
  induction l as [|y l IH]; cbn; [reflexivity|].
  destruct (leb x y); [reflexivity|]. rewrite perm_swap. apply perm_skip. exact IH.
Qed.

Lemma sort_perm : forall A (leb : A -> A -> bool) l, Permutation l (sort leb l).
Proof.
  induction l as [|x l IH]; cbn; [reflexivity|].
  etransitivity; [apply perm_skip; exact IH|]. apply insert_perm.
Qed.

Lemma sort_in : forall A (leb : A -> A -> bool) l x, In x (sort leb l) <-> In x l.
Proof.
  intros. split; apply Permutation_in; [apply Permutation_sym|]; apply sort_perm.
Qed.

Lemma sort_sorted : forall A (leb : A -> A -> bool),
  (forall x y, leb x y = true \/ leb y x = true) ->
  (forall x y z, leb x y = true -> leb y z = true -> leb x z = true) ->
  forall l, StronglySorted (fun x y => leb x y = true) (sort leb l).
Proof.
  intros A leb TOT TR. induction l as [|x l IH]; cbn; [constructor|].
  change (fold_right (insert leb) nil l) with (sort leb l).
  induction IH as [|y r SS IH F]; cbn; [constructor; constructor|].
  destruct (leb x y) eqn:E.
  - constructor; [constructor; auto|]. constructor; [exact E|].
    rewrite Forall_forall in *. intros z Z. eapply TR; [exact E|]. auto.
  - constructor; [exact IH|].
    rewrite Forall_forall in *. intros z Z.
    apply (Permutation_in z (Permutation_sym (insert_perm A leb x r))) in Z.
    destruct Z as [->|Z]; auto. destruct (TOT z y); congruence.
Qed.

Definition rank (c : comparison) : nat := match c with Lt => 0 | Eq => 1 | Gt => 2 end.

(* The slice is ordered for the comparison: first the elements that are less,
   then those that are equal, then those that are greater. *)
Definition ordered {A} (cmp : A -> comparison) (l : list A) : Prop :=
  forall i j x y, i <= j -> nth_error l i = Some x -> nth_error l j = Some y -> rank (cmp x) <= rank (cmp y).

Lemma bsearch_loop_inv : forall A (cmp : A -> comparison) l fuel base size,
  ordered cmp l ->
  1 <= size -> size <= fuel -> base + size <= length l ->
  (forall j y, base + size <= j -> nth_error l j = Some y -> cmp y = Gt) ->
  (base = 0 \/ exists x, nth_error l base = Some x /\ cmp x <> Gt) ->
  let b := bsearch_loop cmp l fuel base size in
  b < length l /\
  (forall j y, b < j -> nth_error l j = Some y -> cmp y = Gt) /\
  (b = 0 \/ exists x, nth_error l b = Some x /\ cmp x <> Gt).
Proof.
  intros A cmp l fuel base size ORD. revert base size.
  induction fuel as [|fuel IH]; intros base size S1 SF BL HI LO; [lia|].
  cbn [bsearch_loop]. destruct (Nat.leb size 1) eqn:E.
  - apply Nat.leb_le in E. cbv zeta. split; [lia|]. split; [|exact LO].
    intros j y J Y. apply (HI j y); [lia|exact Y].
  - apply Nat.leb_gt in E.
    assert (H2 : Nat.div2 size < size /\ 1 <= Nat.div2 size).
    { split; [apply Nat.lt_div2; lia|]. destruct size as [|[|size]]; cbn; lia. }
    destruct (nth_error l (base + Nat.div2 size)) as [x|] eqn:X.
    + destruct (cmp x) eqn:C.
      * apply IH; try lia.
        -- intros j y J Y. apply (HI j y); [lia|exact Y].
        -- right. exists x. split; [exact X|congruence].
      * apply IH; try lia.
        -- intros j y J Y. apply (HI j y); [lia|exact Y].
        -- right. exists x. split; [exact X|congruence].
      * apply IH; try lia; [|exact LO].
        intros j y J Y.
        assert (base + Nat.div2 size <= j).
        { assert (size - Nat.div2 size >= Nat.div2 size); [|lia].
          pose proof (Nat.div2_odd size). destruct (Nat.odd size); cbn in *; lia. }
        pose proof (ORD _ _ _ _ H X Y) as R. rewrite C in R. destruct (cmp y); cbn in R; auto; lia.
    + apply nth_error_None in X. lia.
Qed.

Lemma bsearch_found : forall A (cmp : A -> comparison) l i, bsearch cmp l = inl i ->
  exists x, nth_error l i = Some x /\ cmp x = Eq.
Proof.
  intros A cmp l i. unfold bsearch. destruct l as [|x0 l0]; [discriminate|]. cbv zeta.
  remember (bsearch_loop cmp (x0 :: l0) (length (x0 :: l0)) 0 (length (x0 :: l0))) as b.
  destruct (nth_error (x0 :: l0) b) as [x|] eqn:N; [|discriminate].
  destruct (cmp x) eqn:C; try discriminate. intros [= <-]. exists x. auto.
Qed.

Lemma bsearch_complete : forall A (cmp : A -> comparison) l i x, ordered cmp l ->
  nth_error l i = Some x -> cmp x = Eq -> exists j, bsearch cmp l = inl j.
Proof.
  intros A cmp l i x ORD N C. unfold bsearch. destruct l as [|x0 l0]; [destruct i; discriminate|]. cbv zeta.
  set (l := x0 :: l0) in *.
  destruct (bsearch_loop_inv A cmp l (length l) 0 (length l) ORD) as (B1 & B2 & B3);
    [cbn; lia|lia|lia| |auto|].
  { intros j y J Y. assert (nth_error l j = None) by (apply nth_error_None; lia). congruence. }
  set (b := bsearch_loop cmp l (length l) 0 (length l)) in *.
  destruct (nth_error l b) as [y|] eqn:Y; [|apply nth_error_None in Y; lia].
  assert (LE : i <= b).
  { destruct (le_lt_dec i b); [lia|]. specialize (B2 _ _ l1 N). congruence. }
  destruct B3 as [Z|(y' & Y' & NG)].
  - assert (i = b) by lia. subst i. rewrite N in Y. injection Y as <-. rewrite C. eauto.
  - assert (y' = y) by congruence. subst y'. pose proof (ORD _ _ _ _ LE N Y) as R. rewrite C in R.
    destruct (cmp y); cbn in R; [eauto|lia|congruence].
Qed.

Lemma bsearch_not_found : forall A (cmp : A -> comparison) l i, ordered cmp l -> bsearch cmp l = inr i ->
  i <= length l /\ forall j x, nth_error l j = Some x -> (j < i -> cmp x = Lt) /\ (i <= j -> cmp x = Gt).
Proof.
  intros A cmp l i ORD. unfold bsearch. destruct l as [|x0 l0].
  - intros [= <-]. split; [cbn; lia|]. intros [|j] x; discriminate.
  - cbv zeta. set (l := x0 :: l0) in *.
    destruct (bsearch_loop_inv A cmp l (length l) 0 (length l) ORD) as (B1 & B2 & B3);
      [cbn; lia|lia|lia| |auto|].
    { intros j y J Y. assert (nth_error l j = None) by (apply nth_error_None; lia). congruence. }
    set (b := bsearch_loop cmp l (length l) 0 (length l)) in *.
    destruct (nth_error l b) as [y|] eqn:Y; [|apply nth_error_None in Y; lia].
    destruct (cmp y) eqn:C; [discriminate| |]; intros [= <-].
    + split; [lia|]. intros j x X. split; intros J.
      * assert (L : j <= b) by lia. pose proof (ORD _ _ _ _ L X Y) as R. rewrite C in R.
        destruct (cmp x); cbn in R; auto; lia.
      * apply (B2 j); auto.
    + destruct B3 as [Z|(y' & Y' & NG)]; [|assert (y' = y) by congruence; subst y'; congruence].
      split; [lia|]. intros j x X. split; intros J; [lia|].
      destruct (Nat.eq_dec j b) as [->|NE]; [congruence|]. apply (B2 j); [lia|exact X].
Qed.

(* A predicate that holds of a prefix is partitioned at the end of the prefix. *)
Lemma partition_point_spec : forall A (pred : A -> bool) l,
  (forall i j x y, i <= j -> nth_error l i = Some x -> nth_error l j = Some y -> pred y = true -> pred x = true) ->
  let p := partition_point pred l in
  p <= length l /\ forall j x, nth_error l j = Some x -> (j < p -> pred x = true) /\ (p <= j -> pred x = false).
Proof.
  intros A pred l MON. unfold partition_point.
  set (cmp := fun x => if pred x then Lt else Gt).
  assert (ORD : ordered cmp l).
  { intros i j x y L X Y. unfold cmp. specialize (MON i j x y L X Y).
    destruct (pred x), (pred y); cbn; auto; try lia. }
  destruct (bsearch cmp l) as [i|i] eqn:E.
  - exfalso. destruct (bsearch_found _ _ _ _ E) as (x & _ & C). unfold cmp in C. destruct (pred x); discriminate.
  - destruct (bsearch_not_found _ _ _ _ ORD E) as [LE H]. split; [exact LE|].
    intros j x X. destruct (H j x X) as [H1 H2]. unfold cmp in *. split; intros J; [specialize (H1 J)|specialize (H2 J)];
      destruct (pred x); congruence.
Qed.

(** The order of strings. *)
Lemma compare_refl : forall s, String.compare s s = Eq.
Proof.
  induction s as [|c s IH]; cbn; [reflexivity|].
  unfold Ascii.compare. rewrite BinNat.N.compare_refl. exact IH.
Qed.

Lemma compare_eq : forall a b, String.compare a b = Eq <-> a = b.
Proof.
  intros. split; [apply String.compare_eq_iff|]. intros ->. apply compare_refl.
Qed.

Lemma compare_trans_lt : forall a b c, String.compare a b = Lt -> String.compare b c = Lt -> String.compare a c = Lt.
Proof.
  induction a as [|x a IH]; intros [|y b] [|z c] AB BC; cbn in *; try congruence.
  unfold Ascii.compare in *.
  destruct (BinNat.N.compare (Ascii.N_of_ascii x) (Ascii.N_of_ascii y)) eqn:XY; try discriminate;
    destruct (BinNat.N.compare (Ascii.N_of_ascii y) (Ascii.N_of_ascii z)) eqn:YZ; try discriminate.
  - apply BinNat.N.compare_eq in XY, YZ. rewrite XY, YZ, BinNat.N.compare_refl. eauto.
  - apply BinNat.N.compare_eq in XY. rewrite XY, YZ. reflexivity.
  - apply BinNat.N.compare_eq in YZ. rewrite <- YZ, XY. reflexivity.
  - assert (H : BinNat.N.compare (Ascii.N_of_ascii x) (Ascii.N_of_ascii z) = Lt).
    { rewrite BinNat.N.compare_lt_iff in *. eapply BinNat.N.lt_trans; eauto. }
    rewrite H. reflexivity.
Qed.

Lemma compare_flip : forall a b, String.compare a b = CompOpp (String.compare b a).
Proof. intros. apply String.compare_antisym. Qed.
