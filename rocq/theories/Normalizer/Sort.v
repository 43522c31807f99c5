(** Lemmas about stable sorting and about the order of names. *)

From Coq Require Import String Ascii List Bool Permutation NArith Sorted Lia.
From Verif Require Import Normalizer.Model.
Import ListNotations.
Local Open Scope list_scope.

(** Comparisons that [sort_by] accepts: total preorders. *)
Record total {A} (cmp : A -> A -> comparison) : Prop := {
  cmp_anti : forall x y, cmp y x = CompOpp (cmp x y);
  cmp_trans : forall x y z, cmp x y <> Gt -> cmp y z <> Gt -> cmp x z <> Gt
}.

Lemma ascii_compare_anti : forall a b, Ascii.compare b a = CompOpp (Ascii.compare a b).
Proof. intros a b. unfold Ascii.compare. apply N.compare_antisym. Qed.

Lemma string_compare_lt_trans : forall s t u,
  String.compare s t <> Gt -> String.compare t u <> Gt -> String.compare s u <> Gt.
Proof.
  induction s as [|a s IH]; intros t u H1 H2.
  - destruct u; cbn; discriminate.
  - destruct t as [|b t]; [cbn in H1; congruence|].
    destruct u as [|c u]; [cbn in H2; congruence|].
    cbn [String.compare] in *. unfold Ascii.compare in *.
    destruct (N.compare_spec (N_of_ascii a) (N_of_ascii b)) as [E1|E1|E1]; try congruence;
    destruct (N.compare_spec (N_of_ascii b) (N_of_ascii c)) as [E2|E2|E2]; try congruence;
    destruct (N.compare_spec (N_of_ascii a) (N_of_ascii c)) as [E3|E3|E3]; try congruence; try (exfalso; lia).
    eapply IH; eauto.
Qed.

Lemma string_total : total String.compare.
Proof.
  split; [intros; apply String.compare_antisym|apply string_compare_lt_trans].
Qed.

Lemma total_on {A B} (f : A -> B) cmp : total cmp -> total (fun x y => cmp (f x) (f y)).
Proof. intros [H1 H2]. split; intros; [apply H1|eapply H2; eauto]. Qed.

Section Sorting.
  Context {A : Type} (cmp : A -> A -> comparison) (T : total cmp).

  Lemma cmp_refl : forall x, cmp x x = Eq.
  Proof. intro x. pose proof (cmp_anti _ T x x) as H. destruct (cmp x x); cbn in H; congruence. Qed.

  Lemma cmp_gt_trans : forall x y z, cmp x y = Gt -> cmp y z = Gt -> cmp x z = Gt.
  Proof.
    intros x y z H1 H2.
    destruct (cmp x z) eqn:E; [| |reflexivity]; exfalso.
    - assert (cmp z x <> Gt) by (rewrite (cmp_anti _ T x z), E; discriminate).
      assert (cmp x y <> Gt -> False) by congruence.
      assert (H3 : cmp z y = Lt) by (rewrite (cmp_anti _ T y z), H2; reflexivity).
      apply H0. eapply (cmp_trans _ T x z y); congruence.
    - assert (H3 : cmp z y = Lt) by (rewrite (cmp_anti _ T y z), H2; reflexivity).
      apply (cmp_trans _ T x z y); congruence.
  Qed.

  Lemma cmp_lt_gt : forall x y z, cmp x y = Lt -> cmp x z = Gt -> cmp y z = Gt.
  Proof.
    intros x y z H1 H2. eapply cmp_gt_trans; [|exact H2]. rewrite (cmp_anti _ T x y), H1. reflexivity.
  Qed.

  Lemma insert_comm : forall x y l, cmp x y <> Eq -> insert_by cmp x (insert_by cmp y l) = insert_by cmp y (insert_by cmp x l).
  Proof.
    intros x y l H.
    assert (main : forall x y, cmp x y = Lt -> insert_by cmp x (insert_by cmp y l) = insert_by cmp y (insert_by cmp x l)).
    { clear x y H. intros x y L.
      assert (G : cmp y x = Gt) by (rewrite (cmp_anti _ T x y), L; reflexivity).
      induction l as [|z r IH]; cbn [insert_by].
      - rewrite L, G. reflexivity.
      - destruct (cmp x z) eqn:Ex.
        + assert (cmp y z = Gt).
          { destruct (cmp y z) eqn:E; [| |reflexivity]; exfalso;
              apply (cmp_trans _ T y z x); try congruence; rewrite (cmp_anti _ T x z), Ex; discriminate. }
          rewrite H. cbn [insert_by]. rewrite Ex, G, H. reflexivity.
        + destruct (cmp y z) eqn:Ey; cbn [insert_by]; rewrite ?Ex, ?L, ?G, ?Ey; reflexivity.
        + rewrite (cmp_lt_gt x y z L Ex). cbn [insert_by]. rewrite Ex, (cmp_lt_gt x y z L Ex), IH. reflexivity. }
    destruct (cmp x y) eqn:E; [congruence|apply main; assumption|].
    symmetry. apply main. rewrite (cmp_anti _ T x y), E. reflexivity.
  Qed.

  Lemma insert_perm : forall x l, Permutation (x :: l) (insert_by cmp x l).
  Proof.
    induction l as [|y r IH]; cbn [insert_by]; [reflexivity|].
    destruct (cmp x y); try reflexivity.
    rewrite perm_swap. constructor. exact IH.
  Qed.

  Lemma sort_perm : forall l, Permutation l (sort_by cmp l).
  Proof.
    induction l as [|x r IH]; cbn; [reflexivity|].
    etransitivity; [|apply insert_perm]. constructor. exact IH.
  Qed.

  Definition le x y := cmp x y <> Gt.

  Lemma insert_sorted : forall x l, StronglySorted le l -> StronglySorted le (insert_by cmp x l).
  Proof.
    induction l as [|y r IH]; intros Hs; cbn [insert_by].
    - repeat constructor.
    - apply StronglySorted_inv in Hs. destruct Hs as [Hs Hf].
      assert (L : cmp x y <> Gt -> StronglySorted le (x :: y :: r)).
      { intros L. constructor; [constructor; assumption|].
        constructor; [exact L|]. eapply Forall_impl; [|exact Hf]. intros z Hz. eapply (cmp_trans _ T); eauto. }
      destruct (cmp x y) eqn:E; try (apply L; congruence).
      constructor; [auto|].
      assert (P : Permutation (x :: r) (insert_by cmp x r)) by apply insert_perm.
      eapply Permutation_Forall; [exact P|]. constructor; [|exact Hf].
      unfold le. rewrite (cmp_anti _ T x y), E. discriminate.
  Qed.

  Lemma sort_sorted : forall l, StronglySorted le (sort_by cmp l).
  Proof. induction l; cbn; [constructor|apply insert_sorted; assumption]. Qed.

  (** A sorted list without two elements of the same rank is determined by its
      elements. *)
  Lemma sorted_unique : forall l m,
    StronglySorted le l -> StronglySorted le m -> Permutation l m ->
    (forall x y, In x l -> In y l -> cmp x y = Eq -> x = y) -> l = m.
  Proof.
    induction l as [|x l IH]; intros m Hl Hm P D.
    - apply Permutation_nil in P. congruence.
    - destruct m as [|y m]; [apply Permutation_sym, Permutation_nil in P; congruence|].
      apply StronglySorted_inv in Hl, Hm. destruct Hl as [Hl Fl], Hm as [Hm Fm].
      assert (E : x = y).
      { assert (Ix : In x (y :: m)) by (eapply Permutation_in; [exact P|left; reflexivity]).
        assert (Iy : In y (x :: l)) by (eapply Permutation_in; [apply Permutation_sym; exact P|left; reflexivity]).
        destruct Ix as [|Ix]; [congruence|]. destruct Iy as [|Iy]; [congruence|].
        rewrite Forall_forall in Fl, Fm. specialize (Fl _ Iy). specialize (Fm _ Ix). unfold le in *.
        apply D; [left; reflexivity|right; exact Iy|].
        destruct (cmp x y) eqn:E; [reflexivity| |congruence].
        rewrite (cmp_anti _ T x y), E in Fm. cbn in Fm. congruence. }
      subst y. f_equal. apply IH; auto.
      + eapply Permutation_cons_inv; exact P.
      + intros; apply D; try right; assumption.
  Qed.
End Sorting.

Lemma insert_map {A B} (f : A -> B) cmp cmp' :
  (forall x y, cmp' (f x) (f y) = cmp x y) ->
  forall x l, insert_by cmp' (f x) (map f l) = map f (insert_by cmp x l).
Proof.
  intros H x l. induction l as [|y r IH]; cbn [insert_by map]; [reflexivity|].
  rewrite H. destruct (cmp x y); cbn [map]; congruence.
Qed.

Lemma sort_map {A B} (f : A -> B) cmp cmp' :
  (forall x y, cmp' (f x) (f y) = cmp x y) -> forall l, sort_by cmp' (map f l) = map f (sort_by cmp l).
Proof.
  intros H l. induction l as [|x r IH]; cbn [sort_by fold_right map]; [reflexivity|].
  fold (sort_by cmp' (map f r)). rewrite IH. apply insert_map, H.
Qed.
