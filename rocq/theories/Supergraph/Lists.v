(** * Sorted lists and sets of the supergraph model *)

From Coq Require Import String List Bool Arith Lia Sorted Permutation.
From Verif.SchemaDiff Require Import Search.
From Verif.Supergraph Require Import Model.
Import ListNotations.
Local Open Scope nat_scope.
Local Open Scope list_scope.

Lemma insert_in x l y : In y (insert x l) <-> y = x \/ In y l.
Proof.
  induction l as [|z l IH]; cbn [insert].
  - cbn. intuition.
  - destruct (x <=? z); cbn [In]; [intuition|]. rewrite IH. intuition.
Qed.

Lemma sort_in l y : In y (sort l) <-> In y l.
Proof.
  induction l as [|x l IH]; [reflexivity|]. cbn [sort]. rewrite insert_in, IH. cbn [In]. intuition.
Qed.

Lemma dedup_in l y : In y (dedup l) <-> In y l.
Proof.
  induction l as [|x l IH]; [reflexivity|]. destruct l as [|z l]; [reflexivity|].
  cbn [dedup]. cbn [dedup] in IH. destruct (Nat.eqb x z) eqn:E.
  - apply Nat.eqb_eq in E. subst z. rewrite IH. cbn [In]. intuition.
  - cbn [In] in *. rewrite IH. reflexivity.
Qed.

Lemma same_list_eq a : forall b, same_list a b = true <-> a = b.
Proof.
  induction a as [|x a IH]; intros [|y b]; cbn [same_list]; try (split; [discriminate|discriminate]).
  - split; reflexivity.
  - rewrite andb_true_iff, Nat.eqb_eq, IH. split.
    + intros [-> ->]. reflexivity.
    + intros E. injection E as -> ->. split; reflexivity.
Qed.

Lemma insert_sorted x l : StronglySorted le l -> StronglySorted le (insert x l).
Proof.
  induction 1 as [|y l W IH F]; cbn [insert].
  - constructor; constructor.
  - destruct (x <=? y) eqn:E.
    + apply Nat.leb_le in E. constructor; [constructor; assumption|].
      constructor; [exact E|]. eapply Forall_impl; [|exact F]. intros a. lia.
    + apply Nat.leb_gt in E. constructor; [exact IH|].
      apply Forall_forall. intros z J. apply insert_in in J. destruct J as [->|J]; [lia|].
      rewrite Forall_forall in F. exact (F z J).
Qed.

Lemma sort_sorted l : StronglySorted le (sort l).
Proof. induction l; cbn [sort]; [constructor|apply insert_sorted; assumption]. Qed.

Lemma insert_perm x l : Permutation (insert x l) (x :: l).
Proof.
  induction l as [|y l IH]; cbn [insert]; [reflexivity|].
  destruct (x <=? y); [reflexivity|]. rewrite IH. apply perm_swap.
Qed.

Lemma sort_perm l : Permutation (sort l) l.
Proof. induction l; cbn [sort]; [reflexivity|]. rewrite insert_perm. constructor. assumption. Qed.

Lemma dedup_strict l : StronglySorted le l -> StronglySorted lt (dedup l).
Proof.
  induction 1 as [|x l W IH F]; [constructor|]. destruct l as [|y l]; [constructor; constructor|].
  cbn [dedup]. cbn [dedup] in IH. destruct (Nat.eqb x y) eqn:E; [exact IH|].
  apply Nat.eqb_neq in E. constructor; [exact IH|].
  apply Forall_forall. intros z J. change (In z (dedup (y :: l))) in J. rewrite dedup_in in J.
  rewrite Forall_forall in F. pose proof (F y (or_introl eq_refl)).
  cbn [In] in J. destruct J as [<-|J]; [lia|]. apply StronglySorted_inv in W. destruct W as [_ W].
  rewrite Forall_forall in W. pose proof (W z J). lia.
Qed.

(** Two lists without repetitions with the same elements are equal once sorted. *)
Lemma strict_unique : forall a b, StronglySorted lt a -> StronglySorted lt b ->
  (forall x, In x a <-> In x b) -> a = b.
Proof.
  induction a as [|x a IH]; intros [|y b] A B E.
  - reflexivity.
  - destruct (proj2 (E y) (or_introl eq_refl)).
  - destruct (proj1 (E x) (or_introl eq_refl)).
  - apply StronglySorted_inv in A, B. destruct A as [A FA], B as [B FB].
    rewrite Forall_forall in FA, FB.
    assert (x = y).
    { destruct (proj1 (E x) (or_introl eq_refl)) as [J|J]; [congruence|].
      destruct (proj2 (E y) (or_introl eq_refl)) as [K|K]; [congruence|].
      pose proof (FA y K). pose proof (FB x J). lia. }
    subst y. f_equal. apply IH; [exact A|exact B|]. intros z. split; intros J.
    + destruct (proj1 (E z) (or_intror J)) as [<-|K]; [pose proof (FA x J); lia|exact K].
    + destruct (proj2 (E z) (or_intror J)) as [<-|K]; [pose proof (FB x J); lia|exact K].
Qed.

Lemma mem_in x l : mem x l = true <-> In x l.
Proof.
  unfold mem. rewrite existsb_exists. split.
  - intros [y [J E]]. apply Nat.eqb_eq in E. subst y. exact J.
  - intros J. exists x. split; [exact J|apply Nat.eqb_refl].
Qed.

(** ** Sets of names *)

Definition below (a b : string) : Prop := String.compare a b = Lt.

Lemma set_insert_in x l y : In y (set_insert x l) <-> y = x \/ In y l.
Proof.
  induction l as [|z l IH]; cbn [set_insert]; [cbn; intuition|].
  destruct (String.compare x z) eqn:E.
  - apply String.compare_eq_iff in E. subst z. cbn [In]. intuition.
  - cbn [In]. intuition.
  - cbn [In]. rewrite IH. intuition.
Qed.

Lemma set_insert_sorted x l : StronglySorted below l -> StronglySorted below (set_insert x l).
Proof.
  induction 1 as [|y l W IH F]; cbn [set_insert]; [constructor; constructor|].
  destruct (String.compare x y) eqn:E.
  - constructor; assumption.
  - constructor; [constructor; assumption|]. constructor; [exact E|].
    eapply Forall_impl; [|exact F]. intros z. apply compare_trans_lt. exact E.
  - constructor; [exact IH|]. apply Forall_forall. intros z J. apply set_insert_in in J.
    destruct J as [->|J].
    + unfold below. rewrite String.compare_antisym, E. reflexivity.
    + rewrite Forall_forall in F. exact (F z J).
Qed.

Lemma set_remove_in x l y : In y (set_remove x l) <-> In y l /\ y <> x.
Proof.
  unfold set_remove. rewrite filter_In, negb_true_iff, String.eqb_neq. intuition.
Qed.

Lemma filter_sorted {A} (R : A -> A -> Prop) f l : StronglySorted R l -> StronglySorted R (filter f l).
Proof.
  induction 1 as [|y l W IH F]; cbn [filter]; [constructor|].
  destruct (f y); [|exact IH]. constructor; [exact IH|].
  apply Forall_forall. intros z J. apply filter_In in J. rewrite Forall_forall in F. apply F. apply J.
Qed.

Lemma insert_all_in vs : forall l y,
  In y (fold_left (fun l v => set_insert v l) vs l) <-> In y l \/ In y vs.
Proof.
  induction vs as [|v vs IH]; intros l y; cbn [fold_left]; [cbn; intuition|].
  rewrite IH, set_insert_in. cbn [In]. intuition.
Qed.

Lemma insert_all_sorted vs : forall l, StronglySorted below l ->
  StronglySorted below (fold_left (fun l v => set_insert v l) vs l).
Proof.
  induction vs as [|v vs IH]; intros l W; cbn [fold_left]; [exact W|].
  apply IH. apply set_insert_sorted. exact W.
Qed.

Lemma remove_all_in vs : forall l y,
  In y (fold_left (fun l v => set_remove v l) vs l) <-> In y l /\ ~ In y vs.
Proof.
  induction vs as [|v vs IH]; intros l y; cbn [fold_left]; [cbn; intuition|].
  rewrite IH, set_remove_in. cbn [In]. intuition.
Qed.

Lemma remove_all_sorted vs : forall l, StronglySorted below l ->
  StronglySorted below (fold_left (fun l v => set_remove v l) vs l).
Proof.
  induction vs as [|v vs IH]; intros l W; cbn [fold_left]; [exact W|].
  apply IH. apply filter_sorted. exact W.
Qed.

Lemma known_in graphs n : known graphs n = true <-> In n graphs.
Proof.
  unfold known. rewrite existsb_exists. split.
  - intros [y [J E]]. apply String.eqb_eq in E. subst y. exact J.
  - intros J. exists n. split; [exact J|apply String.eqb_refl].
Qed.

Lemma position_some n names : forall g, position n names = Some g -> nth_error names g = Some n.
Proof.
  induction names as [|m r IH]; intros g E; cbn [position] in E; [discriminate|].
  destruct (String.eqb m n) eqn:Q.
  - injection E as <-. apply String.eqb_eq in Q. subst m. reflexivity.
  - destruct (position n r) as [k|]; [|discriminate]. injection E as <-. exact (IH k eq_refl).
Qed.

Lemma position_none n names : position n names = None -> ~ In n names.
Proof.
  induction names as [|m r IH]; intros E; cbn [position] in E; [intros []|].
  destruct (String.eqb m n) eqn:Q; [discriminate|].
  apply String.eqb_neq in Q. destruct (position n r) as [k|]; [discriminate|].
  intros [J|J]; [exact (Q J)|exact (IH eq_refl J)].
Qed.
