(** The code computes, selection by selection, a function of the selection; two
    selections have the same image exactly when they are the same up to
    aliases, literals and order. *)

From Coq Require Import String Ascii List Bool Permutation.
From Verif Require Import Normalizer.Model Normalizer.Sort Normalizer.Spec.
Import ListNotations.
Local Open Scope list_scope.

Lemma selection_ind' (P : selection -> Prop) :
  (forall a n args dirs sels, Forall P sels -> P (Field a n args dirs sels)) ->
  (forall n dirs, P (Spread n dirs)) ->
  (forall c dirs sels, Forall P sels -> P (Inline c dirs sels)) ->
  forall s, P s.
Proof.
  intros HF HS HI. fix F 1. intros [a n args dirs sels|n dirs|c dirs sels].
  - apply HF. induction sels; constructor; auto.
  - apply HS.
  - apply HI. induction sels; constructor; auto.
Qed.

(** *** The result without the map of used fragments *)

Fixpoint nf (s : selection) : selection :=
  match s with
  | Field _ n args dirs sels => Field None n (norm_args args) (norm_dirs dirs) (sort_by sort_selection (map nf sels))
  | Spread n dirs => Spread n (norm_dirs dirs)
  | Inline c dirs sels => Inline c (norm_dirs dirs) (sort_by sort_selection (map nf sels))
  end.

Definition nf_sels (l : list selection) : list selection := sort_by sort_selection (map nf l).

Definition marks (u : used) (b : bool) (l : list string) : used := fold_left (fun u n => used_mark u n b) l u.

Lemma marks_app : forall l m u b, marks u b (l ++ m) = marks (marks u b l) b m.
Proof. intros. apply fold_left_app. Qed.

Lemma norm_sel_eq : forall s u b, norm_sel u b s = (nf s, marks u b (spreads s)).
Proof.
  assert (items : forall b sels, Forall (fun s => forall u, norm_sel u b s = (nf s, marks u b (spreads s))) sels ->
    forall u, (fix items (u : used) (l : list selection) : list selection * used :=
      match l with
      | [] => ([], u)
      | s :: r => let (s', u1) := norm_sel u b s in let (r', u2) := items u1 r in (s' :: r', u2)
      end) u sels = (map nf sels, marks u b (flat_map spreads sels))).
  { intros b sels H. induction H as [|s r Hs _ IH]; intros u; [reflexivity|].
    rewrite Hs, IH. cbn [map flat_map]. rewrite marks_app. reflexivity. }
  intros s u b. revert u.
  induction s as [a n args dirs sels IH|n dirs|c dirs sels IH] using selection_ind'; intros u.
  - cbn [norm_sel]. rewrite items by exact IH. reflexivity.
  - reflexivity.
  - cbn [norm_sel]. rewrite items by exact IH. reflexivity.
Qed.

Lemma norm_items_eq : forall l u b, norm_items u b l = (map nf l, marks u b (flat_map spreads l)).
Proof.
  induction l as [|s r IH]; intros u b; [reflexivity|].
  cbn [norm_items]. rewrite norm_sel_eq, IH. cbn [map flat_map]. rewrite marks_app. reflexivity.
Qed.

Lemma norm_set_eq : forall l u b, norm_set u b l = (nf_sels l, marks u b (flat_map spreads l)).
Proof. intros. unfold norm_set. rewrite norm_items_eq. reflexivity. Qed.

(** *** The comparisons are total preorders, whose ranks are the keys *)

Lemma compare_eq : forall s t, String.compare s t = Eq -> s = t.
Proof. intros. apply String.compare_eq_iff. assumption. Qed.

Lemma compare_refl : forall s, String.compare s s = Eq.
Proof. intros. apply (cmp_refl _ string_total). Qed.

Definition rank (s : selection) : nat := match s with Field _ _ _ _ _ => 0 | Spread _ _ => 1 | Inline _ _ _ => 2 end.

Lemma sort_selection_total : total sort_selection.
Proof.
  split.
  - intros x y. destruct x as [a n args dirs sels|n dirs|[c|] dirs sels],
      y as [a' n' args' dirs' sels'|n' dirs'|[c'|] dirs' sels']; cbn; try reflexivity; apply String.compare_antisym.
  - intros x y z. destruct x as [a n args dirs sels|n dirs|[c|] dirs sels],
      y as [a' n' args' dirs' sels'|n' dirs'|[c'|] dirs' sels'],
      z as [a'' n'' args'' dirs'' sels''|n'' dirs''|[c''|] dirs'' sels'']; cbn; try congruence;
      apply string_compare_lt_trans.
Qed.

Lemma sort_selection_key : forall x y, sort_selection x y = Eq <-> key_of x = key_of y.
Proof.
  intros x y. destruct x as [a n args dirs sels|n dirs|[c|] dirs sels],
    y as [a' n' args' dirs' sels'|n' dirs'|[c'|] dirs' sels']; cbn; try (split; congruence);
    (split; [intro H; apply compare_eq in H; congruence|intro H; inversion H; apply compare_refl]).
Qed.

Lemma sort_selection_nf : forall x y, sort_selection (nf x) (nf y) = sort_selection x y.
Proof. intros x y. destruct x, y; reflexivity. Qed.

(** *** Reordered lists *)

Lemma same_sel_rect (P : selection -> selection -> Prop) :
  (forall a a' n args args' dirs dirs' sels sels',
     same_args args args' -> same_dirs dirs dirs' -> reordered key_of (fun x y => same_sel x y /\ P x y) sels sels' ->
     P (Field a n args dirs sels) (Field a' n args' dirs' sels')) ->
  (forall n dirs dirs', same_dirs dirs dirs' -> P (Spread n dirs) (Spread n dirs')) ->
  (forall c dirs dirs' sels sels', same_dirs dirs dirs' ->
     reordered key_of (fun x y => same_sel x y /\ P x y) sels sels' -> P (Inline c dirs sels) (Inline c dirs' sels')) ->
  forall x y, same_sel x y -> P x y.
Proof.
  intros HF HS HI. fix F 3.
  assert (L : forall l m, reordered key_of same_sel l m -> reordered key_of (fun x y => same_sel x y /\ P x y) l m).
  { fix G 3. intros l m [|x y l' m' H1 H2|x y l' H|l' m' n' H1 H2].
    - constructor.
    - constructor; [split; [exact H1|apply F, H1]|apply G, H2].
    - apply ro_swap. exact H.
    - eapply ro_trans; [apply G, H1|apply G, H2]. }
  intros x y [a a' n args args' dirs dirs' sels sels' H1 H2 H3|n dirs dirs' H1|c dirs dirs' sels sels' H1 H2].
  - apply HF; auto.
  - apply HS; auto.
  - apply HI; auto.
Qed.

Section Reordered.
  Context {A K : Type} (key : A -> K) (R : A -> A -> Prop).

  Lemma reordered_impl (R' : A -> A -> Prop) : (forall x y, R x y -> R' x y) ->
    forall l m, reordered key R l m -> reordered key R' l m.
  Proof.
    intros H l m HR. induction HR; [constructor|constructor; auto|apply ro_swap; auto|eapply ro_trans; eauto].
  Qed.

  Lemma reordered_pointwise : forall l m, Forall2 R l m -> reordered key R l m.
  Proof. intros l m H. induction H; constructor; auto. Qed.

  Lemma reordered_sym : (forall x y, R x y -> R y x) -> forall l m, reordered key R l m -> reordered key R m l.
  Proof.
    intros S l m H. induction H; [constructor|constructor; auto| |eapply ro_trans; eauto].
    apply ro_swap. congruence.
  Qed.

  Context {B : Type} (f : A -> B) (cmp : B -> B -> comparison) (T : total cmp).

  (** Sorting the images gives the same list. *)
  Lemma reordered_sort :
    (forall x y, R x y -> f x = f y) -> (forall x y, key x <> key y -> cmp (f x) (f y) <> Eq) ->
    forall l m, reordered key R l m -> sort_by cmp (map f l) = sort_by cmp (map f m).
  Proof.
    intros HR Hk l m H. induction H as [|x y l m H1 H2 IH|x y l H|l m n H1 IH1 H2 IH2].
    - reflexivity.
    - cbn. fold (sort_by cmp (map f l)). fold (sort_by cmp (map f m)). rewrite (HR _ _ H1), IH. reflexivity.
    - cbn. apply insert_comm; auto.
    - congruence.
  Qed.
End Reordered.

Section SortReorders.
  Context {A K : Type} (key : A -> K) (R : A -> A -> Prop) (cmp : A -> A -> comparison).
  Hypothesis refl' : forall x, R x x.
  Hypothesis gt_key : forall x y, cmp x y = Gt -> key x <> key y.

  Lemma reordered_refl : forall l, reordered key R l l.
  Proof. induction l; constructor; auto. Qed.

  Lemma insert_reorders : forall x l, reordered key R (x :: l) (insert_by cmp x l).
  Proof.
    induction l as [|y r IH]; cbn [insert_by]; [apply reordered_refl|].
    destruct (cmp x y) eqn:E; try apply reordered_refl.
    eapply ro_trans; [apply ro_swap, gt_key, E|]. constructor; auto.
  Qed.

  Lemma sort_reorders : forall l, reordered key R l (sort_by cmp l).
  Proof.
    induction l as [|x r IH]; cbn; [constructor|].
    eapply ro_trans; [|apply insert_reorders]. constructor; auto.
  Qed.
End SortReorders.

(** *** Values, arguments, directives *)

Lemma same_value_refl : forall v, same_value v v.
Proof. intros []; cbn; auto. Qed.

Lemma same_value_norm : forall v w, same_value v w <-> norm_value v = norm_value w.
Proof. intros v w. split; destruct v, w; cbn; intros H; try contradiction; try discriminate; congruence || exact I. Qed.

Lemma same_value_sym : forall v w, same_value v w -> same_value w v.
Proof. intros v w H. apply same_value_norm. symmetry. apply same_value_norm, H. Qed.

Definition nf_arg (a : string * value) : string * value := (fst a, norm_value (snd a)).

Lemma norm_args_eq : forall l, norm_args l = sort_by (fun a b => String.compare (fst a) (fst b)) (map nf_arg l).
Proof. intros l. unfold norm_args. fold nf_arg. symmetry. apply sort_map. reflexivity. Qed.

Lemma same_arg_nf : forall a b, same_arg a b <-> nf_arg a = nf_arg b.
Proof.
  intros [n v] [m w]. unfold same_arg, nf_arg. cbn. rewrite same_value_norm. split; [intros []|intros]; split || idtac; congruence.
Qed.

Lemma same_arg_refl : forall a, same_arg a a.
Proof. intros. apply same_arg_nf. reflexivity. Qed.

Lemma same_arg_sym : forall a b, same_arg a b -> same_arg b a.
Proof. intros a b. rewrite !same_arg_nf. auto. Qed.

Lemma norm_value_idem : forall v, norm_value (norm_value v) = norm_value v.
Proof. intros []; reflexivity. Qed.

Lemma name_gt {A} (f : A -> string) : forall x y, String.compare (f x) (f y) = Gt -> f x <> f y.
Proof. intros x y H E. rewrite E, compare_refl in H. discriminate. Qed.

Lemma name_neq : forall s t : string, s <> t -> String.compare s t <> Eq.
Proof. intros s t H E. apply compare_eq in E. contradiction. Qed.

Lemma same_args_norm1 : forall l m, same_args l m -> norm_args l = norm_args m.
Proof.
  intros l m H. rewrite !norm_args_eq.
  eapply reordered_sort with (R := same_arg) (key := fst).
  - apply (total_on fst), string_total.
  - intros. apply same_arg_nf. assumption.
  - intros x y Hk. apply name_neq. exact Hk.
  - exact H.
Qed.

Lemma same_args_self : forall l, same_args l (norm_args l).
Proof.
  intros l. rewrite norm_args_eq. eapply ro_trans.
  - apply reordered_pointwise with (m := map nf_arg l).
    induction l as [|a r IH]; constructor; [|exact IH].
    apply same_arg_nf. unfold nf_arg. cbn. rewrite norm_value_idem. reflexivity.
  - apply sort_reorders; [apply same_arg_refl|]. intros x y. apply (name_gt fst).
Qed.

Lemma same_args_sym : forall l m, same_args l m -> same_args m l.
Proof. apply reordered_sym, same_arg_sym. Qed.

Lemma same_args_norm : forall l m, same_args l m <-> norm_args l = norm_args m.
Proof.
  intros l m. split; [apply same_args_norm1|]. intros H.
  eapply ro_trans; [apply same_args_self|]. rewrite H. apply same_args_sym, same_args_self.
Qed.

Definition nf_dir (d : directive) : directive := Directive (dir_name d) (norm_args (dir_args d)).

Lemma norm_dirs_eq : forall l, norm_dirs l = sort_by (fun a b => String.compare (dir_name a) (dir_name b)) (map nf_dir l).
Proof. intros l. unfold norm_dirs. fold nf_dir. symmetry. apply sort_map. reflexivity. Qed.

Lemma same_dir_nf : forall a b, same_dir a b <-> nf_dir a = nf_dir b.
Proof.
  intros [n v] [m w]. unfold same_dir, nf_dir. cbn [dir_name dir_args]. rewrite same_args_norm. split; [intros []|intros]; split || idtac; congruence.
Qed.

Lemma same_dir_sym : forall a b, same_dir a b -> same_dir b a.
Proof. intros a b. rewrite !same_dir_nf. auto. Qed.

Lemma same_dirs_sym : forall l m, same_dirs l m -> same_dirs m l.
Proof. apply reordered_sym, same_dir_sym. Qed.

Lemma same_dirs_self : forall l, same_dirs l (norm_dirs l).
Proof.
  intros l. rewrite norm_dirs_eq. eapply ro_trans.
  - apply reordered_pointwise with (m := map nf_dir l).
    induction l as [|a r IH]; constructor; [|exact IH].
    split; [reflexivity|]. apply same_args_self.
  - apply sort_reorders; [intros; apply same_dir_nf; reflexivity|]. intros x y. apply (name_gt dir_name).
Qed.

Lemma same_dirs_norm : forall l m, same_dirs l m <-> norm_dirs l = norm_dirs m.
Proof.
  intros l m. split.
  - intros H. rewrite !norm_dirs_eq. eapply reordered_sort with (R := same_dir) (key := dir_name).
    + apply (total_on dir_name), string_total.
    + intros. apply same_dir_nf. assumption.
    + intros x y Hk. apply name_neq. exact Hk.
    + exact H.
  - intros H. eapply ro_trans; [apply same_dirs_self|]. rewrite H. apply same_dirs_sym, same_dirs_self.
Qed.

(** *** Selections *)

Lemma same_sel_nf1 : forall x y, same_sel x y -> nf x = nf y.
Proof.
  intros x y H. induction H as [a a' n args args' dirs dirs' sels sels' H1 H2 H3|n dirs dirs' H1|c dirs dirs' sels sels' H1 H2]
    using same_sel_rect; cbn [nf].
  - apply same_args_norm in H1. apply same_dirs_norm in H2. rewrite H1, H2. f_equal.
    eapply reordered_sort; [apply sort_selection_total| | |exact H3].
    + intros x y [_ E]. exact E.
    + intros x y Hk E. rewrite sort_selection_nf, sort_selection_key in E. contradiction.
  - apply same_dirs_norm in H1. rewrite H1. reflexivity.
  - apply same_dirs_norm in H1. rewrite H1. f_equal.
    eapply reordered_sort; [apply sort_selection_total| | |exact H2].
    + intros x y [_ E]. exact E.
    + intros x y Hk E. rewrite sort_selection_nf, sort_selection_key in E. contradiction.
Qed.

Lemma same_dirs_refl : forall l, same_dirs l l.
Proof. intros. apply same_dirs_norm. reflexivity. Qed.
Lemma same_args_refl : forall l, same_args l l.
Proof. intros. apply same_args_norm. reflexivity. Qed.

Lemma same_sel_refl : forall x, same_sel x x.
Proof.
  induction x as [a n args dirs sels IH|n dirs|c dirs sels IH] using selection_ind'; constructor;
    try apply same_dirs_refl; try apply same_args_refl.
  - apply reordered_pointwise. induction IH; constructor; auto.
  - apply reordered_pointwise. induction IH; constructor; auto.
Qed.

Lemma sort_selection_gt : forall x y, sort_selection x y = Gt -> key_of x <> key_of y.
Proof. intros x y H E. apply sort_selection_key in E. congruence. Qed.

Lemma sels_self : forall sels, Forall (fun x => same_sel x (nf x) /\ same_sel (nf x) x) sels ->
  reordered key_of same_sel sels (nf_sels sels) /\ reordered key_of same_sel (nf_sels sels) sels.
Proof.
  intros sels H.
  assert (P1 : Forall2 same_sel sels (map nf sels)).
  { clear -H. induction H as [|x r [] _ IH]; constructor; auto. }
  assert (P2 : Forall2 same_sel (map nf sels) sels).
  { clear -H. induction H as [|x r [] _ IH]; constructor; auto. }
  assert (Q : reordered key_of eq (map nf sels) (nf_sels sels))
    by (apply sort_reorders; [reflexivity|apply sort_selection_gt]).
  assert (E : forall x y : selection, x = y -> same_sel x y) by (intros x y ->; apply same_sel_refl).
  split.
  - eapply ro_trans; [apply reordered_pointwise; exact P1|]. eapply reordered_impl; [exact E|exact Q].
  - eapply ro_trans; [|apply reordered_pointwise; exact P2]. eapply reordered_impl; [exact E|].
    apply reordered_sym; [auto|exact Q].
Qed.

Lemma same_sel_self : forall x, same_sel x (nf x) /\ same_sel (nf x) x.
Proof.
  induction x as [a n args dirs sels IH|n dirs|c dirs sels IH] using selection_ind'; cbn [nf];
    [apply sels_self in IH; destruct IH as [I1 I2]| |apply sels_self in IH; destruct IH as [I1 I2]];
    split; constructor; auto using same_args_self, same_args_sym, same_dirs_self, same_dirs_sym.
Qed.

Lemma same_sels_self : forall l, same_sels l (nf_sels l) /\ same_sels (nf_sels l) l.
Proof. intros l. apply sels_self. apply Forall_forall. intros. apply same_sel_self. Qed.

(** Two selection sets are the same exactly when they have the same normal form. *)
Lemma same_sels_nf : forall l m, same_sels l m <-> nf_sels l = nf_sels m.
Proof.
  intros l m. split; intros H.
  - eapply reordered_sort; [apply sort_selection_total| | |exact H].
    + apply same_sel_nf1.
    + intros x y Hk E. rewrite sort_selection_nf, sort_selection_key in E. contradiction.
  - eapply ro_trans; [apply same_sels_self|]. rewrite H. apply same_sels_self.
Qed.

(** Normal forms spread the same fragments. *)
Lemma in_flat_spreads_sort : forall n l, In n (flat_map spreads (sort_by sort_selection l)) <-> In n (flat_map spreads l).
Proof.
  intros n l. rewrite !in_flat_map.
  split; intros (x & Hx & H); exists x; split; auto.
  - eapply Permutation_in; [apply Permutation_sym, sort_perm|exact Hx].
  - eapply Permutation_in; [apply sort_perm|exact Hx].
Qed.

Lemma spreads_nf : forall n s, In n (spreads (nf s)) <-> In n (spreads s).
Proof.
  intros n. induction s as [a m args dirs sels IH|m dirs|c dirs sels IH] using selection_ind'; cbn [nf spreads]; [|reflexivity|].
  - rewrite in_flat_spreads_sort. induction IH as [|x r Hx _ IH]; [reflexivity|].
    cbn [map flat_map]. rewrite !in_app_iff, Hx, IH. reflexivity.
  - rewrite in_flat_spreads_sort. induction IH as [|x r Hx _ IH]; [reflexivity|].
    cbn [map flat_map]. rewrite !in_app_iff, Hx, IH. reflexivity.
Qed.

Lemma spreads_nf_sels : forall n l, In n (flat_map spreads (nf_sels l)) <-> In n (flat_map spreads l).
Proof.
  intros n l. unfold nf_sels. rewrite in_flat_spreads_sort.
  induction l as [|x r IH]; [reflexivity|]. cbn [map flat_map]. rewrite !in_app_iff, spreads_nf, IH. reflexivity.
Qed.
