(* The searches in the sorted list of changes. *)
From Coq Require Import String Ascii List Bool Arith Lia Sorted Permutation.
Import ListNotations.
From Verif.SchemaDiff Require Import Ast Search Diff MapFacts DocFacts DiffProps Patch.
Local Open Scope string_scope.
Local Open Scope list_scope.

Lemma sorted_nth : forall A (R : A -> A -> Prop) l, StronglySorted R l ->
  forall i j x y, i < j -> nth_error l i = Some x -> nth_error l j = Some y -> R x y.
Proof.
  intros A R l SS. induction SS as [|z l SS IH F]; intros i j x y L X Y; [destruct i; discriminate|].
  destruct i as [|i], j as [|j]; try lia.
  - cbn in X, Y. injection X as ->. rewrite Forall_forall in F. apply F. eapply nth_error_In. exact Y.
  - cbn in X, Y. apply (IH i j); auto. lia.
Qed.

Lemma sorted_ordered : forall A (R : A -> A -> Prop) (cmp : A -> comparison) l, StronglySorted R l ->
  (forall x y, In x l -> In y l -> R x y -> rank (cmp x) <= rank (cmp y)) -> ordered cmp l.
Proof.
  intros A R cmp l SS H i j x y L X Y. destruct (Nat.eq_dec i j) as [->|NE].
  - rewrite X in Y. injection Y as ->. lia.
  - apply H; [eapply nth_error_In; exact X|eapply nth_error_In; exact Y|].
    apply (sorted_nth A R l SS i j); auto. lia.
Qed.

Lemma sorted_filter : forall A (R : A -> A -> Prop) p l, StronglySorted R l -> StronglySorted R (filter p l).
Proof.
  intros A R p l SS. induction SS as [|x l SS IH F]; cbn; [constructor|].
  destruct (p x); [|exact IH]. constructor; [exact IH|].
  rewrite Forall_forall in *. intros y Y. apply filter_In in Y. apply F. tauto.
Qed.

Lemma sorted_map : forall A B (R : A -> A -> Prop) (Q : B -> B -> Prop) (f : A -> B) l,
  (forall x y, R x y -> Q (f x) (f y)) -> StronglySorted R l -> StronglySorted Q (map f l).
Proof.
  intros A B R Q f l H SS. induction SS as [|x l SS IH F]; cbn; [constructor|].
  constructor; [exact IH|]. rewrite Forall_forall in *. intros y Y. apply in_map_iff in Y.
  destruct Y as (z & <- & Z). apply H, F, Z.
Qed.

(* What a search finds, whatever the list. *)
Lemma bsearch_hit : forall A (cmp : A -> comparison) l i, bsearch cmp l = inl i ->
  exists x, In x l /\ nth_error l i = Some x /\ cmp x = Eq.
Proof.
  intros A cmp l i H. destruct (bsearch_found A cmp l i H) as (x & N & C). exists x.
  split; [eapply nth_error_In; exact N|auto].
Qed.

Lemma bsearch_hits : forall A (cmp : A -> comparison) l x, ordered cmp l -> In x l -> cmp x = Eq ->
  exists i, bsearch cmp l = inl i.
Proof.
  intros A cmp l x OR X C. apply In_nth_error in X. destruct X as (i & X).
  exact (bsearch_complete A cmp l i x OR X C).
Qed.

(** The order of strings and paths. *)
Lemma compare_mono : forall x y z, String.compare x y <> Gt ->
  rank (String.compare x z) <= rank (String.compare y z).
Proof.
  intros x y z H. destruct (String.compare x y) eqn:E; [|clear H|contradiction].
  - apply compare_eq in E. subst. lia.
  - destruct (String.compare y z) eqn:F; cbn.
    + apply compare_eq in F. subst. rewrite E. cbn. lia.
    + rewrite (compare_trans_lt _ _ _ E F). cbn. lia.
    + destruct (String.compare x z); cbn; lia.
Qed.

Lemma cmp3_mono : forall x y z, cmp3 x y <> Gt -> rank (cmp3 x z) <= rank (cmp3 y z).
Proof.
  intros x y z H. destruct (cmp3 x y) eqn:E; [|clear H|contradiction].
  - apply cmp3_eq in E. subst. lia.
  - destruct (cmp3 y z) eqn:F; cbn.
    + apply cmp3_eq in F. subst. rewrite E. cbn. lia.
    + rewrite (cmp3_trans_lt _ _ _ E F). cbn. lia.
    + destruct (cmp3 x z); cbn; lia.
Qed.

Lemma str_leb_total : forall x y, str_leb x y = true \/ str_leb y x = true.
Proof. intros x y. unfold str_leb. rewrite (compare_flip y x). destruct (String.compare x y); cbn; auto. Qed.

Lemma str_leb_trans : forall x y z, str_leb x y = true -> str_leb y z = true -> str_leb x z = true.
Proof.
  intros x y z. unfold str_leb. destruct (String.compare x y) eqn:E; try discriminate.
  - apply compare_eq in E. subst. auto.
  - destruct (String.compare y z) eqn:F; try discriminate.
    + apply compare_eq in F. subst. rewrite E. auto.
    + rewrite (compare_trans_lt _ _ _ E F). auto.
Qed.

Lemma seg_leb_total : forall x y, seg_leb x y = true \/ seg_leb y x = true.
Proof. intros x y. unfold seg_leb. rewrite (cmp3_flip (seg y)). destruct (cmp3 (seg x) (seg y)); cbn; auto. Qed.

Lemma seg_leb_trans : forall x y z, seg_leb x y = true -> seg_leb y z = true -> seg_leb x z = true.
Proof.
  intros x y z. unfold seg_leb. destruct (cmp3 (seg x) (seg y)) eqn:E; try discriminate.
  - apply cmp3_eq in E. rewrite E. auto.
  - destruct (cmp3 (seg y) (seg z)) eqn:F; try discriminate.
    + apply cmp3_eq in F. rewrite <- F, E. auto.
    + rewrite (cmp3_trans_lt _ _ _ E F). auto.
Qed.

Definition psorted (ps : list rchange) : Prop := StronglySorted (fun x y => cmp3 (seg x) (seg y) <> Gt) ps.

Lemma new_paths_sorted : forall l, psorted (new_paths l).
Proof.
  intros l. unfold psorted, new_paths.
  pose proof (sort_sorted _ seg_leb seg_leb_total seg_leb_trans l) as SS.
  induction SS as [|x r SS IH F]; constructor; auto.
  rewrite Forall_forall in *. intros y Y. specialize (F y Y). unfold seg_leb in F.
  destruct (cmp3 (seg x) (seg y)); congruence.
Qed.

Lemma searched_spec : forall l n, searched l n = true <-> In n l.
Proof.
  intros l n. unfold searched.
  destruct (bsearch (fun x => String.compare x n) (sort str_leb l)) as [i|i] eqn:E.
  - split; [|reflexivity]. intros _. destruct (bsearch_hit _ _ _ _ E) as (x & X & _ & C).
    apply compare_eq in C. subst x. apply sort_in in X. exact X.
  - split; [discriminate|]. intros H. exfalso.
    destruct (bsearch_hits _ (fun x => String.compare x n) (sort str_leb l) n) as (i' & E').
    + eapply sorted_ordered; [apply (sort_sorted _ str_leb str_leb_total str_leb_trans)|].
      intros x y _ _ L. apply compare_mono. unfold str_leb in L. destruct (String.compare x y); congruence.
    + apply sort_in. exact H.
    + apply compare_refl.
    + congruence.
Qed.

Lemma searched_false : forall l n, searched l n = false <-> ~ In n l.
Proof. intros l n. rewrite <- searched_spec. destruct (searched l n); split; congruence. Qed.

Lemma dedup_in : forall l x, In x (dedup l) <-> In x l.
Proof.
  induction l as [|y l IH]; intros x; [reflexivity|].
  destruct l as [|z l]; [reflexivity|]. change (dedup (y :: z :: l)) with
    (if String.eqb y z then dedup (z :: l) else y :: dedup (z :: l)).
  destruct (String.eqb y z) eqn:E.
  - rewrite IH. apply String.eqb_eq in E. subst. cbn. tauto.
  - cbn [In]. rewrite IH. cbn. tauto.
Qed.

(* The entries of a sorted list that a predicate holds of, when the list
   consists of entries before, in and after the range. *)
Lemma in_range : forall A (lt eq : A -> bool) ps,
  (forall i j x y, i < j -> nth_error ps i = Some x -> nth_error ps j = Some y ->
     (lt y = true -> lt x = true) /\ (lt x = false -> eq y = true -> eq x = true)) ->
  (forall x, lt x = true -> eq x = false) ->
  forall x, In x (take_while eq (skipn (partition_point lt ps) ps)) <-> In x ps /\ eq x = true.
Proof.
  intros A lt eq ps H D x.
  destruct (partition_point_spec _ lt ps) as [PL PS].
  { intros i j y z L Y Z T. destruct (Nat.eq_dec i j) as [->|NE].
    - rewrite Y in Z. congruence.
    - destruct (H i j y z) as [H1 _]; auto. lia. }
  set (p := partition_point lt ps) in *.
  assert (SP : ps = firstn p ps ++ skipn p ps) by (symmetry; apply firstn_skipn).
  assert (FP : forall y, In y (firstn p ps) -> eq y = false).
  { intros y Y. apply D. apply In_nth_error in Y. destruct Y as (i & Y).
    assert (IL : i < length (firstn p ps)) by (apply nth_error_Some; congruence).
    rewrite firstn_length in IL.
    apply (PS i y); [|lia]. rewrite <- Y. symmetry. rewrite SP at 2. apply (eq_sym (nth_error_app1 (firstn p ps) (skipn p ps) (n:=i) ltac:(rewrite firstn_length; lia))). }
  assert (TW : forall q, (forall i j y z, i < j -> nth_error q i = Some y -> nth_error q j = Some z -> eq z = true -> eq y = true) ->
             forall y, In y (take_while eq q) <-> In y q /\ eq y = true).
  { clear. induction q as [|z q IH]; intros M y; cbn; [tauto|].
    destruct (eq z) eqn:E.
    - cbn. rewrite IH.
      + split; [intros [->|[]]; auto|]. intros [[->|Y] T]; auto.
      + intros i j u v L U V. apply (M (S i) (S j)); auto. lia.
    - split; [contradiction|]. intros [[->|Y] T]; [congruence|]. apply In_nth_error in Y. destruct Y as (j & Y).
      assert (eq z = true); [|congruence]. apply (M 0 (S j) z y); auto. lia. }
  rewrite TW.
  - split.
    + intros [X T]. split; [|exact T]. rewrite SP. apply in_or_app. auto.
    + intros [X T]. split; [|exact T]. rewrite SP in X. apply in_app_or in X. destruct X as [X|X]; [|exact X].
      rewrite (FP x X) in T. discriminate.
  - intros i j y z L Y Z T.
    assert (SK : forall k w, nth_error (skipn p ps) k = Some w -> nth_error ps (p + k) = Some w).
    { intros k w W. rewrite SP. rewrite nth_error_app2 by (rewrite firstn_length; lia).
      rewrite firstn_length. replace (p + k - Nat.min p (length ps)) with k by lia. exact W. }
    destruct (H (p + i) (p + j) y z) as [_ H2]; auto; [lia|].
    apply H2; auto. apply (PS (p + i) y); auto. lia.
Qed.

Definition range_in := in_range rchange.

Lemma is_lt_spec : forall c, is_lt c = true <-> c = Lt.
Proof. destruct c; cbn; split; congruence. Qed.
Lemma is_eq_spec : forall c, is_eq c = true <-> c = Eq.
Proof. destruct c; cbn; split; congruence. Qed.

Lemma iter_exact_in : forall ps p, psorted ps -> forall r, In r (iter_exact ps p) <-> In r ps /\ seg r = p.
Proof.
  intros ps p SS r. unfold iter_exact. rewrite range_in.
  - rewrite is_eq_spec, cmp3_eq. reflexivity.
  - intros i j x y L X Y. pose proof (sorted_nth _ _ _ SS i j x y L X Y) as R. cbn in R.
    pose proof (cmp3_mono _ _ p R) as M. split.
    + rewrite !is_lt_spec. intros E. rewrite E in M. destruct (cmp3 (seg x) p); cbn in M; auto; lia.
    + intros NL. rewrite !is_eq_spec. intros E. rewrite E in M.
      destruct (cmp3 (seg x) p); cbn in *; auto; try lia; discriminate.
  - intros x. rewrite is_lt_spec. intros ->. reflexivity.
Qed.

Lemma cmp3_first : forall x y, cmp3 x y <> Gt -> String.compare (fst (fst x)) (fst (fst y)) <> Gt.
Proof.
  intros x y. unfold cmp3. destruct (String.compare (fst (fst x)) (fst (fst y))); congruence.
Qed.

Lemma ckind_eqb_spec : forall a b, ckind_eqb a b = true <-> a = b.
Proof.
  intros a b. unfold ckind_eqb. rewrite Nat.eqb_eq. split; [|intros ->; reflexivity].
  destruct a, b; cbn; congruence.
Qed.

Lemma ckind_rank_inj : forall a b, ckind_rank a = ckind_rank b -> a = b.
Proof. intros a b. rewrite <- Nat.eqb_eq. apply ckind_eqb_spec. Qed.

Lemma added_impls_in : forall ps n, psorted ps -> forall i, In i (added_interface_impls ps n) <->
  exists r, In r ps /\ seg1 r = n /\ rkind r = AddInterfaceImplementation /\ trim (seg2 r) = i.
Proof.
  intros ps n SS i. unfold added_interface_impls. rewrite in_map_iff.
  assert (RG : forall x, In x (take_while (fun r => String.eqb (seg1 r) n)
                (skipn (partition_point (fun r => is_lt (String.compare (seg1 r) n)) ps) ps)) <->
              In x ps /\ String.eqb (seg1 x) n = true).
  { apply range_in.
    - intros k j x y L X Y. pose proof (sorted_nth _ _ _ SS k j x y L X Y) as R. cbn in R.
      apply cmp3_first in R. pose proof (compare_mono _ _ n R) as M.
      change (fst (fst (seg x))) with (seg1 x) in M. change (fst (fst (seg y))) with (seg1 y) in M. split.
      + rewrite !is_lt_spec. intros E. rewrite E in M. destruct (String.compare (seg1 x) n); cbn in M; auto; lia.
      + intros NL. rewrite !String.eqb_eq. intros E. subst n. rewrite compare_refl in M.
        destruct (String.compare (seg1 x) (seg1 y)) eqn:C; cbn in *; try discriminate; try lia.
        apply compare_eq. exact C.
    - intros x. rewrite is_lt_spec. intros E. apply String.eqb_neq. intros Q. subst n. rewrite compare_refl in E. discriminate. }
  split.
  - intros (r & E & H). apply filter_In in H. destruct H as [H K]. apply RG in H. destruct H as [H N].
    apply String.eqb_eq in N. apply ckind_eqb_spec in K. exists r. auto.
  - intros (r & R & N & K & E). exists r. split; [exact E|]. apply filter_In. split.
    + apply RG. split; [exact R|]. apply String.eqb_eq. exact N.
    + apply ckind_eqb_spec. exact K.
Qed.

(** The type of a field after the changes. *)
Lemma patch_type_hit : forall ps n f t u r, psorted ps ->
  In r ps -> seg1 r = n -> seg2 r = f -> is_empty f = false -> rkind r = ChangeFieldType -> rtext r = TypeText u ->
  (forall r', In r' ps -> seg1 r' = n -> seg2 r' = f -> rkind r' = ChangeFieldType -> rtext r' = rtext r) ->
  patch_type (changed_types (iter_second_level ps n)) f t = u.
Proof.
  intros ps n f t u r SS R N F NE K T U. unfold patch_type.
  set (l := changed_types (iter_second_level ps n)).
  assert (LI : forall e, In e l <-> exists r', In r' ps /\ seg1 r' = n /\ is_empty (seg2 r') = false /\
                rkind r' = ChangeFieldType /\ e = (seg2 r', rtext r')).
  { intros e. unfold l, changed_types, iter_second_level. rewrite in_map_iff. split.
    - intros (r' & <- & H). rewrite !filter_In in H. destruct H as [[H1 H2] H3].
      apply andb_true_iff in H2. destruct H2 as [H2 H4]. apply String.eqb_eq in H2.
      apply negb_true_iff in H4. apply ckind_eqb_spec in H3. exists r'. auto.
    - intros (r' & R' & N' & E' & K' & ->). exists r'. split; [reflexivity|]. rewrite !filter_In.
      rewrite andb_true_iff, String.eqb_eq, negb_true_iff, ckind_eqb_spec. auto. }
  assert (OR : ordered (fun e : string * payload => String.compare (fst e) f) l).
  { apply sorted_ordered with (R := fun x y => String.compare (fst x) (fst y) <> Gt).
    - unfold l, changed_types, iter_second_level.
      rewrite <- (map_id (map _ _)).
      assert (SF : StronglySorted (fun x y => cmp3 (seg x) (seg y) <> Gt)
                     (filter (fun r => ckind_eqb (rkind r) ChangeFieldType)
                       (filter (fun r => String.eqb (seg1 r) n && negb (is_empty (seg2 r))) ps))).
      { apply sorted_filter, sorted_filter. exact SS. }
      rewrite map_id.
      assert (AL : Forall (fun x => seg1 x = n) (filter (fun r => ckind_eqb (rkind r) ChangeFieldType)
                       (filter (fun r => String.eqb (seg1 r) n && negb (is_empty (seg2 r))) ps))).
      { apply Forall_forall. intros x X. rewrite !filter_In, andb_true_iff, String.eqb_eq in X. tauto. }
      induction SF as [|x q SQ IH FX]; cbn; [constructor|].
      inversion AL; subst. constructor; [apply IH; auto|].
      rewrite Forall_forall in *. intros e E. apply in_map_iff in E. destruct E as (y & <- & Y).
      cbn. specialize (FX y Y). specialize (H2 y Y). unfold cmp3 in FX.
      change (fst (fst (seg x))) with (seg1 x) in FX. change (fst (fst (seg y))) with (seg1 y) in FX.
      rewrite H1, H2, compare_refl in FX.
      unfold seg2. destruct (String.compare (snd (fst (seg x))) (snd (fst (seg y)))); congruence.
    - intros x y _ _. apply compare_mono. }
  destruct (bsearch (fun e : string * payload => String.compare (fst e) f) l) as [i|i] eqn:E.
  - destruct (bsearch_hit _ _ _ _ E) as (e & IE & NT & C). rewrite NT.
    apply LI in IE. destruct IE as (r' & R' & N' & E' & K' & ->). apply compare_eq in C. cbn in C.
    rewrite (U r' R' N' C K'), T. reflexivity.
  - exfalso. destruct (bsearch_hits _ (fun e : string * payload => String.compare (fst e) f) l (f, TypeText u) OR) as (i' & E').
    + apply LI. exists r. subst f. rewrite <- T. auto.
    + apply compare_refl.
    + congruence.
Qed.

Lemma patch_type_miss : forall ps n f t,
  (forall r, In r ps -> seg1 r = n -> seg2 r = f -> rkind r <> ChangeFieldType) ->
  patch_type (changed_types (iter_second_level ps n)) f t = t.
Proof.
  intros ps n f t H. unfold patch_type.
  destruct (bsearch _ _) as [i|i] eqn:E; [|reflexivity]. exfalso.
  destruct (bsearch_hit _ _ _ _ E) as (e & IE & NT & C). apply compare_eq in C.
  unfold changed_types, iter_second_level in IE. apply in_map_iff in IE. destruct IE as (r & <- & R).
  rewrite !filter_In, andb_true_iff, String.eqb_eq in R. destruct R as [[R [N _]] K]. apply ckind_eqb_spec in K.
  exact (H r R N C K).
Qed.
