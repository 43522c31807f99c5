From Coq Require Import List Arith Bool Lia Permutation Sorted RelationClasses.
From Verif.Scheduler Require Model Spec.
From Verif.Plans Require Import Model Spec.
Import ListNotations.

Fixpoint size (r : req) : nat := match r with Item _ _ sub => S (list_sum (map size sub)) end.
Definition sizes (s : list req) : nat := list_sum (map size s).
Lemma sizes_cons : forall x s, sizes (x :: s) = S (sizes (r_sub x)) + sizes s.
Proof. intros [f m sub] s. reflexivity. Qed.

Lemma union_nil_l : forall b, union [] b = b.
Proof. reflexivity. Qed.
Lemma union_nil_r : forall a, union a [] = a.
Proof. intros [|x a]; reflexivity. Qed.
Lemma union_cons : forall x a y b, union (x :: a) (y :: b) =
  match r_matching x ?= r_matching y with
  | Lt => x :: union a (y :: b)
  | Gt => y :: union (x :: a) b
  | Eq => Item (r_field x) (r_matching x) (union (r_sub x) (r_sub y)) :: union a b
  end.
Proof.
  intros [fx mx sx] a [fy my sy] b. cbn [r_matching r_field r_sub]. unfold union. cbn [union_sub r_matching r_field r_sub].
  destruct (mx ?= my); try reflexivity. f_equal. f_equal. destruct sx; reflexivity.
Qed.

Lemma leads_iff : forall s path f, leads s path f <->
  exists r, In r s /\ ((path = [r_matching r] /\ f = r_field r) \/ exists path', path = r_matching r :: path' /\ leads (r_sub r) path' f).
Proof.
  intros s path f. split.
  - intros H. inversion H; subst; eexists; (split; [eassumption|]); cbn.
    + left. split; reflexivity.
    + right. exists path0. split; [reflexivity|assumption].
  - intros ([g m sub] & I & [(-> & ->)|(path' & -> & L)]); cbn in *; [eapply L_here; eassumption|eapply L_below; eassumption].
Qed.
Lemma leads_nil : forall path f, ~ leads [] path f.
Proof. intros path f H. apply leads_iff in H. destruct H as (r & [] & _). Qed.
Lemma leads_cons : forall x s path f, leads (x :: s) path f <-> leads [x] path f \/ leads s path f.
Proof.
  intros x s path f. rewrite (leads_iff (x :: s)), (leads_iff [x]), (leads_iff s). split.
  - intros (r & [->|I] & H); [left; exists r; split; [left; reflexivity|exact H]|right; exists r; split; assumption].
  - intros [(r & [->|[]] & H)|(r & I & H)]; exists r; (split; [|exact H]); [left; reflexivity|right; exact I].
Qed.
Lemma leads_one : forall x path f, leads [x] path f <->
  (path = [r_matching x] /\ f = r_field x) \/ exists path', path = r_matching x :: path' /\ leads (r_sub x) path' f.
Proof.
  intros x path f. rewrite leads_iff. split; [intros (r & [->|[]] & H); exact H|intros H; exists x; split; [left; reflexivity|exact H]].
Qed.

Lemma union_leads : forall n a b, sizes a + sizes b <= n -> forall path f, leads (union a b) path f -> leads a path f \/ leads b path f.
Proof.
  induction n as [n IH] using lt_wf_ind. intros [|x a] b L path f H; [rewrite union_nil_l in H; right; exact H|].
  destruct b as [|y b]; [rewrite union_nil_r in H; left; exact H|].
  rewrite !sizes_cons in L. rewrite union_cons in H. destruct (r_matching x ?= r_matching y) eqn:C.
  - apply Nat.compare_eq in C. apply leads_cons in H. destruct H as [H|H].
    + apply leads_one in H. cbn [r_matching r_field r_sub] in H. destruct H as [(-> & ->)|(path' & -> & H)].
      * left. apply leads_cons. left. apply leads_one. left. split; reflexivity.
      * destruct (IH (sizes (r_sub x) + sizes (r_sub y))) with (a := r_sub x) (b := r_sub y) (path := path') (f := f) as [J|J]; try lia; try assumption.
        -- left. apply leads_cons. left. apply leads_one. right. exists path'. split; [reflexivity|exact J].
        -- right. apply leads_cons. left. apply leads_one. right. exists path'. rewrite <- C. split; [reflexivity|exact J].
    + destruct (IH (sizes a + sizes b)) with (a := a) (b := b) (path := path) (f := f) as [J|J]; try lia; try assumption;
        [left|right]; apply leads_cons; right; exact J.
  - apply leads_cons in H. destruct H as [H|H]; [left; apply leads_cons; left; exact H|].
    destruct (IH (sizes a + sizes (y :: b))) with (a := a) (b := y :: b) (path := path) (f := f) as [J|J]; try rewrite sizes_cons; try lia; try assumption;
      [left; apply leads_cons; right; exact J|right; exact J].
  - apply leads_cons in H. destruct H as [H|H]; [right; apply leads_cons; left; exact H|].
    destruct (IH (sizes (x :: a) + sizes b)) with (a := x :: a) (b := b) (path := path) (f := f) as [J|J]; try rewrite sizes_cons; try lia; try assumption;
      [left; exact J|right; apply leads_cons; right; exact J].
Qed.

Definition reaches (s : list req) (path : list nat) : Prop := exists f, leads s path f.
Lemma reaches_cons : forall x s path, reaches (x :: s) path <-> reaches [x] path \/ reaches s path.
Proof.
  intros x s path. unfold reaches. split.
  - intros (f & H). apply leads_cons in H. destruct H as [H|H]; [left|right]; exists f; exact H.
  - intros [(f & H)|(f & H)]; exists f; apply leads_cons; [left|right]; exact H.
Qed.
Lemma reaches_one : forall x path, reaches [x] path <->
  path = [r_matching x] \/ exists path', path = r_matching x :: path' /\ reaches (r_sub x) path'.
Proof.
  intros x path. unfold reaches. split.
  - intros (f & H). apply leads_one in H. destruct H as [(-> & _)|(path' & -> & H)]; [left; reflexivity|].
    right. exists path'. split; [reflexivity|]. exists f. exact H.
  - intros [->|(path' & -> & f & H)]; [exists (r_field x)|exists f]; apply leads_one; [left; split; reflexivity|].
    right. exists path'. split; [reflexivity|exact H].
Qed.
Lemma union_reaches : forall n a b, sizes a + sizes b <= n -> forall path, reaches a path \/ reaches b path -> reaches (union a b) path.
Proof.
  induction n as [n IH] using lt_wf_ind. intros [|x a] b L path H.
  { rewrite union_nil_l. destruct H as [(f & H)|H]; [destruct (leads_nil _ _ H)|exact H]. }
  destruct b as [|y b].
  { rewrite union_nil_r. destruct H as [H|(f & H)]; [exact H|destruct (leads_nil _ _ H)]. }
  rewrite !sizes_cons in L. rewrite union_cons. destruct (r_matching x ?= r_matching y) eqn:C.
  - apply Nat.compare_eq in C. rewrite reaches_cons.
    assert (K : reaches a path \/ reaches b path -> reaches (union a b) path) by (intros J; apply (IH (sizes a + sizes b)); try lia; assumption).
    assert (U : forall path', reaches (r_sub x) path' \/ reaches (r_sub y) path' -> reaches (union (r_sub x) (r_sub y)) path')
      by (intros path' J; apply (IH (sizes (r_sub x) + sizes (r_sub y))); try lia; assumption).
    rewrite (reaches_cons x a), (reaches_cons y b), (reaches_one x), (reaches_one y) in H. rewrite reaches_one. cbn [r_matching r_sub]. rewrite <- C in H.
    destruct H as [[[->|(path' & -> & J)]|J]|[[->|(path' & -> & J)]|J]];
      try solve [left; left; reflexivity]; try solve [right; apply K; auto].
    + left. right. exists path'. split; [reflexivity|]. apply U. left. exact J.
    + left. right. exists path'. split; [reflexivity|]. apply U. right. exact J.
  - rewrite reaches_cons. rewrite (reaches_cons x a) in H. destruct H as [[H|H]|H]; [left; exact H|right|right];
      apply (IH (sizes a + sizes (y :: b))); try rewrite sizes_cons; try lia; [left|right]; exact H.
  - rewrite reaches_cons. rewrite (reaches_cons y b) in H. destruct H as [H|[H|H]]; [right|left; exact H|right];
      apply (IH (sizes (x :: a) + sizes b)); try rewrite sizes_cons; try lia; [left|right]; exact H.
Qed.

(** Sorting and removing duplicates keep the elements. *)
Lemma insert_nat_in : forall x l y, In y (insert_nat x l) <-> y = x \/ In y l.
Proof.
  intros x l y. induction l as [|z l IH]; cbn [insert_nat]; [cbn; intuition auto|].
  destruct (x <=? z); cbn [In]; [intuition auto|]. rewrite IH. intuition auto.
Qed.
Lemma sort_nats_in : forall l y, In y (sort_nats l) <-> In y l.
Proof. induction l as [|x l IH]; intros y; [reflexivity|]. cbn [sort_nats fold_right]. fold (sort_nats l). rewrite insert_nat_in, IH. cbn. intuition auto. Qed.
Lemma dedup_in : forall l y, In y (dedup l) <-> In y l.
Proof.
  induction l as [|x l IH]; intros y; [reflexivity|]. cbn [dedup]. destruct (dedup l) as [|z d] eqn:E.
  - assert (l = []) as -> by (destruct l as [|w l]; [reflexivity|exfalso; apply (proj2 (IH w)); left; reflexivity]). reflexivity.
  - assert (G : In y (x :: z :: d) <-> In y (x :: l)) by (cbn [In]; rewrite <- IH; reflexivity). rewrite <- G.
    destruct (x =? z) eqn:X; [|reflexivity]. apply Nat.eqb_eq in X. subst z. cbn. intuition auto.
Qed.

Lemma fields_leads_n : forall n s, sizes s <= n -> forall f, In f (flat_map fields_of s) <-> exists path, leads s path f.
Proof.
  induction n as [n IH] using lt_wf_ind. intros [|x s] L f; [split; [intros []|intros (p & H); destruct (leads_nil _ _ H)]|].
  rewrite sizes_cons in L. cbn [flat_map]. rewrite in_app_iff.
  pose proof (IH (sizes s) ltac:(lia) s ltac:(lia) f) as B. pose proof (IH (sizes (r_sub x)) ltac:(lia) (r_sub x) ltac:(lia) f) as A.
  rewrite B. destruct x as [g m sub]. cbn [fields_of r_sub] in *. cbn [In]. rewrite A. split.
  - intros [[->|(p & H)]|(p & H)]; eexists; apply leads_cons; [left|left|right; exact H]; apply leads_one; cbn.
    + left. split; reflexivity.
    + right. exists p. split; [reflexivity|exact H].
  - intros (p & H). apply leads_cons in H. destruct H as [H|H]; [|right; exists p; exact H].
    apply leads_one in H. cbn in H. left. destruct H as [(_ & ->)|(p' & _ & H)]; [left; reflexivity|right; exists p'; exact H].
Qed.
Lemma fields_leads : forall s f, In f (flat_map fields_of s) <-> exists path, leads s path f.
Proof. intros s. apply (fields_leads_n (sizes s)). lia. Qed.
Lemma register_in : forall o x s y q, In (y, q) (register o x s) <-> y = x /\ exists path f, leads s path f /\ f_partition (field o f) = q.
Proof.
  intros o x s y q. unfold register. rewrite in_map_iff. split.
  - intros (p & E & I). injection E as <- <-. apply dedup_in, sort_nats_in, in_map_iff in I. destruct I as (f & <- & I).
    apply fields_leads in I. destruct I as (path & I). split; [reflexivity|]. exists path, f. split; [exact I|reflexivity].
  - intros (-> & path & f & L & <-). exists (f_partition (field o f)). split; [reflexivity|].
    apply dedup_in, sort_nats_in, in_map_iff. exists f. split; [reflexivity|]. apply fields_leads. exists path. exact L.
Qed.

(** What a plan requires. *)
Lemma union_fold_leads : forall o fs s path f, leads (fold_left (fun s g => union s (f_requires (field o g))) fs s) path f ->
  leads s path f \/ exists g, In g fs /\ leads (f_requires (field o g)) path f.
Proof.
  intros o. induction fs as [|g fs IH]; intros s path f H; [left; exact H|]. cbn [fold_left] in H.
  destruct (IH _ _ _ H) as [J|(h & I & J)]; [|right; exists h; split; [right; exact I|exact J]].
  destruct (union_leads _ _ _ (Nat.le_refl _) _ _ J) as [K|K]; [left; exact K|right; exists g; split; [left; reflexivity|exact K]].
Qed.
Lemma union_fold_reaches : forall o fs s path, reaches s path \/ (exists g, In g fs /\ reaches (f_requires (field o g)) path) ->
  reaches (fold_left (fun s g => union s (f_requires (field o g))) fs s) path.
Proof.
  intros o. induction fs as [|g fs IH]; intros s path H; [destruct H as [H|(g & [] & _)]; exact H|]. cbn [fold_left]. apply IH.
  destruct H as [H|(h & [->|I] & H)].
  - left. apply (union_reaches _ _ _ (Nat.le_refl _)). left. exact H.
  - left. apply (union_reaches _ _ _ (Nat.le_refl _)). right. exact H.
  - right. exists h. split; assumption.
Qed.
Lemma plan_requires_leads : forall o p path f, leads (plan_requires o p) path f -> needs o p path f.
Proof.
  intros o p path f. unfold plan_requires, needs. destruct (p_lookup p); [left; assumption|]. intros H.
  destruct (union_fold_leads _ _ _ _ _ H) as [J|J]; [left; exact J|right; split; [reflexivity|exact J]].
Qed.
Lemma plan_requires_reaches : forall o p path f, needs o p path f -> exists f', leads (plan_requires o p) path f'.
Proof.
  intros o p path f. unfold plan_requires, needs. destruct (p_lookup p).
  - intros [H|(E & _)]; [exists f; exact H|discriminate E].
  - intros H. apply union_fold_reaches. destruct H as [H|(_ & g & I & H)]; [left; exists f; exact H|right; exists g; split; [exact I|exists f; exact H]].
Qed.
Lemma nonempty_leads : forall r s, exists path f, leads (r :: s) path f.
Proof. intros [f m sub] s. exists [m], f. eapply L_here. left. reflexivity. Qed.

Lemma plans_from_in : forall o ps i x q, In (x, q) (plans_from o i ps) <->
  exists k p, nth_error ps k = Some p /\ In (x, q) (plan_dependencies o (i + k) p).
Proof.
  intros o. induction ps as [|p ps IH]; intros i x q; [split; [intros []|intros ([|k] & p & E & _); discriminate E]|].
  cbn [plans_from]. rewrite in_app_iff, IH. split.
  - intros [H|(k & p' & E & H)]; [exists 0, p; rewrite Nat.add_0_r; split; [reflexivity|exact H]|].
    exists (S k), p'. rewrite <- Nat.add_succ_comm. split; assumption.
  - intros ([|k] & p' & E & H); [injection E as <-; rewrite Nat.add_0_r in H; left; exact H|].
    right. exists k, p'. rewrite <- Nat.add_succ_comm in H. split; assumption.
Qed.
Lemma plan_dependencies_in : forall o i p x q, In (x, q) (plan_dependencies o i p) <->
  x = Scheduler.Model.P i /\
  ((exists path f, leads (plan_requires o p) path f /\ f_partition (field o f) = q) \/
   (plan_requires o p = [] /\ exists l, p_parents p = q :: l)).
Proof.
  intros o i p x q. unfold plan_dependencies. destruct (plan_requires o p) as [|r s] eqn:E.
  - split.
    + destruct (p_parents p) as [|q' l]; [intros []|]. intros [H|[]]. injection H as <- <-. split; [reflexivity|]. right.
      split; [reflexivity|]. exists l. reflexivity.
    + intros (-> & [(path & f & L & _)|(_ & l & ->)]); [destruct (leads_nil _ _ L)|left; reflexivity].
  - rewrite register_in. split.
    + intros (-> & H). split; [reflexivity|]. left. exact H.
    + intros (-> & [H|(H & _)]); [split; [reflexivity|exact H]|discriminate H].
Qed.

(** Targets of modifiers. *)
Lemma impacted_compare_eq : forall a b, impacted_compare a b = Eq <-> a = b.
Proof.
  intros [p s t f] [p' s' t' f']. unfold impacted_compare, then_compare. cbn. split.
  - destruct (p ?= p') eqn:A; try discriminate. destruct (s ?= s') eqn:B; try discriminate. destruct (t ?= t') eqn:C; try discriminate.
    intros D. apply Nat.compare_eq in A, B, C, D. congruence.
  - intros E. injection E as <- <- <- <-. rewrite !Nat.compare_refl. reflexivity.
Qed.
Lemma insert_impacted_in : forall x l y, In y (insert_impacted x l) <-> y = x \/ In y l.
Proof.
  intros x l y. induction l as [|z l IH]; cbn [insert_impacted]; [cbn; intuition auto|].
  destruct (impacted_compare x z); cbn [In]; try rewrite IH; intuition auto.
Qed.
Lemma sort_impacted_in : forall l y, In y (sort_impacted l) <-> In y l.
Proof. induction l as [|x l IH]; intros y; [reflexivity|]. cbn [sort_impacted fold_right]. fold (sort_impacted l). rewrite insert_impacted_in, IH. cbn. intuition auto. Qed.
Lemma dedup_impacted_in : forall l y, In y (dedup_impacted l) <-> In y l.
Proof.
  induction l as [|x l IH]; intros y; [reflexivity|]. cbn [dedup_impacted]. destruct (dedup_impacted l) as [|z d] eqn:E.
  - assert (l = []) as -> by (destruct l as [|w l]; [reflexivity|exfalso; apply (proj2 (IH w)); left; reflexivity]). reflexivity.
  - assert (G : In y (x :: z :: d) <-> In y (x :: l)) by (cbn [In]; rewrite <- IH; reflexivity). rewrite <- G.
    unfold impacted_eqb. destruct (impacted_compare x z) eqn:X; try reflexivity.
    apply impacted_compare_eq in X. subst z. cbn. intuition auto.
Qed.
Definition partition_le (a b : impacted) : Prop := i_partition a <= i_partition b.
Lemma compare_le : forall a b, impacted_compare a b <> Gt -> partition_le a b.
Proof.
  intros a b. unfold impacted_compare, then_compare, partition_le. destruct (i_partition a ?= i_partition b) eqn:C.
  - apply Nat.compare_eq in C. lia.
  - apply Nat.compare_lt_iff in C. lia.
  - congruence.
Qed.
Lemma compare_gt : forall a b, impacted_compare a b = Gt -> partition_le b a.
Proof.
  intros a b. unfold impacted_compare, then_compare, partition_le. destruct (i_partition a ?= i_partition b) eqn:C.
  - apply Nat.compare_eq in C. lia.
  - discriminate.
  - apply Nat.compare_gt_iff in C. lia.
Qed.
Global Instance partition_le_trans : Transitive partition_le.
Proof. intros a b c. unfold partition_le. lia. Qed.
Lemma insert_impacted_sorted : forall x l, StronglySorted partition_le l -> StronglySorted partition_le (insert_impacted x l).
Proof.
  intros x l H. induction H as [|y l H IH F]; cbn [insert_impacted]; [constructor; constructor|].
  destruct (impacted_compare x y) eqn:C.
  1, 2: (assert (partition_le x y) by (apply compare_le; congruence); constructor; [constructor; assumption|];
    constructor; [assumption|]; eapply Forall_impl; [|exact F]; intros z Z; unfold partition_le in *; lia).
  constructor; [exact IH|]. apply Forall_forall. intros z I. apply insert_impacted_in in I. destruct I as [->|I]; [apply compare_gt; exact C|].
  rewrite Forall_forall in F. apply F. exact I.
Qed.
Lemma sort_impacted_sorted : forall l, StronglySorted partition_le (sort_impacted l).
Proof. induction l as [|x l IH]; [constructor|]. cbn [sort_impacted fold_right]. apply insert_impacted_sorted. exact IH. Qed.
Lemma dedup_impacted_sorted : forall l, StronglySorted partition_le l -> StronglySorted partition_le (dedup_impacted l).
Proof.
  intros l H. induction H as [|x l H IH F]; [constructor|]. cbn [dedup_impacted].
  assert (G : Forall (partition_le x) (dedup_impacted l)).
  { apply Forall_forall. intros z I. apply (proj1 (dedup_impacted_in l z)) in I. rewrite Forall_forall in F. apply F. exact I. }
  destruct (dedup_impacted l) as [|y d]; [constructor; constructor|]. destruct (impacted_eqb x y); [exact IH|]. constructor; assumption.
Qed.

(** Chunks: the same elements in the same order, none empty, one partition each, different ones. *)
Definition of_partition (p : nat) (c : list impacted) : Prop := c <> [] /\ forall t, In t c -> i_partition t = p.
Lemma chunks_concat : forall l, concat (chunks l) = l.
Proof.
  induction l as [|x l IH]; [reflexivity|]. cbn [chunks]. rewrite <- IH at 2. destruct (chunks l) as [|[|y c] cs]; try reflexivity.
  destruct (i_partition x =? i_partition y); reflexivity.
Qed.
Lemma chunks_partition : forall l c, In c (chunks l) -> exists p, of_partition p c.
Proof.
  induction l as [|x l IH]; intros c I; [destruct I|]. cbn [chunks] in I.
  assert (One : exists p, of_partition p [x]) by (exists (i_partition x); split; [discriminate|intros t [<-|[]]; reflexivity]).
  destruct (chunks l) as [|[|y d] cs].
  - destruct I as [<-|[]]. exact One.
  - destruct I as [<-|I]; [exact One|]. apply IH. exact I.
  - destruct (i_partition x =? i_partition y) eqn:E.
    + destruct I as [<-|I]; [|apply IH; right; exact I]. apply Nat.eqb_eq in E. destruct (IH (y :: d) (or_introl eq_refl)) as (p & _ & H).
      exists p. split; [discriminate|]. intros t [<-|J]; [rewrite E; apply H; left; reflexivity|apply H; exact J].
    + destruct I as [<-|I]; [exact One|]. apply IH. exact I.
Qed.
Lemma chunks_head : forall l c cs, chunks l = c :: cs -> exists x c' l', c = x :: c' /\ l = x :: l'.
Proof.
  intros [|x l] c cs H; [discriminate H|]. cbn [chunks] in H.
  destruct (chunks l) as [|[|y d] ds]; [| |destruct (i_partition x =? i_partition y)]; injection H as <- _; eexists _, _, _; split; reflexivity.
Qed.
Lemma chunks_distinct : forall l, StronglySorted partition_le l -> forall i j c d x y,
  nth_error (chunks l) i = Some c -> nth_error (chunks l) j = Some d -> In x c -> In y d -> i_partition x = i_partition y -> i = j.
Proof.
  assert (K : forall l, StronglySorted partition_le l ->
    StronglySorted (fun c d => forall x y, In x c -> In y d -> i_partition x < i_partition y) (chunks l)).
  { intros l H. induction H as [|x l H IH F]; [constructor|]. cbn [chunks]. pose proof (chunks_concat l) as Cc. pose proof (chunks_head l) as Hd.
    pose proof (chunks_partition l) as Cp.
    assert (Le : forall c t, In c (chunks l) -> In t c -> i_partition x <= i_partition t).
    { intros c t I J. rewrite Forall_forall in F. apply F. rewrite <- Cc. apply in_concat. exists c. split; assumption. }
    destruct (chunks l) as [|[|y d] ds].
    - constructor; constructor.
    - destruct (Hd _ _ eq_refl) as (? & ? & ? & E & _). discriminate E.
    - inversion IH as [|? ? IH' F']; subst. rewrite Forall_forall in F'. destruct (Cp (y :: d) (or_introl eq_refl)) as (p & _ & Ep).
      destruct (i_partition x =? i_partition y) eqn:E.
      + apply Nat.eqb_eq in E. constructor; [exact IH'|]. apply Forall_forall. intros e Ie u v [<-|Iu] Iv; [|apply (F' e Ie); assumption].
        rewrite E. apply (F' e Ie); [left; reflexivity|exact Iv].
      + apply Nat.eqb_neq in E. constructor; [exact IH|]. apply Forall_forall. intros e Ie u v [<-|[]] Iv.
        assert (x_y : i_partition x < i_partition y) by (pose proof (Le (y :: d) y (or_introl eq_refl) (or_introl eq_refl)); lia).
        destruct Ie as [<-|Ie].
        * rewrite (Ep v Iv), <- (Ep y (or_introl eq_refl)). exact x_y.
        * pose proof (F' e Ie y v (or_introl eq_refl) Iv). lia. }
  intros l H i j c d x y Hi Hj Ix Iy E. specialize (K l H). clear H. destruct (lt_eq_lt_dec i j) as [[L|L]|L]; [exfalso|exact L|exfalso].
  - revert i j L Hi Hj. induction K as [|e es K IH F]; intros i j L Hi Hj; [destruct i; discriminate Hi|]. destruct j as [|j]; [lia|]. cbn in Hj. destruct i as [|i].
    + cbn in Hi. injection Hi as ->. rewrite Forall_forall in F. pose proof (F d (nth_error_In _ _ Hj) x y Ix Iy). lia.
    + cbn in Hi. apply (IH i j); [lia|assumption|assumption].
  - revert i j L Hi Hj. induction K as [|e es K IH F]; intros i j L Hi Hj; [destruct i; discriminate Hi|]. destruct i as [|i]; [lia|]. cbn in Hi. destruct j as [|j].
    + cbn in Hj. injection Hj as ->. rewrite Forall_forall in F. pose proof (F c (nth_error_In _ _ Hi) y x Iy Ix). lia.
    + cbn in Hj. apply (IH i j); [lia|assumption|assumption].
Qed.
