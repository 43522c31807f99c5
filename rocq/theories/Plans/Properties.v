(** C77: plans wait for the fields they require, and the check of a protected field for what it needs; when
    every request succeeds and authorization needs no later field, every protected field of the response is
    checked. *)
From Coq Require Import List Arith Bool Lia.
From Verif.Scheduler Require Model Spec Properties.
From Verif.Plans Require Import Model Spec Proofs Modifiers.
Import ListNotations.
Import Scheduler.Model Scheduler.Spec.

(** Merging requirements keeps every required path, and adds none. *)
Theorem C77_union : forall a b path,
  ((exists f, leads (union a b) path f) <-> (exists f, leads a path f) \/ (exists f, leads b path f)) /\
  (forall f, leads (union a b) path f -> leads a path f \/ leads b path f).
Proof.
  intros a b path. assert (L : forall f, leads (union a b) path f -> leads a path f \/ leads b path f).
  { intros f. apply (union_leads _ _ _ (Nat.le_refl _)). }
  split; [split|exact L].
  - intros (f & H). destruct (L f H) as [J|J]; [left|right]; exists f; exact J.
  - apply (union_reaches _ _ _ (Nat.le_refl _)).
Qed.

Lemma build_iff : forall o d, build o = Some d <-> exists ms, modifiers o = Some ms /\
  d = {| d_plans := length (o_partitions o); d_modifiers := length ms; d_partition_modifiers := partition_modifiers 0 ms;
         d_dependencies := plans_from o 0 (o_partitions o) ++ modifier_dependencies o 0 ms; d_mutation_order := o_mutation_order o |}.
Proof.
  intros o d. unfold build. destruct (modifiers o) as [ms|].
  - split; [intros H; injection H as <-; exists ms; split; reflexivity|]. intros (ms' & E & ->). injection E as <-. reflexivity.
  - split; [discriminate|intros (ms & E & _); discriminate E].
Qed.

(** Requests of mutation fields are sent one after the other. *)
Theorem C77_mutations : forall o d u a b v, build o = Some d -> o_mutation_order o = u ++ a :: b :: v -> depends d (P a) (P b).
Proof. intros o d u a b v B E. apply build_iff in B. destruct B as (ms & _ & ->). eapply D_order. exact E. Qed.

(** The plan of a partition waits for exactly the partitions of the fields it needs (if two fields are required
    for the same path, one is enough), or for its parent if it needs none. *)
Theorem C77_plans : forall o d, build o = Some d -> forall i p, nth_error (o_partitions o) i = Some p ->
  (forall q, In (P i, q) (d_dependencies d) ->
     (exists path f, needs o p path f /\ f_partition (field o f) = q) \/
     ((forall path f, ~ needs o p path f) /\ exists l, p_parents p = q :: l)) /\
  (forall path f, needs o p path f -> exists f', needs o p path f' /\ In (P i, f_partition (field o f')) (d_dependencies d)) /\
  (forall q l, (forall path f, ~ needs o p path f) -> p_parents p = q :: l -> In (P i, q) (d_dependencies d)).
Proof.
  intros o d B i p E. apply build_iff in B. destruct B as (ms & _ & ->). cbn.
  assert (K : forall q, In (P i, q) (plan_dependencies o i p) -> In (P i, q) (plans_from o 0 (o_partitions o) ++ modifier_dependencies o 0 ms)).
  { intros q I. apply in_or_app. left. apply plans_from_in. exists i, p. split; [exact E|exact I]. }
  split; [|split].
  - intros q I. apply in_app_or in I. destruct I as [I|I].
    + apply plans_from_in in I. destruct I as (k & p' & E' & I). cbn in I. apply plan_dependencies_in in I. destruct I as (Ei & I).
      injection Ei as <-. assert (p' = p) as -> by congruence. destruct I as [(path & f & L & Q)|(N & l & Q)].
      * left. exists path, f. split; [apply plan_requires_leads; exact L|exact Q].
      * right. split; [|exists l; exact Q]. intros path f H. apply plan_requires_reaches in H. destruct H as (f' & H). rewrite N in H. destruct (leads_nil _ _ H).
    + apply modifier_dependencies_in in I. destruct I as (j & m & t & path & g & _ & X & _). discriminate X.
  - intros path f H. destruct (plan_requires_reaches _ _ _ _ H) as (f' & L). exists f'. split; [apply plan_requires_leads; exact L|].
    apply K. apply plan_dependencies_in. split; [reflexivity|]. left. exists path, f'. split; [exact L|reflexivity].
  - intros q l N Q. apply K. apply plan_dependencies_in. split; [reflexivity|]. right. split; [|exists l; exact Q].
    destruct (plan_requires o p) as [|r s] eqn:R; [reflexivity|]. exfalso. destruct (nonempty_leads r s) as (path & f & L). rewrite <- R in L.
    apply (N path f). apply plan_requires_leads. exact L.
Qed.

Lemma applies_iff : forall o ms, modifiers o = Some ms ->
  (forall k f, protects o k f <-> exists j, applies ms j k f) /\
  (forall j m x, nth_error ms j = Some m -> In x (m_targets m) -> i_partition x = f_partition (field o (i_field x))) /\
  (forall i j k f g, applies ms i k f -> applies ms j k g -> f_partition (field o f) = f_partition (field o g) -> i = j) /\
  (forall j m, nth_error ms j = Some m -> exists p, of_partition p (m_targets m)).
Proof.
  intros o ms H. destruct (modifiers_from_spec _ _ _ _ H) as (A & B & C).
  assert (T : forall j m x, nth_error ms j = Some m -> In x (m_targets m) -> i_partition x = f_partition (field o (i_field x))).
  { intros j m x E I. destruct (A _ _ E) as (_ & r & _ & _ & F). destruct (F x I) as (f & _ & J). apply impact_facts in J. destruct J as (-> & J & _). exact J. }
  split; [|split; [exact T|split]].
  - intros k f. split.
    + intros (r & R & I & Re).
      assert (N : impact o (ru_target r) f <> None).
      { apply (proj1 (modifiers_from_some o (o_rules o) 0)); [unfold modifiers in H; congruence|eapply nth_error_In; exact R|exact I]. }
      destruct (impact o (ru_target r) f) as [[x|]|] eqn:X; [| |congruence].
      * destruct (B _ _ _ _ R I X) as (j & m & E & Rm & Ix). exists j, m, x. split; [exact E|]. split; [exact Rm|]. split; [exact Ix|]. apply (impact_facts _ _ _ _ X).
      * exfalso. unfold impact in X. rewrite Re in X. destruct (ru_target r); [destruct (f_parent (field o f)) as [[s|]|]|destruct (f_parent (field o f)) as [[s|]|]|destruct (f_output (field o f)) as [s|]]; discriminate X.
    + intros (j & m & x & E & Rm & Ix & Ef). destruct (A _ _ E) as (_ & r & R & _ & F). destruct (F x Ix) as (g & Ig & X). rewrite Nat.sub_0_r, Rm in R.
      apply impact_facts in X. destruct X as (Eg & _ & Re). exists r. subst. split; [exact R|]. split; assumption.
  - intros i j k f g (m & x & Em & Rm & Ix & <-) (n & y & En & Rn & Iy & <-) P.
    rewrite <- (T _ _ _ Em Ix), <- (T _ _ _ En Iy) in P. eapply C; try eassumption. congruence.
  - intros j m E. destruct (A _ _ E) as (_ & r & _ & P & _). exact P.
Qed.

(** Every protected field of the response is the target of exactly one modifier of its rule, which waits for
    exactly: the partition of the field and the partitions of what its targets need. *)
Theorem C77_modifiers : forall o d ms, modifiers o = Some ms -> build o = Some d ->
  (forall k f, protects o k f <-> exists j, applies ms j k f) /\
  (forall i j k f, applies ms i k f -> applies ms j k f -> i = j) /\
  (forall j y, depends d y (M j) <-> exists k f, applies ms j k f /\
     (y = P (f_partition (field o f)) \/ exists path g, leads (f_super (field o f)) path g /\ y = P (f_partition (field o g)))).
Proof.
  intros o d ms H B. destruct (applies_iff _ _ H) as (A1 & A2 & A3 & A4). apply build_iff in B. destruct B as (ms' & E & ->). rewrite H in E. injection E as <-.
  split; [exact A1|]. split; [intros i j k f X Y; eapply A3; [exact X|exact Y|reflexivity]|].
  intros j y. split.
  - intros D. inversion D as [p m I|p x I|p m q I J|u a b v U]; subst; cbn in *.
    + apply partition_modifiers_in in I. destruct I as (n & m & t & l & En & -> & T & Ep). cbn. exists (m_rule m), (i_field t). split.
      * exists m, t. split; [exact En|]. split; [reflexivity|]. split; [rewrite T; left; reflexivity|reflexivity].
      * left. f_equal. rewrite <- (A2 _ _ t En); [symmetry; exact Ep|rewrite T; left; reflexivity].
    + apply in_app_or in I. destruct I as [I|I].
      * apply plans_from_in in I. destruct I as (k & p' & _ & I). apply plan_dependencies_in in I. destruct I as (X & _). discriminate X.
      * apply modifier_dependencies_in in I. destruct I as (n & m & t & path & g & En & X & It & L & Ep). cbn in X. injection X as ->.
        exists (m_rule m), (i_field t). split; [exists m, t; split; [exact En|split; [reflexivity|split; [exact It|reflexivity]]]|].
        right. exists path, g. split; [exact L|]. f_equal. symmetry. exact Ep.
  - intros (k & f & (m & t & En & Rm & It & <-) & [->|(path & g & L & ->)]).
    + apply D_modifier. cbn. apply partition_modifiers_in. destruct (m_targets m) as [|t0 l] eqn:T; [destruct It|].
      exists j, m, t0, l. split; [exact En|]. split; [reflexivity|]. split; [exact T|]. destruct (A4 _ _ En) as (p & _ & Q). rewrite T in Q.
      rewrite (Q t0 (or_introl eq_refl)), <- (Q t It). eapply A2; [exact En|]. rewrite T. exact It.
    + apply D_dependency. cbn. apply in_or_app. right. apply modifier_dependencies_in. exists j, m, t, path, g.
      split; [exact En|]. split; [reflexivity|]. split; [exact It|]. split; [exact L|reflexivity].
Qed.

(** The plan can be built as soon as the objects that rules look at are tracked. *)
Theorem C77_built : forall o, (exists d, build o = Some d) <-> forall k f, protects o k f -> tracked o k f.
Proof.
  intros o. assert (S : (exists d, build o = Some d) <-> modifiers_from o 0 (o_rules o) <> None).
  { unfold build, modifiers. destruct (modifiers_from o 0 (o_rules o)); split; try congruence; [intros _; eexists; reflexivity|intros (d & E); discriminate E]. }
  rewrite S, modifiers_from_some. split.
  - intros H k f (r & R & I & Re) r' R'. assert (r' = r) as -> by congruence.
    apply (proj1 (impact_some o (ru_target r) f)); [|exact Re]. apply H; [eapply nth_error_In; exact R|exact I].
  - intros H r f Ir If. apply impact_some. intros Re. destruct (In_nth_error _ _ Ir) as (k & R). apply (H k f); [|exact R].
    exists r. split; [exact R|]. split; assumption.
Qed.

Lemma needs_range : forall o p path f, Plans.Spec.well_formed o -> In p (o_partitions o) -> needs o p path f -> f_partition (field o f) < length (o_partitions o).
Proof.
  intros o p path f (W1 & W2 & _) Ip N. assert (L : f < length (o_fields o)).
  { destruct (W2 p Ip) as (Rr & Rf & _). destruct N as [N|(_ & g & Ig & N)]; [exact (Rr _ _ N)|].
    destruct (W1 (field o g)) as (_ & Q & _); [apply nth_In; apply Rf; exact Ig|]. exact (Q _ _ N). }
  apply W1. apply nth_In. exact L.
Qed.
Lemma protects_range : forall o k f, Plans.Spec.well_formed o -> protects o k f -> f < length (o_fields o).
Proof. intros o k f (_ & _ & W & _) (r & R & I & _). apply (W r); [eapply nth_error_In; exact R|exact I]. Qed.
Lemma super_range : forall o k f path g, Plans.Spec.well_formed o -> protects o k f -> leads (f_super (field o f)) path g -> f_partition (field o g) < length (o_partitions o).
Proof.
  intros o k f path g W Pr L. pose proof (protects_range _ _ _ W Pr) as Lf. destruct W as (W1 & _). apply W1. apply nth_In.
  destruct (W1 (field o f)) as (_ & _ & Q); [apply nth_In; exact Lf|]. exact (Q _ _ L).
Qed.
Theorem C77_well_formed : forall o d, Plans.Spec.well_formed o -> build o = Some d -> Scheduler.Spec.well_formed d.
Proof.
  intros o d W B. pose proof B as B'. apply build_iff in B'. destruct B' as (ms & Hm & Ed).
  destruct (C77_modifiers _ _ _ Hm B) as (A1 & _ & _). destruct (applies_iff _ _ Hm) as (_ & A2 & _ & A4).
  assert (Ap : forall j m t, nth_error ms j = Some m -> In t (m_targets m) -> protects o (m_rule m) (i_field t)).
  { intros j m t E I. apply A1. exists j, m, t. split; [exact E|]. split; [reflexivity|]. split; [exact I|reflexivity]. }
  assert (Pa : forall f, f < length (o_fields o) -> f_partition (field o f) < length (o_partitions o)).
  { intros f L. destruct W as (W1 & _). apply W1. apply nth_In. exact L. }
  split; [|split; [|split]].
  - intros p m I. subst d. cbn in *. apply partition_modifiers_in in I. destruct I as (n & x & t & l & En & -> & T & <-).
    assert (It : In t (m_targets x)) by (rewrite T; left; reflexivity). split; [|cbn; apply nth_error_Some; congruence].
    rewrite (A2 _ _ _ En It). apply Pa. eapply protects_range; [exact W|]. eapply Ap; [exact En|exact It].
  - intros x p I. subst d. cbn in *. apply in_app_or in I. destruct I as [I|I].
    + apply plans_from_in in I. destruct I as (i & q & E & I). pose proof (nth_error_In _ _ E) as Iq. apply plan_dependencies_in in I. destruct I as (-> & I). split.
      * cbn. apply nth_error_Some. congruence.
      * destruct I as [(path & f & L & <-)|(_ & l & Q)]; [eapply needs_range; [exact W|exact Iq|apply plan_requires_leads; exact L]|].
        destruct W as (_ & W2 & _). apply (W2 q Iq). rewrite Q. left. reflexivity.
    + apply modifier_dependencies_in in I. destruct I as (j & m & t & path & g & E & -> & It & L & <-). split; [cbn; apply nth_error_Some; congruence|].
      eapply super_range; [exact W|eapply Ap; [exact E|exact It]|exact L].
  - intros p I. subst d. cbn in *. destruct W as (_ & _ & _ & W). apply W. exact I.
  - intros m L. subst d. cbn in *. destruct (nth_error ms m) as [x|] eqn:E; [|apply nth_error_None in E; lia].
    destruct (A4 _ _ E) as (p & N & _). destruct (m_targets x) as [|t l] eqn:T; [congruence|]. exists (i_partition t).
    apply partition_modifiers_in. exists m, x, t, l. split; [exact E|]. split; [reflexivity|]. split; [exact T|reflexivity].
Qed.

Lemma modified_turn : forall j log, In (Modified j) log <-> happened (turn (M j)) log.
Proof.
  intros j log. split; [intros I; exists (Modified j); split; [exact I|reflexivity]|].
  intros (e & I & T). destruct e; cbn in T; try contradiction. subst. exact I.
Qed.
Lemma succeeded_finishes : forall p log, In (Succeeded p) log <-> happened (finishes (P p)) log.
Proof.
  intros p log. split; [intros I; exists (Succeeded p); split; [exact I|reflexivity]|].
  intros (e & I & T). destruct e; cbn in T; try contradiction. subst. exact I.
Qed.
Lemma modified_finishes : forall j log, In (Modified j) log <-> happened (finishes (M j)) log.
Proof.
  intros j log. split; [intros I; exists (Modified j); split; [exact I|reflexivity]|].
  intros (e & I & T). destruct e; cbn in T; try contradiction. subst. exact I.
Qed.

(** Whatever subgraphs answer: at any moment a protected field was checked exactly if the request it comes from
    succeeded, and so did all requests providing what the rule needs for it and for the other fields it protects in
    the same partition. *)
Theorem C77_checked : forall o d ms inputs ops, Plans.Spec.well_formed o -> modifiers o = Some ms -> build o = Some d ->
  exists s, run d inputs ops = Some s /\
  forall k f, protects o k f ->
    (checked ms (s_log s) k f <->
     In (Succeeded (f_partition (field o f))) (s_log s) /\
     forall f' path g, protects o k f' -> f_partition (field o f') = f_partition (field o f) -> leads (f_super (field o f')) path g ->
       In (Succeeded (f_partition (field o g))) (s_log s)).
Proof.
  intros o d ms inputs ops W Hm B. destruct (Scheduler.Properties.C16_scheduling d inputs ops (C77_well_formed _ _ W B)) as (s & R & _ & D & _ & _ & T & _).
  exists s. split; [exact R|]. destruct (C77_modifiers _ _ _ Hm B) as (A1 & A2 & A3). destruct (applies_iff _ _ Hm) as (_ & Tp & Same & _).
  assert (Pt : forall j k f k' g, applies ms j k f -> applies ms j k' g -> k' = k /\ f_partition (field o g) = f_partition (field o f)).
  { intros j k f k' g (m & x & Em & Rm & Ix & <-) (n & y & En & Rn & Iy & <-). assert (n = m) as -> by congruence. split; [congruence|].
    destruct (applies_iff _ _ Hm) as (_ & _ & _ & Of). destruct (Of _ _ Em) as (p & _ & Q).
    rewrite <- (Tp _ _ _ Em Ix), <- (Tp _ _ _ Em Iy), (Q x Ix). apply Q. exact Iy. }
  intros k f Pr. split.
  - intros (j & Ap & I). apply in_split in I. destruct I as (before & after & L).
    assert (Dep : forall p, depends d (P p) (M j) -> In (Succeeded p) (s_log s)).
    { intros p Dp. pose proof (D (M j) (P p) before (Modified j) after L eq_refl Dp) as Hh. apply succeeded_finishes in Hh. rewrite L. apply in_or_app. left. exact Hh. }
    split; [apply Dep, A3; exists k, f; split; [exact Ap|left; reflexivity]|].
    intros f' path g Pr' Ep Lg. apply Dep, A3. apply A1 in Pr'. destruct Pr' as (j' & Ap'). assert (j' = j) as -> by (eapply Same; [exact Ap'|exact Ap|exact Ep]).
    exists k, f'. split; [exact Ap'|]. right. exists path, g. split; [exact Lg|reflexivity].
  - intros (S1 & S2). destruct (proj1 (A1 k f) Pr) as (j & Ap). exists j. split; [exact Ap|]. apply modified_turn. apply T.
    + cbn. destruct Ap as (m & t & Em & _). pose proof B as B'. apply build_iff in B'. destruct B' as (ms' & E & ->). cbn. assert (ms' = ms) as -> by congruence. apply nth_error_Some. congruence.
    + intros y Dy. apply A3 in Dy. destruct Dy as (k' & f' & Ap' & Y). destruct (Pt _ _ _ _ _ Ap Ap') as (-> & Ep). destruct Y as [->|(path & g & Lg & ->)]; apply succeeded_finishes.
      * rewrite Ep. exact S1.
      * apply (S2 f' path g); [apply A1; exists j; exact Ap'|exact Ep|exact Lg].
Qed.

(** A request that needs a field of some partition is only sent once all protected fields of that partition are
    checked. *)
Theorem C77_order : forall o d ms inputs ops, Plans.Spec.well_formed o -> modifiers o = Some ms -> build o = Some d ->
  exists s, run d inputs ops = Some s /\
  forall before q after p path q', s_log s = before ++ Started q :: after -> nth_error (o_partitions o) q = Some p ->
    (exists g, needs o p path g) -> (forall g, needs o p path g -> f_partition (field o g) = q') ->
    In (Succeeded q') before /\ forall k f, protects o k f -> f_partition (field o f) = q' -> checked ms before k f.
Proof.
  intros o d ms inputs ops W Hm B. destruct (Scheduler.Properties.C16_scheduling d inputs ops (C77_well_formed _ _ W B)) as (s & R & _ & D & _).
  exists s. split; [exact R|]. destruct (C77_modifiers _ _ _ Hm B) as (A1 & _ & A3).
  intros before q after p path q' L Ep (g & N) U. destruct (C77_plans _ _ B q p Ep) as (_ & C & _). destruct (C path g N) as (g' & N' & I). rewrite (U g' N') in I.
  split; [apply succeeded_finishes; apply (D (P q) (P q') before (Started q) after L eq_refl); apply D_dependency; exact I|].
  intros k f Pr <-. destruct (proj1 (A1 k f) Pr) as (j & Ap). exists j. split; [exact Ap|]. apply modified_finishes.
  apply (D (P q) (M j) before (Started q) after L eq_refl). apply (D_modified d (f_partition (field o f)) j q); [|exact I].
  pose proof (proj2 (A3 j (P (f_partition (field o f))))) as X. destruct Ap as (m & t & Em & Rm & It & <-).
  pose proof B as B'. apply build_iff in B'. destruct B' as (ms' & E & ->). cbn. assert (ms' = ms) as -> by congruence. apply partition_modifiers_in.
  destruct (applies_iff _ _ Hm) as (_ & Tp & _ & Of). destruct (Of _ _ Em) as (pp & _ & Q). destruct (m_targets m) as [|t0 l] eqn:T; [destruct It|].
  exists j, m, t0, l. split; [exact Em|]. split; [reflexivity|]. split; [exact T|].
  rewrite (Q t0 (or_introl eq_refl)), <- (Q t It). apply (Tp _ _ _ Em). rewrite T. exact It.
Qed.

(** [rank] orders the partitions: requests need fields of earlier ones, authorization needs no later one. *)
Definition ordered (o : operation) (rank : nat -> nat) : Prop :=
  (forall i p, nth_error (o_partitions o) i = Some p ->
     (forall path f, needs o p path f -> rank (f_partition (field o f)) < rank i) /\ (forall q l, p_parents p = q :: l -> rank q < rank i)) /\
  (forall u a b v, o_mutation_order o = u ++ a :: b :: v -> rank a < rank b) /\
  (forall k f path g, protects o k f -> leads (f_super (field o f)) path g -> rank (f_partition (field o g)) <= rank (f_partition (field o f))).
Lemma ordered_acyclic : forall o d rank, Plans.Spec.well_formed o -> build o = Some d -> ordered o rank -> acyclic d.
Proof.
  intros o d rank W B (O1 & O2 & O3). pose proof B as B'. apply build_iff in B'. destruct B' as (ms & Hm & Ed). destruct (C77_modifiers _ _ _ Hm B) as (A1 & _ & A3).
  destruct (applies_iff _ _ Hm) as (_ & Tp & Same & Of).
  exists (fun x => match x with P p => 2 * rank p | M j => match nth_error ms j with Some m => match m_targets m with t :: _ => 2 * rank (i_partition t) + 1 | [] => 0 end | None => 0 end end).
  assert (Rm : forall j m t, nth_error ms j = Some m -> In t (m_targets m) -> exists t0 l, m_targets m = t0 :: l /\ i_partition t0 = i_partition t).
  { intros j m t Em It. destruct (Of _ _ Em) as (p & _ & Q). destruct (m_targets m) as [|t0 l]; [destruct It|]. exists t0, l. split; [reflexivity|].
    rewrite (Q t It). apply Q. left. reflexivity. }
  assert (Dp : forall i q, In (P i, q) (d_dependencies d) -> rank q < rank i).
  { intros i q I. assert (V : i < length (o_partitions o)) by (destruct (C77_well_formed _ _ W B) as (_ & V & _); destruct (V _ _ I) as (V' & _); subst d; exact V').
    destruct (nth_error (o_partitions o) i) as [p|] eqn:E; [|apply nth_error_None in E; lia]. destruct (C77_plans _ _ B i p E) as (C & _). destruct (O1 i p E) as (X & Y).
    destruct (C q I) as [(path & f & N & <-)|(_ & l & Q)]; [apply (X path f N)|apply (Y q l Q)]. }
  intros y x D. destruct x as [q|j].
  - inversion D as [p m I|p x I|p m q0 I J|u a b v U]; subst.
    + apply Dp in I. lia.
    + apply Dp in J. cbn in I. apply partition_modifiers_in in I. destruct I as (n & x & t & l & En & -> & T & <-). cbn. rewrite En, T. lia.
    + cbn in U. apply O2 in U. lia.
  - apply A3 in D. destruct D as (k & f & Ap & Y). pose proof (proj2 (A1 k f) (ex_intro _ j Ap)) as Pr. destruct Ap as (m & t & Em & Rk & It & <-). destruct (Rm _ _ _ Em It) as (t0 & l & T & Et).
    rewrite Em, T, Et, (Tp _ _ _ Em It). destruct Y as [->|(path & g & L & ->)]; [lia|]. pose proof (O3 _ _ _ _ Pr L). lia.
Qed.

(** When nothing is in flight any more and no request failed or was unnecessary, every protected field of the
    response was checked, if the rules need no field of a later partition. *)
Theorem C77_authorized : forall o d ms rank inputs ops, Plans.Spec.well_formed o -> modifiers o = Some ms -> build o = Some d -> ordered o rank ->
  exists s, run d inputs ops = Some s /\
  (s_running s = [] -> s_queue s = [] -> (forall p, ~ In (Failed p) (s_log s) /\ ~ In (Skipped p) (s_log s)) ->
   forall k f, protects o k f -> checked ms (s_log s) k f).
Proof.
  intros o d ms rank inputs ops W Hm B Or.
  destruct (Scheduler.Properties.C16_complete d inputs ops (C77_well_formed _ _ W B) (ordered_acyclic _ _ _ W B Or)) as (s & R & C). exists s. split; [exact R|].
  intros E1 E2 E3 k f Pr. destruct (C77_modifiers _ _ _ Hm B) as (A1 & _ & A3). destruct (proj1 (A1 k f) Pr) as (j & Ap). exists j. split; [exact Ap|].
  apply modified_finishes. apply C; [exact E1|exact E2|exact E3|]. destruct Ap as (m & t & Em & _). pose proof B as B'. apply build_iff in B'. destruct B' as (ms' & E & ->). cbn. assert (ms' = ms) as -> by congruence. apply nth_error_Some. congruence.
Qed.
