(** C08 and C09: operation limits are enforced on the expanded query, and fragment cycles are
    detected. *)
From Coq Require Import List String Arith Bool Lia.
From Verif.Limits Require Import Model Spec Proofs.
Import ListNotations.
Local Open Scope string_scope.

(** C08.  A query is accepted exactly when it has an expansion (all fragments replaced by their
    content) whose root-field count, depth, alias count and field count are within the limits. *)
Theorem C08_limits_on_expanded_query : forall fr lim doc,
  (exists v, validate fr lim doc = Ok v) <-> (exists ts, expands fr doc ts /\ within lim ts).
Proof.
  intros fr lim doc. split.
  - intros (v & E). destruct (visit_ok fr lim _ _ _ _ (initial_ok lim) E) as (ts & X & _ & F).
    exists ts. split; [exact X|]. apply fits_initial, F.
  - intros (ts & X & W). apply fits_initial in W. destruct (validate fr lim doc) as [v|e|] eqn:E.
    + eauto.
    + exfalso. pose proof (visit_err fr lim _ _ _ _ (initial_ok lim) E ts X) as V.
      destruct W as [(A & B & C & _) D]. destruct e; simpl in V; auto.
      apply visit_cycle in E. destruct (expands_acyclic _ _ _ X) as [N _]. apply N.
      destruct E as (n & [[[] _]|[R (b & L & R')]]). exists n, b. auto.
    + destruct (validate_total fr lim doc E).
Qed.

(** The error names a limit the expanded query really exceeds. *)
Theorem C08_limit_error_is_accurate : forall fr lim doc ts, expands fr doc ts ->
  (validate fr lim doc = Err TooManyRootFields -> exists m, max_root_fields lim = Some m /\ m < List.length ts) /\
  (validate fr lim doc = Err TooDeep -> exists m, max_depth lim = Some m /\ m < depth ts) /\
  (validate fr lim doc = Err TooManyAliases -> exists m, max_aliases lim = Some m /\ m < aliases ts) /\
  (validate fr lim doc = Err TooComplex -> exists m, max_complexity lim = Some m /\ m < size ts).
Proof.
  assert (K : forall n m, ~ at_most n m -> exists k, m = Some k /\ k < n).
  { intros n [k|] H; simpl in H; [exists k; split; [auto|lia]|destruct H; exact I]. }
  intros fr lim doc ts X. split; [|split; [|split]]; intros E; apply K;
    exact (visit_err fr lim _ _ _ _ (initial_ok lim) E ts X).
Qed.

Definition q_frags : fragments :=
  [("A", SField false (SSpread "B" SNil) SNil); ("B", SField true SNil (SField true SNil SNil))].
Definition q_doc : sels := SField true (SSpread "A" (SInline (SSpread "B" SNil) SNil)) (SField false SNil SNil).
Definition q_tree : list ftree :=
  [FNode true [FNode false [FNode true []; FNode true []]; FNode true []; FNode true []]; FNode false []].
Definition q_limits (r d a c : nat) :=
  {| max_root_fields := Some r; max_depth := Some d; max_aliases := Some a; max_complexity := Some c |}.
Example C08_example :
  expands q_frags q_doc q_tree /\ within (q_limits 2 3 5 7) q_tree /\
  validate q_frags (q_limits 2 3 4 7) q_doc = Err TooManyAliases /\
  validate q_frags (q_limits 2 3 5 6) q_doc = Err TooComplex /\
  validate q_frags (q_limits 2 2 5 7) q_doc = Err TooDeep /\
  validate q_frags (q_limits 1 3 5 7) q_doc = Err TooManyRootFields.
Proof.
  split; [|split; [|repeat split]].
  - unfold q_doc, q_tree. repeat (constructor || (eapply (ex_spread _ _ _ [_] _ [_; _]); [reflexivity| |])).
    + eapply (ex_spread _ _ _ [_; _] _ []); [reflexivity| |]; repeat constructor.
    + eapply (ex_inline _ _ [_; _] _ []); [|constructor].
      eapply (ex_spread _ _ _ [_; _] _ []); [reflexivity| |]; repeat constructor.
  - cbv; repeat split; lia.
Qed.

(** C09.  The check answers on every document, even when fragments form cycles. *)
Theorem C09_check_terminates : forall fr lim doc, validate fr lim doc <> OutOfFuel.
Proof. intros. apply validate_total. Qed.

(** The model's recursion bound is immaterial: any larger one gives the same answer. *)
Theorem C09_fuel_irrelevant : forall fr lim doc k,
  visit fr lim (S (List.length fr) + k) initial doc = validate fr lim doc.
Proof.
  intros fr lim doc k. unfold validate.
  assert (M : forall f s v, visit fr lim f v s <> OutOfFuel -> visit fr lim (f + k) v s = visit fr lim f v s).
  { induction f as [f IHf] using (well_founded_induction Wf_nat.lt_wf).
    induction s as [|a sub IHsub rest IHrest|sub IHsub rest IHrest|n rest IHrest]; intros v H.
    - destruct f, k; reflexivity.
    - rewrite visit_field in *. rewrite visit_field.
      repeat match goal with |- (if ?c then _ else _) = _ => destruct c; [reflexivity|] end.
      destruct (visit fr lim f (enter v a) sub) as [v1|e|] eqn:Es; [| |congruence];
        rewrite IHsub; rewrite Es; try discriminate; auto.
    - rewrite visit_inline in *. rewrite visit_inline.
      destruct (visit fr lim f v sub) as [v1|e|] eqn:Es; [| |congruence];
        rewrite IHsub; rewrite Es; try discriminate; auto.
    - rewrite visit_spread in *. rewrite visit_spread.
      destruct (existsb _ _); [reflexivity|]. destruct (lookup fr n) as [body|]; [|reflexivity].
      destruct f as [|f']; [congruence|]. cbn [Nat.add].
      destruct (visit fr lim f' (push v n) body) as [v1|e|] eqn:Es; [| |congruence];
        rewrite IHf by (lia || rewrite Es; discriminate); rewrite Es; auto. }
  apply M, (validate_total fr lim doc).
Qed.

(** A cycle is reported only when a fragment used by the query uses itself, an unknown fragment only
    when the query uses one; such queries are never accepted, and without limits they are rejected
    for exactly that reason. *)
Theorem C09_cycle_reported_iff : forall fr doc,
  (forall lim, validate fr lim doc = Err FragmentCycle -> cyclic fr doc) /\
  (forall lim, validate fr lim doc = Err UnknownFragment -> dangling fr doc) /\
  (cyclic fr doc \/ dangling fr doc -> forall lim v, validate fr lim doc <> Ok v) /\
  (cyclic fr doc \/ dangling fr doc ->
     let lim := {| max_root_fields := None; max_depth := None; max_aliases := None; max_complexity := None |} in
     validate fr lim doc = Err FragmentCycle \/ validate fr lim doc = Err UnknownFragment).
Proof.
  intros fr doc. split; [|split; [|split]].
  - intros lim E. apply visit_cycle in E. destruct E as (n & [[[] _]|[R (b & L & R')]]). exists n, b. auto.
  - intros lim E. apply visit_unknown in E. exact E.
  - intros H lim v E. assert (X : exists v, validate fr lim doc = Ok v) by eauto.
    apply C08_limits_on_expanded_query in X. destruct X as (ts & X & _).
    apply expands_acyclic in X. tauto.
  - intros H lim. destruct (validate fr lim doc) as [v|e|] eqn:E.
    + exfalso. assert (X : exists v, validate fr lim doc = Ok v) by eauto.
      apply C08_limits_on_expanded_query in X. destruct X as (ts & X & _).
      apply expands_acyclic in X. tauto.
    + destruct e; auto; exfalso; clear H; revert E; unfold validate;
        generalize (S (List.length fr)) as f, initial as v; intros f; revert doc;
        induction f as [f IHf] using (well_founded_induction Wf_nat.lt_wf);
        induction doc as [|a sub IHsub rest IHrest|sub IHsub rest IHrest|n rest IHrest]; intros v E;
        try (destruct f; discriminate);
        try (rewrite visit_field in E; cbn [exceeds max_root_fields max_depth max_aliases max_complexity lim] in E;
             destruct (visit fr lim f (enter v a) sub) eqn:Es; [eapply IHrest; eauto|injection E as ->; eapply IHsub; eauto|discriminate]);
        try (rewrite visit_inline in E;
             destruct (visit fr lim f v sub) eqn:Es; [eapply IHrest; eauto|injection E as ->; eapply IHsub; eauto|discriminate]);
        (rewrite visit_spread in E; destruct (existsb _ _); [discriminate|]; destruct (lookup fr n); [|discriminate];
         destruct f as [|f']; [discriminate|]; destruct (visit fr lim f' _ _) eqn:Es;
         [eapply IHrest; eauto|injection E as ->; eapply (IHf f'); eauto|discriminate]).
    + destruct (validate_total fr lim doc E).
Qed.

(** Conversely a query with neither has an expansion, so only the limits can reject it. *)
Theorem C09_acyclic_expands : forall fr doc, (exists ts, expands fr doc ts) <-> ~ cyclic fr doc /\ ~ dangling fr doc.
Proof.
  intros fr doc. split; [intros (ts & X); exact (expands_acyclic _ _ _ X)|]. intros [A B].
  set (lim := {| max_root_fields := None; max_depth := None; max_aliases := None; max_complexity := None |}).
  assert (X : exists v, validate fr lim doc = Ok v).
  { destruct (validate fr lim doc) as [v|e|] eqn:E; [eauto| |destruct (validate_total fr lim doc E)]. exfalso.
    assert (N : e <> FragmentCycle /\ e <> UnknownFragment).
    { split; intros ->; [apply A; exact (proj1 (C09_cycle_reported_iff fr doc) lim E)|
                         apply B; exact (proj1 (proj2 (C09_cycle_reported_iff fr doc)) lim E)]. }
    clear A B. destruct N as [N1 N2]. revert E. unfold validate.
    generalize (S (List.length fr)) as f, initial as v. intros f. revert doc.
    induction f as [f IHf] using (well_founded_induction Wf_nat.lt_wf).
    induction doc as [|a sub IHsub rest IHrest|sub IHsub rest IHrest|n rest IHrest]; intros v E.
    - destruct f; discriminate.
    - rewrite visit_field in E. cbn [exceeds max_root_fields max_depth max_aliases max_complexity lim] in E.
      destruct (visit fr lim f (enter v a) sub) eqn:Es; [eapply IHrest; eauto|injection E as ->; eapply IHsub; eauto|discriminate].
    - rewrite visit_inline in E.
      destruct (visit fr lim f v sub) eqn:Es; [eapply IHrest; eauto|injection E as ->; eapply IHsub; eauto|discriminate].
    - rewrite visit_spread in E. destruct (existsb _ _); [congruence|]. destruct (lookup fr n); [|congruence].
      destruct f as [|f']; [discriminate|]. destruct (visit fr lim f' _ _) eqn:Es;
        [eapply IHrest; eauto|injection E as ->; eapply (IHf f'); eauto|discriminate]. }
  apply C08_limits_on_expanded_query in X. destruct X as (ts & X & _). eauto.
Qed.

Definition c_frags : fragments :=
  [("A", SField false (SSpread "B" SNil) SNil); ("B", SInline (SSpread "C" SNil) SNil); ("C", SSpread "A" SNil)].
Example C09_example :
  cyclic c_frags (SSpread "B" SNil) /\
  validate c_frags (q_limits 9 9 9 9) (SSpread "B" SNil) = Err FragmentCycle /\
  validate c_frags (q_limits 9 9 9 9) (SField false (SSpread "Z" SNil) (SSpread "B" SNil)) = Err UnknownFragment /\
  dangling c_frags (SField false (SSpread "Z" SNil) (SSpread "B" SNil)).
Proof.
  split; [|split; [|split]]; try reflexivity.
  - exists "B". eexists. split; [apply re_direct; simpl; auto|]. split; [reflexivity|].
    eapply re_step; [simpl; eauto|reflexivity|]. eapply re_step; [simpl; eauto|reflexivity|].
    apply re_direct. simpl; auto.
  - exists "Z". split; [apply re_direct; simpl; auto|reflexivity].
Qed.

Print Assumptions C08_limits_on_expanded_query.
Print Assumptions C08_limit_error_is_accurate.
Print Assumptions C09_check_terminates.
Print Assumptions C09_fuel_irrelevant.
Print Assumptions C09_cycle_reported_iff.
Print Assumptions C09_acyclic_expands.
