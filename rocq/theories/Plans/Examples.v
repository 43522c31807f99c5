(** Operations: one that is authorized as expected, and three that are not. *)
From Coq Require Import List Arith Bool Lia.
From Verif.Scheduler Require Model Spec Properties.
From Verif.Plans Require Import Model Spec Proofs Modifiers Properties.
Import ListNotations.
Import Scheduler.Model Scheduler.Spec.

Lemma range_forallb : forall o s, forallb (fun f => f <? length (o_fields o)) (flat_map fields_of s) = true -> range o s.
Proof. intros o s H path f L. rewrite forallb_forall in H. apply Nat.ltb_lt, H, fields_leads. exists path. exact L. Qed.
(** Computable form of [well_formed]. *)
Definition in_range (o : operation) : bool :=
  let fields := fun s => forallb (fun f => f <? length (o_fields o)) (flat_map fields_of s) in
  let part := fun p => p <? length (o_partitions o) in
  forallb (fun d => part (f_partition d) && fields (f_requires d) && fields (f_super d)) (o_fields o) &&
  forallb (fun p => fields (p_requires p) && forallb (fun f => f <? length (o_fields o)) (p_fields p) && forallb part (p_parents p)) (o_partitions o) &&
  forallb (fun r => forallb (fun f => f <? length (o_fields o)) (ru_fields r)) (o_rules o) &&
  forallb part (o_mutation_order o).
Lemma in_range_well_formed : forall o, in_range o = true -> Plans.Spec.well_formed o.
Proof.
  intros o H. unfold in_range in H. rewrite !andb_true_iff, !forallb_forall in H. destruct H as (((A & B) & C) & D). split; [|split; [|split]].
  - intros d I. specialize (A d I). rewrite !andb_true_iff in A. destruct A as ((X & Y) & Z). split; [apply Nat.ltb_lt; exact X|].
    split; apply range_forallb; assumption.
  - intros p I. specialize (B p I). rewrite !andb_true_iff, !forallb_forall in B. destruct B as ((X & Y) & Z).
    split; [apply range_forallb; rewrite forallb_forall; exact X|]. split; [intros f J; apply Nat.ltb_lt, Y, J|intros q J; apply Nat.ltb_lt, Z, J].
  - intros r f I J. specialize (C r I). rewrite forallb_forall in C. apply Nat.ltb_lt, C, J.
  - intros p I. apply Nat.ltb_lt, D, I.
Qed.

Definition plain (partition : nat) (requires super : list req) : dfield :=
  {| f_partition := partition; f_requires := requires; f_super := super; f_in_response := true;
     f_parent := Some (Some 1); f_entity := 0; f_output := None; f_type := 0 |}.
Definition entity (requires : list req) (fields parents : list nat) : partition :=
  {| p_requires := requires; p_lookup := false; p_fields := fields; p_parents := parents |}.

(** Two fields of an entity whose key (field 0) comes from partition 0: [secret] (1) from partition 1, [owner] (2)
    from partition 2.  The rule on [secret] needs [owner]; field 3 of partition 3 needs [secret]. *)
Definition authorized : operation :=
  {| o_fields := [plain 0 [] []; plain 1 [] [Item 2 12 []]; plain 2 [] []; plain 3 [Item 1 11 []] []];
     o_partitions := [entity [] [0] []; entity [Item 0 10 []] [1] [0]; entity [Item 0 10 []] [2] [0]; entity [Item 0 10 []] [3] [0]];
     o_rules := [{| ru_target := OnField; ru_fields := [1] |}]; o_mutation_order := [] |}.
Definition everything (n : nat) : list op := flat_map (fun p => [Finish p; Ingest true (fun _ => true)]) (seq 0 n).
Example C77_example : Plans.Spec.well_formed authorized /\ protects authorized 0 1 /\
  (exists d ms, build authorized = Some d /\ modifiers authorized = Some ms /\
     d_dependencies d = [(P 1, 0); (P 2, 0); (P 3, 0); (P 3, 1); (M 0, 2)] /\ d_partition_modifiers d = [(1, 0)] /\
     (exists s, run d (fun _ => true) (everything 4) = Some s /\
        s_log s = [Started 0; Succeeded 0; Started 2; Started 1; Succeeded 1; Succeeded 2; Modified 0; Started 3; Succeeded 3]) /\
     (exists s, run d (fun _ => true) [Finish 0; Ingest true (fun _ => true); Finish 1; Ingest true (fun _ => true)] = Some s /\
        ~ checked ms (s_log s) 0 1)).
Proof.
  split; [apply in_range_well_formed; reflexivity|]. split; [eexists; split; [reflexivity|split; [left; reflexivity|reflexivity]]|].
  eexists _, _. split; [vm_compute; reflexivity|]. split; [vm_compute; reflexivity|]. split; [reflexivity|]. split; [reflexivity|]. split.
  - eexists. split; [vm_compute; reflexivity|reflexivity].
  - eexists. split; [vm_compute; reflexivity|]. intros (j & _ & I). cbn in I. repeat (destruct I as [E|I]; [discriminate E|]). exact I.
Qed.

(** The value of a protected field is in the response although it was not checked: the request for what the rule
    needs failed. *)
Theorem C77_failed_requirement_refuted : exists o d ms ops s, Plans.Spec.well_formed o /\ build o = Some d /\ modifiers o = Some ms /\ acyclic d /\
  run d (fun _ => true) ops = Some s /\ s_running s = [] /\ s_queue s = [] /\
  exists k f, protects o k f /\ In (Succeeded (f_partition (field o f))) (s_log s) /\ ~ checked ms (s_log s) k f.
Proof.
  exists {| o_fields := [plain 0 [] []; plain 1 [] [Item 2 12 []]; plain 2 [] []];
            o_partitions := [entity [] [0] []; entity [Item 0 10 []] [1] [0]; entity [Item 0 10 []] [2] [0]];
            o_rules := [{| ru_target := OnField; ru_fields := [1] |}]; o_mutation_order := [] |}.
  eexists _, _, [Finish 0; Ingest true (fun _ => true); Finish 1; Ingest true (fun _ => true); Finish 2; Ingest false (fun _ => true)], _.
  split; [apply in_range_well_formed; reflexivity|]. split; [vm_compute; reflexivity|]. split; [vm_compute; reflexivity|]. split.
  { exists (fun x => match x with P 0 => 0 | P _ => 1 | M _ => 2 end). intros y x D. inversion D as [p m I|p z I|p m q I J|u a b v U]; subst; cbn in *.
    - destruct I as [E|[]]. injection E as <- <-. lia.
    - repeat (destruct I as [E|I]; [injection E as <- <-; lia|]). destruct I.
    - destruct I as [E|[]]. injection E as <- <-. repeat (destruct J as [E|J]; [try discriminate E; injection E as <-; lia|]). destruct J.
    - destruct u; discriminate U. }
  split; [vm_compute; reflexivity|]. split; [reflexivity|]. split; [reflexivity|]. exists 0, 1.
  split; [eexists; split; [reflexivity|split; [left; reflexivity|reflexivity]]|]. split; [cbn; tauto|].
  intros (j & _ & I). cbn in I. repeat (destruct I as [E|I]; [discriminate E|]). exact I.
Qed.

(** The same without any failure: [owner] comes from a request that needs the key of the entity, which comes
    with [secret]; this request waits for the check of [secret], which waits for [owner]. *)
Theorem C77_cycle_refuted : exists o d ms, Plans.Spec.well_formed o /\ build o = Some d /\ modifiers o = Some ms /\
  exists k f, protects o k f /\
  (exists s, run d (fun _ => true) [Finish 0; Ingest true (fun _ => true)] = Some s /\ s_running s = [] /\ s_queue s = [] /\
     (forall p, ~ In (Failed p) (s_log s) /\ ~ In (Skipped p) (s_log s)) /\ In (Succeeded (f_partition (field o f))) (s_log s)) /\
  forall inputs ops s, run d inputs ops = Some s -> ~ checked ms (s_log s) k f.
Proof.
  set (o := {| o_fields := [plain 0 [] []; plain 0 [] [Item 2 12 []]; plain 1 [] []];
               o_partitions := [entity [] [0; 1] []; entity [Item 0 10 []] [2] [0]];
               o_rules := [{| ru_target := OnField; ru_fields := [1] |}]; o_mutation_order := [] |}).
  assert (W : Plans.Spec.well_formed o) by (apply in_range_well_formed; reflexivity).
  exists o. eexists _, _. split; [exact W|]. split; [vm_compute; reflexivity|]. split; [vm_compute; reflexivity|]. exists 0, 1.
  split; [eexists; split; [reflexivity|split; [left; reflexivity|reflexivity]]|]. split.
  { eexists. split; [vm_compute; reflexivity|]. split; [reflexivity|]. split; [reflexivity|]. split; [|cbn; tauto].
    intros p. split; intros I; repeat (destruct I as [E|I]; [discriminate E|]); exact I. }
  intros inputs ops s R (j & Ap & I).
  match type of R with run ?d _ _ = _ => assert (B : build o = Some d) by (vm_compute; reflexivity); set (dd := d) in * end.
  destruct (Scheduler.Properties.C16_scheduling dd inputs ops (C77_well_formed _ _ W B)) as (s' & R' & _ & D & _ & _ & _).
  assert (s' = s) as -> by congruence.
  assert (Ej : j = 0).
  { destruct Ap as (m & t & E & _). destruct j as [|[|j]]; [reflexivity|discriminate E|discriminate E]. }
  subst j. clear Ap.
  (* the first of the two events [Modified 0] and [Started 1] cannot be *)
  assert (Key : forall n before e after, s_log s = before ++ e :: after -> length before <= n -> e = Modified 0 \/ e = Succeeded 1 \/ e = Started 1 -> False).
  { induction n as [n IH] using lt_wf_ind. intros before e after L Len [ -> | [ -> | -> ] ].
    - assert (Dp : depends dd (P 1) (M 0)) by (apply D_dependency; cbn; tauto).
      destruct (D (M 0) (P 1) _ _ _ L eq_refl Dp) as (e' & Ie & F). destruct e'; cbn in F; try contradiction. subst. apply in_split in Ie. destruct Ie as (u & v & ->).
      rewrite app_length in Len. cbn in Len. apply (IH (length u) ltac:(lia) u (Succeeded 1) (v ++ Modified 0 :: after)); [rewrite L, <- app_assoc; reflexivity|lia|auto].
    - destruct (Scheduler.Properties.C16_scheduling dd inputs ops (C77_well_formed _ _ W B)) as (s2 & R2 & _ & _ & Aft & _). assert (s2 = s) as -> by congruence.
      pose proof (Aft 1 _ _ _ L (or_introl eq_refl)) as Ie. apply in_split in Ie. destruct Ie as (u & v & ->). rewrite app_length in Len. cbn in Len.
      apply (IH (length u) ltac:(lia) u (Started 1) (v ++ Succeeded 1 :: after)); [rewrite L, <- app_assoc; reflexivity|lia|auto].
    - assert (Dp : depends dd (M 0) (P 1)) by (apply (D_modified dd 0 0 1); cbn; tauto).
      destruct (D (P 1) (M 0) _ _ _ L eq_refl Dp) as (e' & Ie & F). destruct e'; cbn in F; try contradiction. subst. apply in_split in Ie. destruct Ie as (u & v & ->).
      rewrite app_length in Len. cbn in Len. apply (IH (length u) ltac:(lia) u (Modified 0) (v ++ Started 1 :: after)); [rewrite L, <- app_assoc; reflexivity|lia|auto]. }
  apply in_split in I. destruct I as (u & v & L). apply (Key _ _ _ _ L (Nat.le_refl _)). left. reflexivity.
Qed.

(** A lookup does not wait for what the fields below it require: here field 3 needs field 2, of partition 2. *)
Theorem C77_lookup_refuted : exists o d, Plans.Spec.well_formed o /\ build o = Some d /\
  exists i p f path g, nth_error (o_partitions o) i = Some p /\ In f (p_fields p) /\ leads (f_requires (field o f)) path g /\
  exists s, run d (fun _ => true) [Finish 0; Ingest true (fun _ => true)] = Some s /\
    In (Started i) (s_log s) /\ ~ In (Succeeded (f_partition (field o g))) (s_log s).
Proof.
  exists {| o_fields := [plain 0 [] []; plain 0 [] []; plain 2 [] []; plain 1 [Item 2 12 []] []];
            o_partitions := [entity [] [0; 1] []; {| p_requires := [Item 0 10 []]; p_lookup := true; p_fields := [3]; p_parents := [0] |}; entity [Item 0 10 []] [2] [0]];
            o_rules := []; o_mutation_order := [] |}.
  eexists. split; [apply in_range_well_formed; reflexivity|]. split; [vm_compute; reflexivity|]. exists 1. eexists. exists 3, [12], 2.
  split; [reflexivity|]. split; [left; reflexivity|]. split; [eapply L_here; left; reflexivity|].
  eexists. split; [vm_compute; reflexivity|]. split; [cbn; tauto|]. intros I. repeat (destruct I as [E|I]; [discriminate E|]). exact I.
Qed.
