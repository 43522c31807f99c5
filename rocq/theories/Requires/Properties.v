(** C14: every field needed to resolve an included field is requested. *)
From Coq Require Import List Arith Bool Lia.
From Verif.Requires Require Import Model Spec Proofs.
Import ListNotations.

(** C14, partial: missing are operations in which a field is derived from a derived field and operations
    whose requirements are cyclic (both refuted below).  With enough fuel the computation ends, with more
    fuel the result is the same, and it is: the fields of the response that are not denied, and the needed
    fields. *)
Theorem C14_requested_fields_partial : forall o included denied,
  well_formed o -> derived_from_fetched o -> acyclic o -> (forall f, included f = true -> f < length (op_fields o)) ->
  exists fuel r, (forall more, fuel <= more -> requested more o included denied = Some r) /\
  forall f, r f = true <-> (included f = true /\ ~ In f denied) \/ needed o included f.
Proof.
  intros o inc denied W D A R. destruct (requested_halts o inc denied W A) as (fuel & r & H). exists fuel, r. split.
  - intros more L. unfold requested in *. eapply loop_more; eassumption.
  - eapply requested_exact; eassumption.
Qed.
(** In particular: a denied field is requested exactly when something else needs it. *)
Theorem C14_denied_field_requested_iff_needed : forall o included denied fuel r,
  well_formed o -> derived_from_fetched o -> (forall f, included f = true -> f < length (op_fields o)) ->
  requested fuel o included denied = Some r ->
  forall f, In f denied -> r f = true <-> needed o included f.
Proof.
  intros o inc denied fuel r W D R H f I. rewrite (requested_exact o inc W D fuel denied r R H f). split; [|auto].
  intros [[_ N]|N]; [contradiction|exact N].
Qed.

(** A field that requires itself through requirements makes the loop run forever: there is no check that
    a requirement was already processed. *)
Definition cyclic : operation :=
  {| op_fields := [{| df_requires := [Item 1 []]; df_super := []; df_derive := None |};
                   {| df_requires := [Item 0 []]; df_super := []; df_derive := None |}];
     op_partitions := [] |}.
Lemma cyclic_loops : forall fuel b i rest, i <= 1 -> pop_loop fuel cyclic b ([Item i []] :: rest) [] = None.
Proof.
  induction fuel as [fuel IH] using lt_wf_ind. intros b i rest L.
  destruct fuel as [|fuel]; [reflexivity|]. destruct i as [|[|i]]; [| |lia]; cbn [pop_loop fold_left item field cyclic op_fields nth df_requires df_derive push_set push_derive];
  apply IH; lia.
Qed.
Theorem C14_terminates_refuted : exists o included,
  well_formed o /\ derived_from_fetched o /\ forall fuel, requested fuel o included [] = None.
Proof.
  exists cyclic, (fun f => f =? 0). split; [|split].
  - split; [intros s f []|]. intros g f H. change (length (op_fields cyclic)) with 2. destruct g as [|[|[|g]]].
    all: destruct H as [H|[H|H]]; [| |discriminate H].
    all: cbn [field cyclic op_fields nth df_requires df_super] in H; try (destruct (occurs_nil f H)).
    + apply occurs_one in H. destruct H as [->|H]; [lia|destruct (occurs_nil f H)].
    + apply occurs_one in H. destruct H as [->|H]; [lia|destruct (occurs_nil f H)].
  - intros g d E. destruct g as [|[|[|g]]]; discriminate E.
  - intros [|fuel]; [reflexivity|].
    change (requested (S fuel) cyclic (fun f => f =? 0) []) with
      (match pop_loop fuel cyclic (fun f => f =? 0) [[Item 1 []]] [] with None => None | Some (b', ds') => loop fuel cyclic (fun f => f =? 0) b' [] ds' end).
    rewrite cyclic_loops by lia. reflexivity.
Qed.

(** A field derived from a field that is itself derived: the field at the end of the chain is not requested. *)
Definition derive_chain : operation :=
  {| op_fields := [{| df_requires := []; df_super := []; df_derive := Some 1 |};
                   {| df_requires := []; df_super := []; df_derive := Some 2 |};
                   {| df_requires := []; df_super := []; df_derive := None |}];
     op_partitions := [] |}.
Theorem C14_derive_chain_refuted : exists o included r,
  well_formed o /\ acyclic o /\ requested 10 o included [] = Some r /\ needed o included 2 /\ r 2 = false.
Proof.
  eexists derive_chain, (fun f => f =? 0), _. split; [|split; [|split; [vm_compute; reflexivity|split; [|reflexivity]]]].
  - split; [intros s f []|]. intros g f H. change (length (op_fields derive_chain)) with 3. destruct g as [|[|[|[|g]]]].
    all: destruct H as [H|[H|H]].
    all: cbn [field derive_chain op_fields nth df_requires df_super df_derive] in H; try (destruct (occurs_nil f H)); try discriminate H.
    all: injection H as <-; lia.
  - exists (fun _ => 0). intros g f H. destruct g as [|[|[|[|g]]]]; cbn [field derive_chain op_fields nth df_requires] in H; destruct (occurs_nil f H).
  - apply (By_needed _ _ 1); [|right; reflexivity]. apply (By_response _ _ 0); [cbn; lia|reflexivity|]. auto.
Qed.

(** Seven fields.  0 and 5 are in the response; 5 is denied; 0 requires 1 { 2 }; 2 is derived from 3;
    3 requires 4; a partition needs 6.  5 itself required nothing, so it is not requested. *)
Definition chain : operation :=
  {| op_fields := [{| df_requires := [Item 1 [Item 2 []]]; df_super := []; df_derive := None |};
                   {| df_requires := []; df_super := []; df_derive := None |};
                   {| df_requires := []; df_super := []; df_derive := Some 3 |};
                   {| df_requires := [Item 4 []]; df_super := []; df_derive := None |};
                   {| df_requires := []; df_super := []; df_derive := None |};
                   {| df_requires := []; df_super := []; df_derive := None |};
                   {| df_requires := []; df_super := []; df_derive := None |}];
     op_partitions := [[Item 6 []]] |}.
Example C14_example :
  option_map (fun r => map r [0; 1; 2; 3; 4; 5; 6]) (requested 20 chain (fun f => (f =? 0) || (f =? 5)) [5])
    = Some [true; true; true; true; true; false; true] /\
  option_map (fun r => map r [0; 1; 2; 3; 4; 5; 6]) (requested 20 chain (fun f => (f =? 0) || (f =? 4)) [4])
    = Some [true; true; true; true; true; false; true].
Proof. vm_compute. split; reflexivity. Qed.
