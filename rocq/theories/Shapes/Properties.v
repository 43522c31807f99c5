(** C11: the fields expected on an object of a given type.  C40: checks between sets of types. *)
From Coq Require Import List Arith NArith Bool Lia Sorting.Sorted Sorting.Permutation.
From Verif.Shapes Require Import Model Spec Sets Proofs.
Import ListNotations.

(** C11, partial: missing is the case where no field of the selection set applies to any type of the
    output (then there are no partitions and every field is expected on every object). *)
Theorem C11_expected_fields_partial : forall possible sort output fields,
  (forall l, Permutation l (sort l)) -> type_set output -> (forall c, type_set (possible c)) ->
  each_condition_meets possible output fields ->
  (exists ty conds, In ty output /\ In conds fields /\ applies possible ty conds) ->
  exists ps, compute_object_shape_partitions possible sort output fields = Some ps /\
  forall ty i, In ty output ->
    N.testbit (expected_fields ty (List.length fields) ps) (N.of_nat i) = true <->
    exists conds, nth_error fields i = Some conds /\ applies possible ty conds.
Proof.
  intros possible sort output fields S To Tp M (t0 & c0 & A & B & C).
  destruct (shapes_spec possible sort S output To Tp fields M) as (ps & E & _ & [[_ N]|H]).
  - exfalso. exact (N t0 c0 A B C).
  - exists ps. split; [exact E|]. intros ty i I. rewrite H by exact I. split.
    + intros (conds & m & E1 & E2 & Ap). apply Nnat.Nat2N.inj in E2. subst m. eauto.
    + intros (conds & E1 & Ap). exists conds, i. auto.
Qed.

(** The computation never panics and puts a type in at most one shape, without the side condition. *)
Fixpoint occurrences (ty : nat) (ps : list partition) : nat :=
  match ps with
  | [] => 0
  | One id _ :: ps' => (if id =? ty then 1 else 0) + occurrences ty ps'
  | Many ids _ :: ps' => count_occ Nat.eq_dec ids ty + occurrences ty ps'
  | Remaining _ :: ps' => occurrences ty ps'
  end.
Theorem C11_one_shape_per_type : forall possible sort output fields,
  (forall l, Permutation l (sort l)) -> type_set output -> (forall c, type_set (possible c)) ->
  each_condition_meets possible output fields ->
  exists ps, compute_object_shape_partitions possible sort output fields = Some ps /\
  forall ty, occurrences ty ps <= 1.
Proof.
  intros possible sort output fields S To Tp M.
  destruct (shapes_spec possible sort S output To Tp fields M) as (ps & E & ND & _).
  exists ps. split; [exact E|]. intros ty.
  replace (occurrences ty ps) with (count_occ Nat.eq_dec (flat_map pids ps) ty).
  - apply NoDup_count_occ. exact ND.
  - clear. induction ps as [|[id f|ids f|f] ps IH]; cbn [flat_map pids occurrences]; [reflexivity| | |exact IH].
    + rewrite count_occ_app, IH. simpl. destruct (Nat.eq_dec id ty), (Nat.eqb_spec id ty); try contradiction; reflexivity.
    + rewrite count_occ_app, IH. reflexivity.
Qed.

(** Refuted in general: output {1,2}, nested conditions I1 = {1,3} and I2 = {2,3} (each meets the
    output and they meet each other): the field applies to no object and is expected on all. *)
Definition demo_possible (c : nat) : list nat :=
  match c with 0 => [1; 3] | 1 => [2; 3] | 2 => [2; 3; 4] | 3 => [1; 2; 3; 4; 5] | 4 => [3] | _ => [] end.
Lemma demo_possible_ok c : type_set (demo_possible c).
Proof. destruct c as [|[|[|[|[|c]]]]]; simpl; unfold type_set; repeat constructor; lia. Qed.
Theorem C11_all_fields_when_none_applies_refuted :
  exists possible output fields ps ty i,
  type_set output /\ (forall c, type_set (possible c)) /\ each_condition_meets possible output fields /\
  (forall conds c d, In conds fields -> In c conds -> In d conds -> exists t, In t (possible c) /\ In t (possible d)) /\
  compute_object_shape_partitions possible (fun l => l) output fields = Some ps /\
  In ty output /\ N.testbit (expected_fields ty (List.length fields) ps) (N.of_nat i) = true /\
  (forall conds, nth_error fields i = Some conds -> ~ applies possible ty conds).
Proof.
  exists demo_possible, [1; 2], [[0; 1]], [], 1, 0.
  split; [unfold type_set; repeat constructor|]. split; [apply demo_possible_ok|].
  split. { intros conds c [<-|[]] [<-|[<-|[]]]; [exists 1|exists 2]; simpl; auto. }
  split. { intros conds c d [<-|[]] [<-|[<-|[]]] [<-|[<-|[]]]; exists 3; simpl; auto. }
  split; [reflexivity|]. split; [left; reflexivity|]. split; [reflexivity|].
  intros conds [= <-] A. specialize (A 1 (or_intror (or_introl eq_refl))). simpl in A. intuition discriminate.
Qed.

(** A selection set with overlapping, nested and always true conditions. *)
Definition demo_fields : list (list nat) := [[]; [0]; [2]; [2; 0]; [3]; [0; 4]].
Example C11_example :
  each_condition_meets demo_possible [1; 2; 3; 4; 5] demo_fields /\
  exists ps, compute_object_shape_partitions demo_possible (fun l => l) [1; 2; 3; 4; 5] demo_fields = Some ps /\
  map (fun ty => expected_fields ty 6 ps) [1; 2; 3; 4; 5] = [19; 21; 63; 21; 17]%N /\
  List.length ps = 4.
Proof.
  split.
  - intros conds c I J. exists (match c with 0 => 1 | 1 => 2 | 2 => 2 | 3 => 1 | _ => 3 end).
    simpl in I. destruct I as [<-|[<-|[<-|[<-|[<-|[<-|[]]]]]]]; simpl in J;
      repeat (destruct J as [<-|J]; [simpl; auto|]); destruct J.
  - eexists. split; [vm_compute; reflexivity|]. split; reflexivity.
Qed.
(** Only object types: the branch that groups single types. *)
Example C11_example_objects :
  compute_object_shape_partitions (fun c => [c]) (fun l => l) [1; 2; 3] [[3]; [1]; [3]; []] =
    Some [One 1 10; One 3 13; Remaining 8]%N.
Proof. reflexivity. Qed.

(** C40.  A fragment is allowed (and a selection kept) iff some object type is possible on both sides. *)
Theorem C40_intersection : forall a b, type_set a -> type_set b ->
  can_be_present a b = true <-> exists ty, In ty a /\ In ty b.
Proof. intros a b A B. apply has_inter_spec; assumption. Qed.
(** The subset check never rejects a subset … *)
Theorem C40_subset_partial : forall a b, type_set a -> type_set b ->
  (forall ty, In ty a -> In ty b) -> is_subset_of a b = true.
Proof. intros a b A B. apply subset_true_if; assumption. Qed.
(** … but accepts sets that are not: the loop stops at the end of the larger list. *)
Theorem C40_subset_refuted : exists a b, type_set a /\ type_set b /\ is_subset_of a b = true /\
  exists ty, In ty a /\ ~ In ty b.
Proof.
  exists [1; 5], [1; 2]. split; [unfold type_set; repeat constructor; lia|]. split; [unfold type_set; repeat constructor; lia|].
  split; [reflexivity|]. exists 5. simpl. intuition discriminate.
Qed.
Example C40_example : can_be_present [1; 3; 7] [2; 7; 9] = true /\ can_be_present [1; 3] [2; 4] = false /\
  is_subset_of [2; 4] [1; 2; 3; 4] = true /\ is_subset_of [1; 3] [2; 3; 4] = false.
Proof. repeat split. Qed.
