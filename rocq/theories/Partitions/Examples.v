(** Examples for C78, and rings of partitions that are left. *)
From Coq Require Import List Arith Bool Permutation Lia.
From Verif Require Import SchemaDiff.Search Mutation.Model Partitions.Model Partitions.Spec Partitions.Proofs Partitions.Run Partitions.Properties.
Import ListNotations.

(** * Checking that a graph is well formed *)
Fixpoint nodupb (l : list nat) : bool :=
  match l with [] => true | x :: l => negb (existsb (Nat.eqb x) l) && nodupb l end.
Lemma nodupb_sound : forall l, nodupb l = true -> NoDup l.
Proof.
  intros l. induction l as [|x l IH]; intros H; [constructor|]. cbn in H. apply andb_true_iff in H. destruct H as [A B].
  constructor; [|auto]. intros I. apply negb_true_iff in A. rewrite (proj2 (existsb_exists _ _)) in A; [discriminate|].
  exists x. split; [exact I | apply Nat.eqb_refl].
Qed.
Definition partition_b (g : graph) (n : nat) : option nat := match node_at g n with NPartition _ r => Some r | _ => None end.
Definition field_b (g : graph) (n : nat) : bool := match node_at g n with NField _ _ => true | _ => false end.
Definition is_w (w : weight) (e : edge) : bool := weight_eqb (e_weight e) w.
Definition wf_check (depth : nat -> nat) (g : graph) : bool :=
  let es := g_edges g in
  forallb (fun e => (e_src e <? length (g_nodes g)) && (e_dst e <? length (g_nodes g))) es
  && nodupb (map e_dst (filter tree_edge es))
  && forallb (fun e => negb (tree_edge e) || (depth (e_dst e) =? S (depth (e_src e)))) es
  && forallb (fun e => negb (is_w WPartition e) || (match partition_b g (e_dst e), partition_b g (e_src e) with Some _, None => true | _, _ => false end)) es
  && forallb (fun e => negb (is_w WField e || is_w WSubgraph e) || field_b g (e_dst e)) es
  && forallb (fun p => forallb (fun q =>
       negb (is_w WPartition p && is_w WPartition q && (e_src p =? e_src q)
             && match partition_b g (e_dst p), partition_b g (e_dst q) with Some a, Some b => a =? b | _, _ => false end)
       || forallb (fun f => forallb (fun k =>
            negb (is_w WField f && (e_src f =? e_dst p) && (e_src k =? e_dst q) && (e_dst k =? e_dst f)) || is_w WField k) es) es) es) es.

Lemma wf_check_sound : forall depth g, wf_check depth g = true -> well_formed depth g.
Proof.
  intros depth g H. unfold wf_check in H. cbv zeta in H. rewrite !andb_true_iff, !forallb_forall in H.
  destruct H as (((((A & B) & C) & D) & E) & F).
  constructor.
  - intros e I. specialize (A e I). apply andb_true_iff in A. destruct A as [A1 A2]. apply Nat.ltb_lt in A1. apply Nat.ltb_lt in A2. auto.
  - apply nodupb_sound. exact B.
  - intros e I T. specialize (C e I). rewrite T in C. apply Nat.eqb_eq. exact C.
  - intros s d I. specialize (D _ I). cbn in D. unfold partition_b in D. unfold is_partition.
    destruct (node_at g d) as [| e r |]; try discriminate. split; [exists e, r; reflexivity|].
    intros (e' & r' & Q). rewrite Q in D. discriminate.
  - intros s d I. specialize (E _ I). cbn in E. unfold field_b in E. unfold is_field. destruct (node_at g d) as [| | p t]; try discriminate.
    exists p, t. reflexivity.
  - intros s d I. specialize (E _ I). cbn in E. unfold field_b in E. unfold is_field. destruct (node_at g d) as [| | p t]; try discriminate.
    exists p, t. reflexivity.
  - intros r p q res d w P Q (e1 & Rp) (e2 & Rq) Fd W. specialize (F _ P). rewrite forallb_forall in F. specialize (F _ Q).
    cbn [e_src e_dst] in F. unfold partition_b in F. rewrite Rp, Rq, !Nat.eqb_refl in F. cbn [andb negb orb] in F. unfold is_w at 1 2 in F. cbn in F.
    rewrite forallb_forall in F. specialize (F _ Fd). rewrite forallb_forall in F. specialize (F _ W).
    cbn [e_src e_dst] in F. unfold is_w in F. cbn [e_weight] in F. rewrite !Nat.eqb_refl in F. cbn in F. apply weight_eqb_eq. exact F.
Qed.

(** Requirements that go down aren't circular. *)
Lemma ranked : forall g (rank : nat -> nat),
  forallb (fun e => negb (is_w WSubgraph e) || (rank (e_dst e) <? rank (e_src e))) (g_edges g) = true -> forall n, ~ needs g n n.
Proof.
  intros g rank H. assert (forall a b, needs g a b -> rank b < rank a) as Q.
  { intros a b N. rewrite forallb_forall in H.
    assert (forall s d, has g s d WSubgraph -> rank d < rank s) as K by (intros s d I; specialize (H _ I); cbn in H; apply Nat.ltb_lt; exact H).
    induction N as [n m N | n k m N _ IH]; [apply K; exact N | specialize (K _ _ N); lia]. }
  intros n N. apply Q in N. lia.
Qed.

(** A sort by position. *)
Definition by_position (a b : fld) : bool :=
  match fl_position a, fl_position b with None, _ => true | Some _, None => false | Some a, Some b => a <=? b end.
Definition arrange : list fld -> list fld := sort by_position.
Lemma arrange_sorts : sorts arrange. Proof. intros l. apply sort_perm. Qed.

Definition e (s d : nat) (w : weight) : edge := {| e_src := s; e_dst := d; e_weight := w |}.
Definition fd (n : nat) : node := NField (Some n) false.
Definition extra : node := NField None false.
(** The root (0), a field [user] (2) of the subgraph C (1), with partitions 3 and 4 of the subgraphs A and B. *)
Definition top : list edge := [e 0 1 WPartition; e 1 2 WField; e 2 3 WPartition; e 2 4 WPartition].
Definition first_nodes : list node := [NRoot; NPartition 0 1; fd 0; NPartition 1 2; NPartition 1 3].
Definition depth_of (n : nat) : nat := nth n [0; 1; 2; 3; 3] 4.

(** [query_partitions_cycle] of tests/cycle.rs: [third] (5) and [first] (6) of A, [second] (7) of B;
    [third] needs [second], [second] needs [first]. *)
Definition cycle : graph :=
  {| g_nodes := first_nodes ++ [fd 1; fd 2; fd 3];
     g_edges := top ++ [e 3 5 WField; e 3 6 WField; e 4 7 WField; e 5 7 WSubgraph; e 7 6 WSubgraph] |}.
Example C78_cycle : exists g', run arrange 10 [0] cycle = Some g' /\ well_formed depth_of cycle /\ stuck cycle /\
  has g' 3 5 WField /\ has g' 8 6 WField /\ has g' 2 8 WPartition /\ node_at g' 8 = NPartition 1 2 /\ ~ has g' 3 6 WField.
Proof.
  eexists. split; [vm_compute; reflexivity|]. split; [apply wf_check_sound; vm_compute; reflexivity|]. split.
  - exists 3. apply waits_more with 4; [apply waits_one|].
    + exists 5, 7. unfold has, cycle. cbn. repeat split; auto 15.
    + exists 7, 6. unfold has, cycle. cbn. repeat split; auto 15.
  - unfold has, node_at. cbn. repeat split; auto 20. intros H. repeat (destruct H as [H | H]; [discriminate|]). exact H.
Qed.

(** [a1] (5) of A needs [b1] (7) of B, and [b2] (6) of B needs [a2] (8) of A: the two partitions wait for
    each other, though no field needs itself; nothing is split. *)
Definition crossing : graph :=
  {| g_nodes := first_nodes ++ [fd 1; fd 2; extra; extra];
     g_edges := top ++ [e 3 5 WField; e 3 8 WField; e 4 6 WField; e 4 7 WField; e 5 7 WSubgraph; e 6 8 WSubgraph] |}.
Theorem C78_crossing_refuted : exists depth g g', well_formed depth g /\ (forall n, ~ needs g n n) /\
  (forall k, run arrange (10 + k) [0] g = Some g') /\ stuck g'.
Proof.
  exists depth_of, crossing. eexists. split; [apply wf_check_sound; vm_compute; reflexivity|].
  split; [apply (ranked _ (fun n => nth n [0; 0; 0; 0; 0; 1; 1; 0; 0] 0)); vm_compute; reflexivity|].
  split; [intros k; apply run_mono; vm_compute; reflexivity|].
  exists 3. apply waits_more with 4; [apply waits_one|].
  - exists 5, 7. unfold has. cbn. repeat split; auto 20.
  - exists 6, 8. unfold has. cbn. repeat split; auto 20.
Qed.

(** [a1] (5) of A needs [b1] (6) of B; B is asked by the key [k] (7) that A gives. *)
Definition by_key : graph :=
  {| g_nodes := first_nodes ++ [fd 1; extra; extra];
     g_edges := top ++ [e 3 5 WField; e 3 7 WField; e 4 6 WField; e 5 6 WSubgraph; e 4 7 WSubgraph] |}.
Theorem C78_key_refuted : exists depth g g', well_formed depth g /\ (forall n, ~ needs g n n) /\
  (forall k, run arrange (10 + k) [0] g = Some g') /\ stuck g'.
Proof.
  exists depth_of, by_key. eexists. split; [apply wf_check_sound; vm_compute; reflexivity|].
  split; [apply (ranked _ (fun n => nth n [0; 0; 0; 0; 1; 1; 0; 0] 0)); vm_compute; reflexivity|].
  split; [intros k; apply run_mono; vm_compute; reflexivity|].
  exists 3. apply waits_more with 4; [apply waits_one|].
  - exists 5, 6. unfold has. cbn. repeat split; auto 20.
  - exists 4, 7. unfold has. cbn. repeat split; auto 20.
Qed.

(** A mutation [{ m1 m2 { third first second } }] with both root fields in one request (partition 1): only
    [m1] (8) is returned as a root field, so what is below [m2] (2) stays as it is. *)
Definition mutation : graph :=
  {| g_nodes := first_nodes ++ [fd 1; fd 2; fd 3; fd 4];
     g_edges := e 1 8 WField :: g_edges cycle |}.
Definition mutation_fields : list field :=
  [{| f_id := 8; f_partition := 1; f_resolver := 1 |}; {| f_id := 2; f_partition := 1; f_resolver := 1 |}].
Definition mutation_depth (n : nat) : nat := nth n [0; 1; 2; 3; 3; 4; 4; 4; 2] 4.
Theorem C78_mutation_refuted : exists depth g fields g' g'', well_formed depth g /\ (forall n, ~ needs g n n) /\
  (forall f, In f fields -> has g (f_partition f) (f_id f) WField /\ has g 0 (f_partition f) WPartition) /\
  (forall k, run arrange (10 + k) (root_fields fields 9) g = Some g') /\ stuck g' /\
  (forall k, run arrange (10 + k) (map f_id fields) g = Some g'') /\ (forall f, In f fields -> separated g'' (f_id f)).
Proof.
  exists mutation_depth, mutation, mutation_fields. eexists. eexists.
  assert (well_formed mutation_depth mutation) as W by (apply wf_check_sound; vm_compute; reflexivity).
  split; [exact W|].
  split; [apply (ranked _ (fun n => nth n [0; 0; 0; 0; 0; 2; 0; 1; 0] 0)); vm_compute; reflexivity|].
  split. { intros f [<- | [<- | []]]; unfold has; cbn; auto 20. }
  split; [intros k; apply run_mono; vm_compute; reflexivity|]. split.
  - exists 3. apply waits_more with 4; [apply waits_one|].
    + exists 5, 7. unfold has. cbn. repeat split; auto 20.
    + exists 7, 6. unfold has. cbn. repeat split; auto 20.
  - assert (run arrange 10 (map f_id mutation_fields) mutation = run arrange 10 (map f_id mutation_fields) mutation) as R by reflexivity.
    remember (run arrange 10 (map f_id mutation_fields) mutation) as o eqn:E in R at 2. vm_compute in E. subst o.
    split; [intros k; apply run_mono; exact R|].
    intros f F. eapply (C78_separated arrange _ _ _ _ _ (f_id f)); [apply arrange_sorts | exact W | exact R | apply in_map; exact F | constructor].
Qed.

(** A query [{ __typename a b }] whose fields [b] (4) and [a] (3) are in the partitions 1 and 2. *)
Definition root_query : graph :=
  {| g_nodes := [NRoot; NPartition 0 1; NPartition 0 2; fd 1; fd 2; NField (Some 0) true];
     g_edges := [e 0 5 WField; e 0 1 WPartition; e 0 2 WPartition; e 1 4 WField; e 2 3 WField] |}.
Example C78_typename_example : assign_typename root_query 0 (NPartition 0 9) =
  {| g_nodes := g_nodes root_query;
     g_edges := [e 2 5 WField; e 0 1 WPartition; e 0 2 WPartition; e 1 4 WField; e 2 3 WField] |}.
Proof. vm_compute. reflexivity. Qed.
(** Only [{ __typename }]: a partition for introspection is added. *)
Example C78_typename_only : g_edges (assign_typename {| g_nodes := [NRoot; NField (Some 0) true]; g_edges := [e 0 1 WField] |} 0 (NPartition 0 9)) =
  [e 2 1 WField; e 0 2 WPartition].
Proof. vm_compute. reflexivity. Qed.
