(** The updater as a whole and the loop of the solver. *)
From Coq Require Import QArith NArith List Bool Arith Lia Permutation.
From Verif.Steiner Require Import Model Spec Facts Invariant Subtree Flow Run TreeProps.
From Verif.Updater Require Import Model Proofs Estimate Costly.
Import ListNotations.
Local Open Scope nat_scope.
Local Open Scope list_scope.

(** What is taken from the requirements is what the tree asks for. *)
Definition Step (tr : tree) (st st' : state) : Prop :=
  exists dn dc,
    Permutation (by_node (u_requirements st)) (dn ++ by_node (u_requirements st')) /\
    Permutation (with_cost (u_requirements st)) (dc ++ with_cost (u_requirements st')) /\
    by_edge (u_requirements st') = by_edge (u_requirements st) /\
    (forall f, In f dn -> In (r_of f) (t_nodes tr)) /\ (forall c, In c dc -> taken tr c) /\
    (forall x, In x (u_new st') <-> In x (u_new st) \/ In x (flat_map r_nodes dn) \/ In x (flat_map c_nodes dc)) /\
    (forall x, In x (u_new_space st') <-> In x (u_new_space st) \/ In x (flat_map r_space dn) \/ In x (flat_map c_space dc)) /\
    List.length (u_new st') = List.length (u_new st) + List.length (flat_map r_nodes dn) + List.length (flat_map c_nodes dc) /\
    same_shape (u_graph st) (u_graph st') /\
    (NoDup (edges_of (with_cost (u_requirements st))) ->
       (forall e, ~ In e (edges_of (with_cost (u_requirements st))) -> nth_error (u_graph st') e = nth_error (u_graph st) e) /\
       (forall c, In c dc -> at_rest (u_graph st') tr c)) /\
    (forall e ed, nth_error (u_graph st') e = Some ed -> nth_error (u_graph st) e = Some ed \/
       exists c w, In c (with_cost (u_requirements st)) /\ In (e, w) (c_dependent c) /\ (c_nodes c = [] -> e_weight ed = w)).
Definition Settled (tr : tree) (st : state) : Prop :=
  (forall f, In f (by_node (u_requirements st)) -> ~ In (r_of f) (t_nodes tr)) /\
  (forall c, In c (with_cost (u_requirements st)) -> ~ taken tr c) /\
  (forall f, In f (by_edge (u_requirements st)) -> ~ In (r_of f) (t_edges tr)).

Lemma Step_refl : forall tr st, Step tr st st.
Proof.
  intros tr st. exists [], []. cbn [app flat_map List.length]. split; [reflexivity |]. split; [reflexivity |]. split; [reflexivity |].
  split; [intros f [] |]. split; [intros c [] |]. split; [intro x; cbn [In]; tauto |]. split; [intro x; cbn [In]; tauto |]. split; [lia |].
  split; [apply same_shape_refl |]. split; [intros _; split; [reflexivity | intros c []] |]. intros e ed H. left. exact H.
Qed.
Lemma edges_of_app : forall l m, edges_of (l ++ m) = edges_of l ++ edges_of m.
Proof. intros l m. unfold edges_of. rewrite flat_map_app, map_app. reflexivity. Qed.
Lemma Step_trans : forall tr a b c, Step tr a b -> Step tr b c -> Step tr a c.
Proof.
  intros tr a b c (dn & dc & A1 & A2 & A3 & A4 & A5 & A6 & A7 & A8 & A9 & A10 & A11) (dn' & dc' & B1 & B2 & B3 & B4 & B5 & B6 & B7 & B8 & B9 & B10 & B11).
  exists (dn ++ dn'), (dc ++ dc'). rewrite !flat_map_app, !app_length. split; [eapply perm_trans; [exact A1 |]; rewrite <- app_assoc; apply Permutation_app_head; exact B1 |].
  split; [eapply perm_trans; [exact A2 |]; rewrite <- app_assoc; apply Permutation_app_head; exact B2 |]. split; [congruence |].
  split; [intros f Hf; apply in_app_iff in Hf as [Hf | Hf]; [apply A4 | apply B4]; exact Hf |].
  split; [intros f Hf; apply in_app_iff in Hf as [Hf | Hf]; [apply A5 | apply B5]; exact Hf |].
  split; [intro x; rewrite B6, A6, !in_app_iff; tauto |]. split; [intro x; rewrite B7, A7, !in_app_iff; tauto |]. split; [lia |].
  split; [apply (same_shape_trans _ _ _ A9 B9) |]. split.
  - intro Hnd. destruct (A10 Hnd) as [F1 F2]. assert (Hp := edges_of_perm _ _ A2). rewrite edges_of_app in Hp.
    assert (Hnd2 := Permutation_NoDup Hp Hnd). destruct (NoDup_split _ _ Hnd2) as (_ & N2 & N3). destruct (B10 N2) as [G1 G2]. split.
    + intros e He. rewrite G1; [apply F1; exact He |]. intro X. apply He. apply (Permutation_in e (Permutation_sym Hp)). apply in_app_iff. right. exact X.
    + intros c0 Hc0. apply in_app_iff in Hc0 as [Hc0 | Hc0]; [| apply G2; exact Hc0]. intros e w Hd Hnot. rewrite G1; [apply (F2 c0 Hc0 e w Hd Hnot) |].
      apply N3. apply (edges_of_In _ c0 e w Hc0 Hd).
  - intros e ed H. apply B11 in H as [H | (c0 & w & Hc & Hd & Hw)]; [apply A11; exact H |]. right. exists c0, w. split; [| split; assumption].
    apply (Permutation_in c0 (Permutation_sym A2)). apply in_app_iff. right. exact Hc.
Qed.

Section Loop.
Variable pop : list (nat * Q) -> option (nat * Q).
Variable limit : nat.
Hypothesis Hpop : pops_an_entry pop.

Definition Estimated (tr : tree) (st : state) : Prop :=
  forall c, In c (with_cost (u_requirements st)) -> c_nodes c <> [] -> estimated (u_graph st) tr c.

Lemma generate_spec : forall tr st st', ends_inside (u_graph st) tr -> few st -> tmp_ok (u_flac st) -> generate pop limit tr st = Done st' ->
  tmp_ok (u_flac st') /\ Step tr st st' /\ Settled tr st' /\ (u_changed st' = false -> Estimated tr st').
Proof.
  intros tr st st' Hin Hfew Hok H. unfold generate in H.
  destruct (nodes_loop_spec tr (List.length (by_node (u_requirements st))) 0 st) as (st1 & dn & N0 & N1 & N2 & N3 & N4 & N5 & N6 & N7 & N8 & N9 & N10); [lia |].
  rewrite N0 in H. cbn [bind] in H. specialize (N3 (Forall_nil _)).
  destruct (edges_loop_spec tr (List.length (by_edge (u_requirements st1)) + List.length (by_node (u_requirements st1))) 0 st1) as [[_ E] | [E2 E]]; [lia | |]; rewrite E in H; cbn [bind] in H; [discriminate |].
  cbn [skipn] in E2.
  assert (Hfew1 : few st1) by (intros c Hc; apply Hfew; rewrite <- N7; exact Hc).
  assert (Hnd : NoDup (edges_of (with_cost (u_requirements st))) ->
       (forall e, ~ In e (edges_of (with_cost (u_requirements st))) -> nth_error (u_graph st') e = nth_error (u_graph st) e) /\
       (forall c, In c (with_cost (u_requirements st)) -> In c (with_cost (u_requirements st')) \/ at_rest (u_graph st') tr c)).
  { intro Hnd. rewrite <- N7 in Hnd |- *. destruct (costly_loop_fixed pop limit tr _ 0 st1 st' Hnd H) as [F1 F2]. rewrite <- N8. split; assumption. }
  destruct (costly_loop_spec pop limit Hpop tr _ 0 st1 st' ltac:(rewrite N8; exact Hin) Hfew1 ltac:(rewrite N9; exact Hok) H) as (C0 & dc & C1 & C2 & C3 & C4 & C5 & C6 & C7 & C8 & C9 & C10 & C11).
  specialize (C3 (Forall_nil _)). split; [exact C0 |]. split; [| split].
  - exists dn, dc. rewrite C7. split; [exact N1 |]. rewrite <- N7. split; [exact C1 |]. split; [rewrite C6; exact N6 |]. split; [exact N2 |]. split; [exact C2 |].
    split; [intro x; rewrite C4, N4, !in_app_iff; tauto |]. split; [intro x; rewrite C5, N5, !in_app_iff; tauto |].
    split; [rewrite C4, N4, !app_length; lia |]. split; [rewrite <- N8; exact C8 |]. split.
    + intro X. rewrite N7 in X |- *. destruct (Hnd X) as [F1 F2]. split; [exact F1 |]. intros c Hc. destruct (F2 c) as [F | F]; [| | exact F].
      * rewrite <- N7. apply (Permutation_in c (Permutation_sym C1)), in_app_iff. left. exact Hc.
      * exfalso. apply (C3 c F). apply C2. exact Hc.
    + rewrite <- N8. intros e ed He. apply C11 in He as [He | (c & w & extra & X1 & X2 & X3 & X4)]; [left; exact He |]. right. exists c, w. split; [exact X1 |].
      split; [exact X2 |]. intro Hc. destruct X4 as [[_ X4] | [X4 _]]; congruence.
  - split; [rewrite C7; exact N3 |]. split; [exact C3 |]. rewrite C6. exact E2.
  - intro X. destruct (C10 X) as (G1 & G2 & _). intros c Hc Hne. rewrite G1. apply G2; [apply Forall_nil | exact Hc | exact Hne].
Qed.

Definition quiet (st : state) : state :=
  {| u_graph := u_graph st; u_requirements := u_requirements st; u_new := u_new st; u_new_space := u_new_space st; u_flac := u_flac st; u_changed := false |}.
Lemma Step_quiet : forall tr a b, Step tr a b -> Step tr a (quiet b).
Proof. intros tr a b H. exact H. Qed.
Lemma Step_few : forall tr st st', Step tr st st' -> few st -> few st'.
Proof. intros tr st st' (dn & dc & _ & Hp & _) H c Hc. apply H. apply (Permutation_in c (Permutation_sym Hp)), in_app_iff. right. exact Hc. Qed.
Lemma Step_shape : forall tr st st', Step tr st st' -> same_shape (u_graph st) (u_graph st').
Proof. intros tr st st' (dn & dc & _ & _ & _ & _ & _ & _ & _ & _ & H & _). exact H. Qed.
Lemma iterate_spec : forall tr ind n i st o st', ends_inside (u_graph st) tr -> few st -> tmp_ok (u_flac st) -> iterate pop limit tr ind n i st = Done (o, st') ->
  tmp_ok (u_flac st') /\ Step tr st st' /\ Settled tr st' /\ u_changed st' = false /\ (ind = false -> o <> None -> Estimated tr st').
Proof.
  intros tr ind n. induction n as [| n IH]; intros i st o st' Hin Hfew Hok H; cbn [iterate] in H;
    destruct (generate pop limit tr st) as [st1 | |] eqn:Eg; cbn [bind] in H; try discriminate;
    destruct (generate_spec _ _ _ Hin Hfew Hok Eg) as (T & S1 & S2 & S3); fold (quiet st1) in H; destruct (negb (u_changed st1) || ind) eqn:Ec.
  1, 3: injection H as <- <-; split; [exact T |]; split; [apply Step_quiet; exact S1 |]; split; [exact S2 |]; split; [reflexivity |];
    intros -> _; rewrite orb_false_r in Ec; apply negb_true_iff in Ec; apply (S3 Ec).
  - injection H as <- <-. split; [exact T |]. split; [apply Step_quiet; exact S1 |]. split; [exact S2 |]. split; [reflexivity |]. congruence.
  - destruct (IH (S i) (quiet st1) o st') as (I1 & I2 & I3); try assumption.
    + apply (same_shape_inside _ _ _ (Step_shape _ _ _ S1) Hin).
    + apply (Step_few _ _ _ S1 Hfew).
    + split; [exact I1 |]. split; [apply (Step_trans _ _ _ _ (Step_quiet _ _ _ S1) I2) | exact I3].
Qed.
End Loop.
