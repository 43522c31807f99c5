(** C80: a plan has what its parts require. *)
From Coq Require Import QArith NArith List Bool Arith Lia Permutation.
From Verif.Steiner Require Import Model Spec Facts Invariant Subtree Flow Run TreeProps.
From Verif.Updater Require Import Model Spec Proofs Estimate Costly Loop Good.
Import ListNotations.
Local Open Scope nat_scope.
Local Open Scope list_scope.

Lemma solve_good : forall pop limit fuel g root terminals space r s, pops_an_entry pop -> (size terminals r < 65536)%N -> terminals <> [] ->
  solve pop limit fuel g root terminals space r = Done (Some s) -> Complete g root terminals space r s.
Proof.
  intros pop limit fuel g root terminals space r s Hpop Hsize Hne H. unfold solve in H. cbn zeta in H. destruct terminals as [| t terminals]; [congruence |].
  assert (G := start_good g root (t :: terminals) space r Hsize). destruct (with_cost r) as [| c l] eqn:Ec.
  - eapply (execute_good g root (t :: terminals) space r Hsize pop limit Hpop fuel); [| exact H].
    destruct G as [G1 G2 G3 G4 G5 G6 G7 G8 G9 G10 G11 G12 G13 G14 G15 G16]. constructor; assumption.
  - clear Ec c l. destruct (update pop limit (start g root (t :: terminals) space r)) as [[a s1] | |] eqn:Eu; cbn [bind] in H; try discriminate.
    destruct (update_good g root (t :: terminals) space r Hsize pop limit Hpop _ _ _ G Eu) as [-> | (more & -> & G2 & _)]; [discriminate |].
    apply (execute_good g root (t :: terminals) space r Hsize pop limit Hpop fuel _ _ G2 H).
Qed.

(** The plan is a tree with every terminal; whatever a node or an edge of it requires is in it, and in the space of
    solutions exactly what is required becomes a terminal. *)
Theorem C80_requirements : forall pop limit fuel g root terminals space r s, pops_an_entry pop -> (size terminals r < 65536)%N -> terminals <> [] ->
  solve pop limit fuel g root terminals space r = Done (Some s) ->
  let nodes := t_nodes (s_tree s) in
  let edges := t_edges (s_tree s) in
  rooted_tree g root nodes edges /\
  (forall x, In x terminals -> In x nodes) /\
  (forall x, needs r nodes edges x -> In x nodes) /\
  (forall x, In x (s_space s) <-> In x space \/ needs_space r nodes edges x) /\
  (forall x, In x (t_terminals (s_tree s)) -> In x terminals \/ needs r nodes edges x) /\
  (forall f, In f (by_edge r) -> ~ In (r_of f) edges).
Proof.
  intros pop limit fuel g root terminals space r s Hpop Hsize Hne H nodes edges.
  destruct (solve_good _ _ _ _ _ _ _ _ _ Hpop Hsize Hne H) as (G & (S1 & S2 & S3) & Hc & _).
  pose proof (g_nodes _ _ _ _ _ s G) as (dn & Pn & Dn). pose proof (g_cost _ _ _ _ _ s G) as (dc & Pc & Dc & _).
  assert (Hdn : forall f, In f (by_node r) -> In (r_of f) nodes -> In f dn).
  { intros f Hf Hn. apply (Permutation_in f Pn), in_app_iff in Hf as [Hf | Hf]; [exact Hf |]. exfalso. apply (S1 f Hf Hn). }
  assert (Hdc : forall c e w, In c (with_cost r) -> In (e, w) (c_dependent c) -> In e edges -> In c dc).
  { intros c e w Hx Hd He. apply (Permutation_in c Pc), in_app_iff in Hx as [Hx | Hx]; [exact Hx |]. exfalso. apply (S2 c Hx). exists e, w. split; assumption. }
  assert (Hterm : forall x, In x (t_is_terminal (s_tree s)) -> In x nodes).
  { intros x Hx. destruct (g_terms _ _ _ _ _ s G x Hx) as [X | X]; [apply Hc; exact X | exact X]. }
  split; [apply (C73_solution_is_tree g root _ (s_flac s)), (g_solving _ _ _ _ _ s G) |].
  split; [intros x Hx; apply Hc, (g_first _ _ _ _ _ s G); exact Hx |]. split.
  - intros x [(f & Hf & Hn & Hx) | (c & e & w & Hx1 & Hd & He & Hx)]; apply Hterm.
    + destruct (Dn f (Hdn f Hf Hn)) as (_ & D & _). apply D. exact Hx.
    + destruct (Dc c (Hdc c e w Hx1 Hd He)) as (_ & D & _). apply D. exact Hx.
  - split; [| split; [apply (g_why _ _ _ _ _ s G) |]].
    + intro x. split; [apply (g_why_space _ _ _ _ _ s G) |]. intros [Hx | [(f & Hf & Hn & Hx) | (c & e & w & Hx1 & Hd & He & Hx)]].
      * apply (g_space _ _ _ _ _ s G). exact Hx.
      * destruct (Dn f (Hdn f Hf Hn)) as (_ & _ & D). apply D. exact Hx.
      * destruct (Dc c (Hdc c e w Hx1 Hd He)) as (_ & _ & D). apply D. exact Hx.
    + rewrite <- (g_edges _ _ _ _ _ s G). exact S3.
Qed.

(** The weights at the end.  Edges without requirements have what they had; so have those the plan doesn't take of
    requirements it has to meet anyway.  Otherwise, unless the requirements are thought to be independent, to what an edge
    had comes the weight of edges which lead from the plan to what is required. *)
Theorem C80_weights : forall pop limit fuel g root terminals space r s, pops_an_entry pop -> (size terminals r < 65536)%N -> terminals <> [] ->
  solve pop limit fuel g root terminals space r = Done (Some s) ->
  let g' := u_graph (s_state s) in
  let edges := t_edges (s_tree s) in
  same_shape g g' /\
  (NoDup (map fst (flat_map c_dependent (with_cost r))) ->
     (forall e, ~ In e (map fst (flat_map c_dependent (with_cost r))) -> nth_error g' e = nth_error g e) /\
     (forall c e w, In c (with_cost r) -> (exists e' w', In (e', w') (c_dependent c) /\ In e' edges) -> In (e, w) (c_dependent c) -> ~ In e edges ->
        exists ed, nth_error g' e = Some ed /\ e_weight ed = w)) /\
  (s_independent s = Some false -> forall c, In c (with_cost r) -> c_nodes c <> [] -> ~ (exists e w, In (e, w) (c_dependent c) /\ In e edges) ->
     exists w, leads_to g' (s_tree s) (c_parents c) (c_nodes c) w /\
       forall e iw, In (e, iw) (c_dependent c) -> exists ed, nth_error g' e = Some ed /\ e_weight ed = ((iw + w) mod 65536)%N).
Proof.
  intros pop limit fuel g root terminals space r s Hpop Hsize Hne H g' edges.
  destruct (solve_good _ _ _ _ _ _ _ _ _ Hpop Hsize Hne H) as (G & (S1 & S2 & S3) & Hc & He).
  pose proof (g_cost _ _ _ _ _ s G) as (dc & Pc & Dc & Dr).
  split; [apply (g_shape _ _ _ _ _ s G) |]. split.
  - intro Hnd. split; [apply (g_frame _ _ _ _ _ s G Hnd) |]. intros c e w Hx (e' & w' & Hd' & He') Hd Hn.
    apply (Permutation_in c Pc), in_app_iff in Hx as [Hx | Hx]; [apply (Dr Hnd c Hx e w Hd Hn) |]. exfalso. apply (S2 c Hx). exists e', w'. split; assumption.
  - intros Hi c Hx Hcn Hnt. apply (Permutation_in c Pc), in_app_iff in Hx as [Hx | Hx]; [| apply (He Hi c Hx Hcn)].
    exfalso. apply Hnt. destruct (Dc c Hx) as ((e & w & Hd & Hee) & _). exists e, w. split; assumption.
Qed.

(** ** Ends *)
Lemma uncovered_le : forall k st, uncovered k st <= k.
Proof.
  intros k st. unfold uncovered. rewrite <- (seq_length k 0) at 2. generalize (seq 0 k). intro l. induction l as [| i l IH]; [apply Nat.le_refl |]. cbn [filter]. destruct (negb (bget (f_root_feeding st) i)); cbn [List.length]; lia.
Qed.
Section Ends.
Variables (g : graph) (root : nat) (terminals space : list nat) (r : requirements).
Hypothesis Hsize : (size terminals r < 65536)%N.
Variable pop : list (nat * Q) -> option (nat * Q).
Variable limit : nat.
Hypothesis Hpop : pops_an_entry pop.
Hypothesis Hedge : by_edge r = [].
Hypothesis Hcost : forall c, In c (with_cost r) -> c_nodes c = [] /\ forall e w, In (e, w) (c_dependent c) -> e < List.length g /\ (w < 65535)%N.
Hypothesis Hreach : forall x, In x terminals \/ In x (flat_map r_nodes (by_node r)) -> x = root \/ reachable_from g [root] x.
Hypothesis Hroot : ~ In root terminals.

Lemma costly_settled : forall tr fuel i st, List.length (with_cost (u_requirements st)) <= fuel + i ->
  (forall c, In c (with_cost (u_requirements st)) -> c_nodes c = [] /\ ~ taken tr c) -> costly_loop pop limit tr fuel i st = Done st.
Proof.
  intros tr fuel. induction fuel as [| fuel IH]; intros i st Hf Hall; cbn [costly_loop].
  - rewrite (proj2 (nth_error_None (with_cost (u_requirements st)) i) Hf). reflexivity.
  - destruct (nth_error (with_cost (u_requirements st)) i) as [c |] eqn:Hn; [| reflexivity]. destruct (Hall c (nth_error_In _ _ Hn)) as [Hc Ht].
    destruct (existsb _ (c_dependent c)) eqn:E; [apply taken_spec in E; contradiction |]. rewrite Hc. apply IH; [lia | exact Hall].
Qed.
Lemma nodes_settled : forall tr fuel i st, List.length (by_node (u_requirements st)) <= fuel + i ->
  (forall f, In f (by_node (u_requirements st)) -> ~ In (r_of f) (t_nodes tr)) -> nodes_loop tr fuel i st = Done st.
Proof.
  intros tr fuel. induction fuel as [| fuel IH]; intros i st Hf Hall; cbn [nodes_loop].
  - rewrite (proj2 (nth_error_None (by_node (u_requirements st)) i) Hf). reflexivity.
  - destruct (nth_error (by_node (u_requirements st)) i) as [c |] eqn:Hn; [| reflexivity].
    rewrite (proj2 (mem_not_In _ _) (Hall c (nth_error_In _ _ Hn))). apply IH; [lia | exact Hall].
Qed.
Definition simple (st : state) : Prop := by_edge (u_requirements st) = [] /\
  forall c, In c (with_cost (u_requirements st)) -> c_nodes c = [] /\ forall e w, In (e, w) (c_dependent c) -> e < List.length (u_graph st).
Lemma generate_settled : forall tr st, simple st -> Settled tr st -> generate pop limit tr st = Done st.
Proof.
  intros tr st [He Hall] (S1 & S2 & S3). unfold generate. rewrite nodes_settled; [| lia | exact S1]. cbn [bind].
  destruct (edges_loop_spec tr (List.length (by_edge (u_requirements st)) + List.length (by_node (u_requirements st))) 0 st) as [((f & Hf & _) & _) | [_ ->]]; [lia | rewrite He in Hf; destruct Hf |].
  cbn [bind]. apply costly_settled; [lia |]. intros c Hc. split; [apply Hall; exact Hc | apply S2; exact Hc].
Qed.
Lemma generate_ends : forall tr st, simple st -> exists st', generate pop limit tr st = Done st'.
Proof.
  intros tr st [He Hall]. unfold generate.
  destruct (nodes_loop_spec tr (List.length (by_node (u_requirements st))) 0 st) as (st1 & dn & N0 & N1 & N2 & N3 & N4 & N5 & N6 & N7 & N8 & N9 & N10); [lia |].
  rewrite N0. cbn [bind].
  destruct (edges_loop_spec tr (List.length (by_edge (u_requirements st1)) + List.length (by_node (u_requirements st1))) 0 st1) as [((f & Hf & _) & _) | [_ ->]]; [lia | rewrite N6, He in Hf; destruct Hf |].
  cbn [bind]. apply costly_loop_ends; [lia |]. rewrite N7, N8. exact Hall.
Qed.
Lemma good_simple : forall s, Good g root terminals space r s -> simple (s_state s).
Proof.
  intros s G. split; [rewrite (g_edges _ _ _ _ _ s G); exact Hedge |]. intros c Hc. destruct (g_cost _ _ _ _ _ s G) as (dc & P & _).
  assert (Hin : In c (with_cost r)) by (apply (Permutation_in c (Permutation_sym P)), in_app_iff; right; exact Hc).
  destruct (Hcost c Hin) as [H1 H2]. split; [exact H1 |]. intros e w Hd. rewrite <- (proj1 (g_shape _ _ _ _ _ s G)). apply (H2 e w Hd).
Qed.
Lemma update_ends : forall s, Good g root terminals space r s -> exists more s', update pop limit s = Done (Ok more, s').
Proof.
  intros s G. assert (Hs := good_simple s G). unfold update. set (ind := match s_independent s with Some b => b | None => false end).
  assert (Hi : exists n st, iterate pop limit (s_tree s) ind 100 0 (s_state s) = Done (Some n, st)).
  { change 100 with (S 99). cbn [iterate]. destruct (generate_ends (s_tree s) (s_state s) Hs) as (st & Eg). rewrite Eg. cbn [bind].
    destruct (negb (u_changed st) || ind) eqn:E; [eexists _, _; reflexivity |].
    destruct (generate_spec pop limit Hpop _ _ _ (good_inside g root terminals space r s G) (good_few g root terminals space r Hsize s G) (g_tmp _ _ _ _ _ s G) Eg) as (_ & St & Se & _).
    fold (quiet st). change 99 with (S 98). cbn [iterate]. rewrite generate_settled; [| | exact Se].
    - cbn [bind quiet u_changed negb orb]. eexists _, _. reflexivity.
    - destruct St as (dn & dc & _ & P2 & P3 & _ & _ & _ & _ & _ & P9 & _). destruct Hs as [Hs1 Hs2]. split; [cbn [quiet u_requirements]; rewrite P3; exact Hs1 |].
      cbn [quiet u_requirements u_graph]. intros c Hc. rewrite <- (proj1 P9). apply Hs2. apply (Permutation_in c (Permutation_sym P2)), in_app_iff. right. exact Hc. }
  destruct Hi as (n & st & ->). cbn [bind]. destruct (extend_terminals (u_new st) (s_tree s)) as [more tr]. eexists _, _. reflexivity.
Qed.

Lemma good_reach : forall s, Good g root terminals space r s -> forall t, In t (t_terminals (s_tree s)) -> ~ In t (t_nodes (s_tree s)) ->
  reachable_from (u_graph (s_state s)) (t_nodes (s_tree s)) t.
Proof.
  intros s G t Ht Hn. destruct (solving_inv _ _ _ _ (g_solving _ _ _ _ _ s G)) as (_ & A & _). assert (Hr := ar_root _ _ _ A).
  assert (Hx : In t terminals \/ In t (flat_map r_nodes (by_node r))).
  { destruct (g_why _ _ _ _ _ s G t Ht) as [X | [(f & Hf & _ & Hx) | (c & e & w & Hc & _ & _ & Hx)]]; [left; exact X | right; apply in_flat_map; exists f; split; assumption |].
    destruct (Hcost c Hc) as [E _]. rewrite E in Hx. destruct Hx. }
  destruct (Hreach t Hx) as [-> | (x & p & [<- | []] & Hp)]; [contradiction |]. exists root, p. split; [exact Hr |].
  apply (same_shape_path _ _ _ _ _ _ (g_shape _ _ _ _ _ s G)). revert Hp. apply path_weaken. intros e _ (ed & He & Hw).
  destruct (proj2 (g_shape _ _ _ _ _ s G) e ed He) as (ed' & He' & _ & _). exists ed'. split; [exact He' |].
  destruct (g_weight _ _ _ _ _ s G e ed' He') as [X | (c & w & Hc & Hd & Hcw)]; [rewrite He in X; injection X as <-; exact Hw |].
  destruct (Hcost c Hc) as [E1 E2]. rewrite (Hcw E1). apply (E2 e w Hd).
Qed.
Lemma pending : forall s, Good g root terminals space r s ->
  (forall ix t, nth_error (t_terminals (s_tree s)) ix = Some t -> bget (f_root_feeding (s_flac s)) ix = false -> ~ In t (t_nodes (s_tree s))) ->
  Pending (u_graph (s_state s)) (s_tree s) (s_flac s).
Proof. intros s G H ix t Ht Hf. assert (Hn := H ix t Ht Hf). split; [exact Hn | apply (good_reach s G t (nth_error_In _ _ Ht) Hn)]. Qed.

Definition left_over (st : state) : nat := List.length (by_node (u_requirements st)) + List.length (with_cost (u_requirements st)).
Definition Ahead (s : solver) : Prop :=
  forall ix t, nth_error (t_terminals (s_tree s)) ix = Some t -> bget (f_root_feeding (s_flac s)) ix = false -> ~ In t (t_nodes (s_tree s)).
Lemma execute_ends : forall m k s, Good g root terminals space r s -> Ahead s -> left_over (s_state s) <= m ->
  uncovered (List.length (t_terminals (s_tree s))) (s_flac s) <= k -> exists fuel s', execute pop limit fuel s = Done (Some s').
Proof.
  induction m as [m IHm] using lt_wf_ind. induction k as [k IHk] using lt_wf_ind. intros s G Ah Hm Hk.
  destruct (solving_inv _ _ _ _ (g_solving _ _ _ _ _ s G)) as (R & A & Htot). assert (A' := same_shape_arbo _ _ _ _ (g_shape _ _ _ _ _ s G) A).
  destruct (once pop Hpop (u_graph (s_state s)) _ _ R _ _ (arbo_grown _ _ _ A' Htot)) as (b & tr & fl & H1 & R1 & L1 & Eb & _ & _ & T1 & N1 & M1 & _ & P1 & _).
  destruct (P1 (pending s G Ah)) as [Pd Hprog]. destruct (searched_good g root terminals space r pop Hpop s b tr fl G H1) as (G1 & _ & _).
  destruct (update_ends _ G1) as (more & s2 & Eu).
  destruct (update_good g root terminals space r Hsize pop limit Hpop _ _ _ G1 Eu) as [X | (more' & X & G2 & _ & En & Ee & Ef & Ht & _ & (added & Ea & Hadd) & (dn & dc & Pn & Pc & Hmore))]; [discriminate |].
  injection X as <-. cbn [searched s_state s_tree s_flac] in En, Ee, Ef, Ht, Ea, Hadd, Pn, Pc.
  assert (Ah2 : Ahead s2).
  { intros ix t Hix Hf. rewrite En. rewrite Ef in Hf. rewrite Ea in Hix. destruct (lt_dec ix (List.length (t_terminals tr))) as [Hl | Hl].
    - rewrite nth_error_app1 in Hix by exact Hl. apply (Pd ix t Hix Hf).
    - rewrite nth_error_app2 in Hix by lia. apply Hadd. apply (nth_error_In _ _ Hix). }
  assert (Hl2 : left_over (s_state s2) + (List.length dn + List.length dc) = left_over (s_state s)).
  { unfold left_over. apply Permutation_length in Pn, Pc. rewrite app_length in Pn, Pc. lia. }
  destruct (negb more && negb b) eqn:Estop.
  - exists 1, s2. cbn [execute]. rewrite H1. cbn [bind]. fold (searched s tr fl). rewrite Eu. cbn [bind]. rewrite Estop. reflexivity.
  - assert (Hnext : exists fuel s', execute pop limit fuel s2 = Done (Some s')).
    { destruct more.
      - apply (IHm (left_over (s_state s2)) ltac:(specialize (Hmore eq_refl); lia) (uncovered (List.length (t_terminals (s_tree s2))) (s_flac s2)) s2 G2 Ah2); apply Nat.le_refl.
      - cbn [negb andb] in Estop. apply negb_false_iff in Estop. destruct (Hprog Estop) as (ix & Hi1 & Hi2).
        apply (IHk (uncovered (List.length (t_terminals (s_tree s2))) (s_flac s2))); [| exact G2 | exact Ah2 | lia | apply Nat.le_refl].
        apply Nat.lt_le_trans with (uncovered (List.length (t_terminals (s_tree s))) (s_flac s)); [| exact Hk]. rewrite (Ht eq_refl), T1, Ef. unfold uncovered.
        apply filter_length_lt with (a := ix).
        + intros i Hi. apply negb_true_iff in Hi. apply negb_true_iff. destruct (bget (f_root_feeding (s_flac s)) i) eqn:E; [| reflexivity].
          apply M1 in E. cbn [searched s_flac] in Hi. rewrite Hi in E. discriminate.
        + apply in_seq. apply bget_length in Hi1. rewrite L1 in Hi1. lia.
        + rewrite Hi2. reflexivity.
        + cbn [searched s_flac]. rewrite Hi1. reflexivity. }
    destruct Hnext as (fuel & s' & He). exists (S fuel), s'. cbn [execute]. rewrite H1. cbn [bind]. fold (searched s tr fl). rewrite Eu. cbn [bind]. rewrite Estop. exact He.
Qed.
End Ends.

(** The loop ends when every terminal and every node that may become one can be reached, if there are no requirements of
    edges without a cost and nothing to estimate. *)
Theorem C80_ends_partial : forall pop limit g root terminals space r, pops_an_entry pop -> (size terminals r < 65536)%N ->
  by_edge r = [] ->
  (forall c, In c (with_cost r) -> c_nodes c = [] /\ forall e w, In (e, w) (c_dependent c) -> e < List.length g /\ (w < 65535)%N) ->
  (forall x, In x terminals \/ In x (flat_map r_nodes (by_node r)) -> x = root \/ reachable_from g [root] x) ->
  ~ In root terminals ->
  exists fuel s, solve pop limit fuel g root terminals space r = Done (Some s).
Proof.
  intros pop limit g root terminals space r Hpop Hsize Hedge Hcost Hreach Hroot. assert (G := start_good g root terminals space r Hsize).
  assert (Ah : Ahead (start g root terminals space r)).
  { intros ix t Hix _. cbn [start s_tree new_tree t_terminals t_nodes] in *. intros [<- | []]. apply Hroot. apply (nth_error_In _ _ Hix). }
  unfold solve. cbn zeta. destruct terminals as [| t terminals]; [exists 0; eexists; reflexivity |]. destruct (with_cost r) as [| c l] eqn:Ec.
  - apply (execute_ends g root (t :: terminals) space r Hsize pop limit Hpop Hedge ltac:(rewrite Ec; intros c []) Hreach) with (m := List.length (by_node r)) (k := List.length (t :: terminals)).
    + destruct G as [G1 G2 G3 G4 G5 G6 G7 G8 G9 G10 G11 G12 G13 G14 G15 G16]. constructor; assumption.
    + exact Ah.
    + cbn [start s_state]. unfold left_over. cbn [u_requirements]. rewrite Ec. cbn [List.length]. lia.
    + cbn [start s_tree s_flac new_tree t_terminals]. apply uncovered_le.
  - rewrite <- Ec in Hcost. clear Ec c l. destruct (update_ends g root (t :: terminals) space r Hsize pop limit Hpop Hedge Hcost _ G) as (more & s2 & Eu).
    destruct (update_good g root (t :: terminals) space r Hsize pop limit Hpop _ _ _ G Eu) as [X | (more' & X & G2 & _ & En & Ee & Ef & Ht & _ & (added & Ea & Hadd) & _)]; [discriminate |].
    assert (Ah2 : Ahead s2).
    { intros ix y Hix Hf. rewrite En. rewrite Ea in Hix. destruct (lt_dec ix (List.length (t :: terminals))) as [Hl | Hl].
      - rewrite nth_error_app1 in Hix by exact Hl. apply (Ah ix y Hix). cbn [start s_flac new_flac f_root_feeding]. apply bget_nil.
      - apply nth_error_In in Hix as Hin. rewrite nth_error_app2 in Hix by exact (proj1 (Nat.nlt_ge _ _) Hl). apply Hadd. apply (nth_error_In _ _ Hix). }
    destruct (execute_ends g root (t :: terminals) space r Hsize pop limit Hpop Hedge Hcost Hreach _ _ s2 G2 Ah2 (Nat.le_refl _) (Nat.le_refl _)) as (fuel & s' & He).
    exists fuel, s'. rewrite Eu. cbn [bind]. exact He.
Qed.

(** ** Panics *)
(** An edge of the tree with a requirement without a cost. *)
Theorem C80_edge_panics : forall pop limit s f, In f (by_edge (u_requirements (s_state s))) -> In (r_of f) (t_edges (s_tree s)) -> update pop limit s = Panic.
Proof.
  intros pop limit s f Hf He. unfold update. change 100 with (S 99). cbn [iterate]. unfold generate.
  destruct (nodes_loop_spec (s_tree s) (List.length (by_node (u_requirements (s_state s)))) 0 (s_state s)) as (st1 & dn & N0 & _ & _ & _ & _ & _ & N6 & _); [lia |].
  rewrite N0. cbn [bind].
  destruct (edges_loop_spec (s_tree s) (List.length (by_edge (u_requirements st1)) + List.length (by_node (u_requirements st1))) 0 st1) as [[_ ->] | [H _]]; [lia | reflexivity |].
  exfalso. cbn [skipn] in H. rewrite N6 in H. apply (H f Hf He).
Qed.

Lemma feed_root : forall g extra rate l st, f_root_feeding (fold_left (feed g extra rate) l st) = f_root_feeding st.
Proof. intros g extra rate l. induction l as [| [x e] l IH]; intro st; cbn [fold_left]; [reflexivity |]. rewrite IH. reflexivity. Qed.
Lemma schedule_root : forall g e v st, f_root_feeding (schedule_next g e v st) = f_root_feeding st.
Proof. intros g e v st. unfold schedule_next. destruct (find_next g (f_marked st) v); reflexivity. Qed.
Lemma update_root : forall g tr st e c st', update_flow_rates g tr st e = (c, st') -> List.length (f_root_feeding st) <= List.length (f_root_feeding st').
Proof.
  intros g tr st e c st' H. unfold update_flow_rates in H. cbn zeta in H.
  destruct (mem (dst g e) (t_nodes tr)); [apply pair_equal_spec in H as [_ <-]; apply Nat.le_refl |]. destruct (mem (src g e) (t_nodes tr)).
  - destruct (bdisjoint _ _); apply pair_equal_spec in H as [_ <-]; cbn [f_root_feeding]; [rewrite length_bunion; lia | apply Nat.le_refl].
  - destruct (existsb _ _); apply pair_equal_spec in H as [_ <-]; rewrite schedule_root, ?feed_root; apply Nat.le_refl.
Qed.
Lemma flow_root : forall pop g fuel tr st tr' st', flow pop g fuel tr st = Done (tr', st') -> List.length (f_root_feeding st) <= List.length (f_root_feeding st').
Proof.
  intros pop g fuel. induction fuel as [| fuel IH]; intros tr st tr' st' H; [discriminate |]. cbn [flow] in H.
  destruct (pop (f_heap st)) as [[e t] |]; [| injection H as <- <-; apply Nat.le_refl].
  destruct (update_flow_rates g tr _ e) as [c st2] eqn:Eu. apply update_root in Eu. cbn [f_root_feeding] in Eu.
  destruct c as [| | v]; [apply IH in H; lia | injection H as <- <-; exact Eu | apply IH in H; lia].
Qed.
Lemma start_all_root : forall g tr ixs st st', start_all g tr ixs st = Done st' -> f_root_feeding st' = f_root_feeding st.
Proof.
  intros g tr ixs. induction ixs as [| ix ixs IH]; intros st st' H; cbn [start_all] in H; [injection H as <-; reflexivity |].
  destruct (start_terminal g tr st ix) as [st1 | |] eqn:E; [| discriminate | discriminate]. apply IH in H. rewrite H. unfold start_terminal in E.
  destruct (nth_error (t_terminals tr) ix) as [t |]; [| discriminate]. destruct (find_next g (f_marked st) t) as [e |]; injection E as <-; reflexivity.
Qed.
Lemma run_root : forall pop g fuel tr st tr' st', run pop g fuel tr st = Done (tr', st') -> List.length (t_terminals tr) <= List.length (f_root_feeding st').
Proof.
  intros pop g fuel. induction fuel as [| fuel IH]; intros tr st tr' st' H; [discriminate |]. cbn [run] in H.
  destruct (run_once pop g tr st) as [[[b tr1] st1] | |] eqn:E; [| discriminate | discriminate].
  destruct (run_once_terms _ _ _ _ _ _ _ E) as [Et _]. destruct b; [apply IH in H; rewrite Et in H; exact H |]. injection H as <- <-.
  unfold run_once in E. assert (Hi : List.length (t_terminals tr) <= List.length (f_root_feeding (initialize tr st))) by (cbn [initialize f_root_feeding]; rewrite length_bgrow; lia).
  destruct (bzeroes (f_root_feeding (initialize tr st))) as [| i ixs]; [injection E as <- <-; exact Hi |].
  destruct (start_all _ _ _ _) as [st2 | |] eqn:Es; [| discriminate | discriminate]. apply start_all_root in Es.
  destruct (flow pop g (S (List.length g)) tr st2) as [[tr3 st3] | |] eqn:Ef; [| discriminate | discriminate]. injection E as _ <- <-. apply flow_root in Ef. rewrite Es in Ef. lia.
Qed.
(** The nodes an estimate looks for: those that are required and not in the tree. *)
Definition sought (tr : tree) (nodes : list nat) : list nat := nodup Nat.eq_dec (filter (fun x => negb (mem x (t_nodes tr))) nodes).
Lemma sought_terminals : forall tr nodes, List.length (t_terminals (snd (clone_with_new_terminals tr nodes))) = List.length (sought tr nodes) /\
  (fst (clone_with_new_terminals tr nodes) = true <-> sought tr nodes <> []).
Proof.
  intros tr nodes. destruct (C75_new_terminals tr nodes) as (_ & _ & _ & T4 & T5 & T6).
  assert (E : forall x, In x (sought tr nodes) <-> In x (t_terminals (snd (clone_with_new_terminals tr nodes)))).
  { intro x. rewrite T5. unfold sought. rewrite nodup_In, filter_In, negb_true_iff, mem_not_In. reflexivity. }
  split.
  - apply Nat.le_antisymm; apply NoDup_incl_length; try (intros x; apply E); [exact T4 | apply NoDup_nodup].
  - rewrite T6. split; intros H X; apply H; [destruct (t_terminals (snd (clone_with_new_terminals tr nodes))) as [| y l]; [reflexivity |] | destruct (sought tr nodes) as [| y l]; [reflexivity |]];
      exfalso; assert (Y : In y (y :: l)) by (left; reflexivity); apply E in Y; rewrite X in Y; destruct Y.
Qed.
(** An estimate that looks for fewer nodes than one before it. *)
Theorem C80_estimate_panics : forall pop pop' limit limit' g g' tr tr' parents parents' nodes nodes' fl w fl',
  estimate pop limit g tr parents nodes fl = Done (w, fl') ->
  sought tr' nodes' <> [] -> List.length (sought tr' nodes') < List.length (sought tr nodes) ->
  estimate pop' (S limit') g' tr' parents' nodes' fl' = Panic.
Proof.
  intros pop pop' limit limit' g g' tr tr' parents parents' nodes nodes' fl w fl' H Hne Hlt. unfold estimate in H |- *. cbn zeta in H |- *.
  destruct (sought_terminals tr nodes) as [S1 S2]. destruct (sought_terminals tr' nodes') as [S1' S2'].
  destruct (clone_with_new_terminals tr nodes) as [more tmp]. destruct (clone_with_new_terminals tr' nodes') as [more' tmp']. cbn [fst snd] in S1, S2, S1', S2'.
  destruct more; [| exfalso; assert (X : sought tr nodes <> []) by (intro X; rewrite X in Hlt; cbn [List.length] in Hlt; lia); apply S2 in X; discriminate].
  destruct more'; [| apply S2' in Hne; discriminate].
  destruct (take_parents g parents tmp) as [tmp1 |] eqn:Ep; [| discriminate]. destruct (take_parents_spec _ _ _ _ Ep) as (_ & _ & _ & P4 & _).
  destruct (run pop g limit tmp1 (reset fl)) as [[tmp2 fl2] | |] eqn:Er; [| discriminate | discriminate]. injection H as _ <-. apply run_root in Er.
  destruct (take_parents g' parents' tmp') as [tmp1' |] eqn:Ep'; [| reflexivity]. destruct (take_parents_spec _ _ _ _ Ep') as (_ & _ & _ & P4' & _).
  rewrite run_long; [reflexivity | intro i; cbn [reset f_root_feeding]; apply bget_bclear |]. cbn [reset f_root_feeding]. rewrite length_bclear, P4', S1'. rewrite P4, S1 in Er. lia.
Qed.
(** A required node at the end of an edge that can't be avoided: the estimate has no end. *)
Theorem C80_estimate_hangs : forall pop limit g tr parents nodes x e, pops_an_entry pop -> ends_inside g tr -> (N.of_nat (List.length nodes) < 65536)%N ->
  In x nodes -> ~ In x (t_nodes tr) -> In e parents -> dst g e = x -> (forall e, In e parents -> e < List.length g) ->
  estimate pop limit g tr parents nodes new_flac = Hang.
Proof.
  intros pop limit g tr parents nodes x e Hpop Hin Hnum Hx Hnx He Ed Hall. unfold estimate. cbn zeta. change (reset new_flac) with new_flac.
  destruct (C75_new_terminals tr nodes) as (T1 & T2 & T3 & T4 & T5 & T6). destruct (clone_with_new_terminals tr nodes) as [more tmp]. cbn [fst snd] in T1, T2, T3, T4, T5, T6.
  assert (Hxt : In x (t_terminals tmp)) by (apply T5; split; assumption).
  assert (more = true) as -> by (apply T6; intro X; rewrite X in Hxt; destruct Hxt).
  assert (Hs : exists tmp1, take_parents g parents tmp = Some tmp1).
  { clear - Hall. revert tmp. induction parents as [| e parents IH]; intro tmp; cbn [take_parents]; [exists tmp; reflexivity |].
    destruct (nth_error g e) as [ed |] eqn:E; [apply IH; intros e' He'; apply Hall; right; exact He' |]. apply nth_error_None in E. specialize (Hall e (or_introl eq_refl)). lia. }
  destruct Hs as (tmp1 & Ep). rewrite Ep. destruct (take_parents_spec _ _ _ _ Ep) as (P1 & P2 & P3 & P4 & P5).
  assert (Hsize : List.length (t_terminals tmp) <= List.length nodes).
  { apply NoDup_incl_length; [exact T4 |]. intros y Hy. apply T5 in Hy as [Hy _]. exact Hy. }
  assert (R : Ready tmp1 new_flac).
  { split; [rewrite P4; lia |]. cbn [new_flac f_root_feeding f_feeding List.length]. split; [lia |]. split; [intro y; lia |]. intros ix Hix. rewrite bget_nil in Hix. discriminate. }
  assert (G : Grown g (t_edges tmp1) 0 tmp1).
  { constructor; [| rewrite P3, T1; lia |].
    - intros e' He'. apply P1. apply P2 in He' as [He' | He']; [left; rewrite T2; apply Hin; rewrite <- T3; exact He' | right; exists e'; split; [exact He' | reflexivity]].
    - exists []. split; [reflexivity |]. split; [constructor |]. split; [intros e' [] |]. rewrite P3, T1. reflexivity. }
  destruct (In_nth_error _ _ Hxt) as (ix & Hix).
  rewrite (run_hangs pop Hpop g limit tmp1 new_flac _ _ ix x R G); [reflexivity |]. split; [rewrite P4; exact Hix |]. split; [apply bget_nil |]. left. apply P1. right. exists e. split; [exact He | symmetry; exact Ed].
Qed.

(** ** Examples *)
Definition node_ (n : nat) (nodes space : list nat) : free := {| r_of := n; r_nodes := nodes; r_space := space |}.
Definition cost_ (parents nodes space : list nat) (d : list (nat * N)) : costly := {| c_parents := parents; c_nodes := nodes; c_space := space; c_dependent := d |}.
Definition plan (o : outcome (option solver)) : option (list nat * list nat * list N * list nat * option bool) :=
  match o with
  | Done (Some s) => Some (t_nodes (s_tree s), t_edges (s_tree s), map e_weight (u_graph (s_state s)), s_space s, s_independent s)
  | _ => None
  end.
(** From the root 0, the field 3 is provided by the resolver 2, which requires the field 4 of the resolver 1, or by the
    resolver 5, which doesn't; the field 4 requires the field 6 of the same resolver. *)
Definition ex_entities (w : N) : graph := [e_ 0 1 1; e_ 1 4 0; e_ 0 2 1; e_ 2 3 0; e_ 0 5 w; e_ 5 3 0; e_ 1 6 0]%N.
Definition ex_requirements : requirements :=
  {| by_node := [node_ 4 [6] [16]]; by_edge := []; with_cost := [cost_ [] [4] [14] [(2, 1%N)]] |}.
Example C80_example :
  plan (solve pop_min 10 10 (ex_entities 3) 0 [3] [13] ex_requirements) =
    Some ([6; 4; 1; 3; 2; 0], [6; 1; 0; 3; 2], [1; 0; 2; 0; 3; 0; 0]%N, [13; 14; 16], Some true) /\
  plan (solve pop_min 10 10 (ex_entities 1) 0 [3] [13] ex_requirements) =
    Some ([3; 5; 0], [5; 4], [1; 0; 2; 0; 1; 0; 0]%N, [13], Some true).
Proof. split; vm_compute; reflexivity. Qed.
(** Requirements of requirements: the weights are not those of independent ones. *)
Definition ex_chain : requirements :=
  {| by_node := []; by_edge := []; with_cost := [cost_ [] [4] [] [(2, 1%N)]; cost_ [] [7] [] [(0, 1%N)]] |}.
Definition ex_chain_graph : graph := [e_ 0 1 1; e_ 1 4 0; e_ 0 2 1; e_ 2 3 0; e_ 0 5 2; e_ 5 3 0; e_ 1 6 0; e_ 0 8 5; e_ 8 7 0]%N.
Example C80_chain_example :
  plan (solve pop_min 10 10 ex_chain_graph 0 [3] [] ex_chain) = Some ([3; 5; 0], [5; 4], [6; 0; 7; 0; 2; 0; 0; 5; 0]%N, [], Some false).
Proof. vm_compute. reflexivity. Qed.
(** Paths of lists of edges, to be computed. *)
Fixpoint walk (g : graph) (x : nat) (p : list nat) : option nat :=
  match p with
  | [] => Some x
  | e :: p => match nth_error g e with Some ed => if Nat.eqb (e_src ed) x && (e_weight ed <? 65535)%N then walk g (e_dst ed) p else None | None => None end
  end.
Lemma walks : forall g root p x, walk g root p = Some x -> reachable_from g [root] x.
Proof.
  intros g root p x H. exists root, p. split; [left; reflexivity |]. revert root H. induction p as [| e p IH]; intros y H; cbn [walk] in H; [injection H as <-; constructor |].
  destruct (nth_error g e) as [ed |] eqn:E; [| discriminate H]. destruct (Nat.eqb (e_src ed) y && (e_weight ed <? 65535)%N) eqn:B; [| discriminate H].
  apply andb_true_iff in B as [B1 B2]. apply Nat.eqb_eq in B1. apply N.ltb_lt in B2. subst y. apply path_cons with (ed := ed); [exact E | exists ed; split; assumption | apply IH; exact H].
Qed.
Example C80_ends_example : exists fuel s, solve pop_min 0 fuel ex_graph 0 [4] [] {| by_node := [node_ 3 [6] [1]]; by_edge := []; with_cost := [cost_ [] [] [2] [(3, 2%N)]] |} = Done (Some s).
Proof.
  apply C80_ends_partial; [apply pop_min_pops | vm_compute; reflexivity | reflexivity | | |].
  - intros c [<- | []]. split; [reflexivity |]. intros e w [H | []]. injection H as <- <-. split; [cbn; lia | lia].
  - intros x [[<- | []] | [<- | []]]; right; [apply (walks _ _ [0; 2; 4]) | apply (walks _ _ [1; 7])]; reflexivity.
  - intros [H | []]. discriminate.
Qed.

(** Plans there are but which are not found. *)
(** Two nodes are required for one edge, another one for the next: a panic. *)
Definition ex_fewer : requirements :=
  {| by_node := []; by_edge := []; with_cost := [cost_ [] [4; 6] [] [(2, 1%N)]; cost_ [] [4] [] [(4, 1%N)]] |}.
Theorem C80_fewer_refuted : exists g root terminals r,
  (forall x, In x terminals \/ In x (flat_map c_nodes (with_cost r)) -> reachable_from g [root] x) /\ ~ In root terminals /\
  forall limit fuel, solve pop_min (3 + limit) fuel g root terminals [] r = Panic.
Proof.
  exists (ex_entities 3), 0, [3], ex_fewer. split; [| split].
  - intros x [[<- | []] | [<- | [<- | [<- | []]]]]; [apply (walks _ _ [2; 3]) | apply (walks _ _ [0; 1]) | apply (walks _ _ [0; 6]) | apply (walks _ _ [0; 1])]; reflexivity.
  - intros [H | []]. discriminate.
  - intros limit fuel. vm_compute. reflexivity.
Qed.
(** A requirement of an edge without a cost: a panic once the edge is in the tree. *)
Theorem C80_edge_refuted : exists g root terminals r,
  (forall x, In x terminals \/ In x (flat_map r_nodes (by_edge r)) -> reachable_from g [root] x) /\ ~ In root terminals /\
  forall limit fuel, solve pop_min limit (S fuel) g root terminals [] r = Panic.
Proof.
  exists (ex_entities 3), 0, [3], {| by_node := []; by_edge := [node_ 2 [4] []]; with_cost := [] |}. split; [| split].
  - intros x [[<- | []] | [<- | []]]; [apply (walks _ _ [2; 3]) | apply (walks _ _ [0; 1])]; reflexivity.
  - intros [H | []]. discriminate.
  - intros limit fuel. vm_compute. reflexivity.
Qed.
(** A required node at the end of an edge that can't be avoided: no end. *)
Theorem C80_parent_refuted : exists g root terminals r,
  (forall x, In x terminals \/ In x (flat_map c_nodes (with_cost r)) -> reachable_from g [root] x) /\ ~ In root terminals /\
  forall limit fuel, solve pop_min limit fuel g root terminals [] r = Hang.
Proof.
  exists (ex_entities 3), 0, [3], {| by_node := []; by_edge := []; with_cost := [cost_ [0] [1] [] [(2, 1%N)]] |}. split; [| split].
  - intros x [[<- | []] | [<- | []]]; [apply (walks _ _ [2; 3]) | apply (walks _ _ [0])]; reflexivity.
  - intros [H | []]. discriminate.
  - intros limit fuel.
    assert (E : estimate pop_min limit (ex_entities 3) (new_tree 0 [3]) [0] [1] new_flac = Hang).
    { apply (C80_estimate_hangs _ _ _ _ _ _ 1 0 pop_min_pops); [intros e [] | vm_compute; reflexivity | left; reflexivity | intros [H | []]; discriminate | left; reflexivity | reflexivity |].
      intros e [<- | []]. cbn. lia. }
    unfold solve. cbn zeta. cbn [with_cost bind]. unfold update. change 100 with (S 99). cbn [iterate]. unfold generate.
    cbn [start s_state s_tree u_requirements by_node by_edge with_cost List.length nodes_loop nth_error bind edges_loop Nat.add costly_loop c_dependent existsb fst new_tree t_edges mem orb c_nodes c_parents u_graph u_flac].
    change (cost_ [0] [1] [] [(2, 1%N)]) with {| c_parents := [0]; c_nodes := [1]; c_space := []; c_dependent := [(2, 1%N)] |}.
    fold (new_tree 0 [3]).
    cbn [c_dependent existsb fst mem orb c_nodes c_parents]. change {| t_nodes := [0]; t_edges := []; t_total := 0%N; t_terminals := [3]; t_is_terminal := _ |} with (new_tree 0 [3]). rewrite E. reflexivity.
Qed.
