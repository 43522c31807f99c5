(** What holds of the solver between the steps of its loop. *)
From Coq Require Import QArith NArith List Bool Arith Lia Permutation.
From Verif.Steiner Require Import Model Spec Facts Invariant Subtree Flow Run TreeProps.
From Verif.Updater Require Import Model Spec Proofs Estimate Costly Loop.
Import ListNotations.
Local Open Scope nat_scope.
Local Open Scope list_scope.

Lemma add_list_terms : forall g bl tr, let tr' := fold_left (fun tr e' => add_node (dst g e') (add_edge g tr e')) bl tr in
  t_terminals tr' = t_terminals tr /\ t_is_terminal tr' = t_is_terminal tr.
Proof. intros g bl. induction bl as [| e bl IH]; intro tr; cbn [fold_left]; [split; reflexivity |]. apply (IH (add_node (dst g e) (add_edge g tr e))). Qed.
Lemma flow_terms : forall pop g fuel tr st tr' st', flow pop g fuel tr st = Done (tr', st') -> t_terminals tr' = t_terminals tr /\ t_is_terminal tr' = t_is_terminal tr.
Proof.
  intros pop g fuel. induction fuel as [| fuel IH]; intros tr st tr' st' H; [discriminate |]. cbn [flow] in H.
  destruct (pop (f_heap st)) as [[e t] |]; [| injection H as <- <-; split; reflexivity].
  destruct (update_flow_rates g tr _ e) as [c st2]. destruct c as [| | v]; [apply (IH _ _ _ _ H) | injection H as <- <-; split; reflexivity |].
  apply IH in H. unfold add_subtree in H. destruct (add_list_terms g (below g (f_saturated st2) (S (List.length g)) v) (add_node v (add_edge g tr e))) as [E1 E2].
  cbn zeta in E1, E2. rewrite E1, E2 in H. exact H.
Qed.
Lemma run_once_terms : forall pop g tr st b tr' st', run_once pop g tr st = Done (b, tr', st') -> t_terminals tr' = t_terminals tr /\ t_is_terminal tr' = t_is_terminal tr.
Proof.
  intros pop g tr st b tr' st' H. unfold run_once in H. destruct (bzeroes _) as [| i ixs]; [injection H as _ <- _; split; reflexivity |].
  destruct (start_all _ _ _ _) as [st1 | |]; [| discriminate | discriminate].
  destruct (flow pop g (S (List.length g)) tr st1) as [[tr2 st2] | |] eqn:E2; [| discriminate | discriminate]. injection H as _ <- _. apply (flow_terms _ _ _ _ _ _ _ E2).
Qed.

Section Good.
Variables (g : graph) (root : nat) (terminals space : list nat) (r : requirements).
Hypothesis Hsize : (size terminals r < 65536)%N.
Variable pop : list (nat * Q) -> option (nat * Q).
Variable limit : nat.
Hypothesis Hpop : pops_an_entry pop.

Record Good (s : solver) : Prop := {
  g_solving : solving g root (s_tree s) (s_flac s);
  g_shape : same_shape g (u_graph (s_state s));
  g_new : u_new (s_state s) = [];
  g_new_space : u_new_space (s_state s) = [];
  g_tmp : tmp_ok (u_flac (s_state s));
  g_edges : by_edge (u_requirements (s_state s)) = by_edge r;
  g_nodes : exists dn, Permutation (by_node r) (dn ++ by_node (u_requirements (s_state s))) /\
    forall f, In f dn -> In (r_of f) (t_nodes (s_tree s)) /\ incl (r_nodes f) (t_is_terminal (s_tree s)) /\ incl (r_space f) (s_space s);
  g_cost : exists dc, Permutation (with_cost r) (dc ++ with_cost (u_requirements (s_state s))) /\
    (forall c, In c dc -> taken (s_tree s) c /\ incl (c_nodes c) (t_is_terminal (s_tree s)) /\ incl (c_space c) (s_space s)) /\
    (NoDup (edges_of (with_cost r)) -> forall c, In c dc -> at_rest (u_graph (s_state s)) (s_tree s) c);
  g_frame : NoDup (edges_of (with_cost r)) -> forall e, ~ In e (edges_of (with_cost r)) -> nth_error (u_graph (s_state s)) e = nth_error g e;
  g_weight : forall e ed, nth_error (u_graph (s_state s)) e = Some ed -> nth_error g e = Some ed \/
       exists c w, In c (with_cost r) /\ In (e, w) (c_dependent c) /\ (c_nodes c = [] -> e_weight ed = w);
  g_terms : forall x, In x (t_is_terminal (s_tree s)) -> In x (t_terminals (s_tree s)) \/ In x (t_nodes (s_tree s));
  g_first : incl terminals (t_terminals (s_tree s));
  g_why : forall x, In x (t_terminals (s_tree s)) -> In x terminals \/ needs r (t_nodes (s_tree s)) (t_edges (s_tree s)) x;
  g_space : incl space (s_space s);
  g_why_space : forall x, In x (s_space s) -> In x space \/ needs_space r (t_nodes (s_tree s)) (t_edges (s_tree s)) x;
  g_bound : List.length (t_terminals (s_tree s)) + List.length (flat_map r_nodes (by_node (u_requirements (s_state s)))) +
            List.length (flat_map c_nodes (with_cost (u_requirements (s_state s)))) <=
            List.length terminals + List.length (flat_map r_nodes (by_node r)) + List.length (flat_map c_nodes (with_cost r)) }.

Lemma start_good : Good (start g root terminals space r).
Proof.
  assert (Hn : (N.of_nat (List.length terminals) < 65536)%N) by (unfold size in Hsize; lia).
  constructor; cbn [start s_state s_tree s_flac s_space u_graph u_requirements u_new u_new_space u_flac u_changed]; try reflexivity.
  - constructor. exact Hn.
  - apply same_shape_refl.
  - intro x. apply Nat.le_refl.
  - exists []. split; [reflexivity | intros f []].
  - exists []. split; [reflexivity |]. split; [intros c [] | intros _ c []].
  - intros e ed H. left. exact H.
  - intros x Hx. left. cbn [new_tree t_is_terminal t_terminals] in *.
    assert (G : forall l a, In x (fold_left (fun s t => insert t s) l a) -> In x l \/ In x a).
    { induction l as [| y l IH]; intros a H; cbn [fold_left] in H; [right; exact H |]. apply IH in H as [H | H]; [left; right; exact H |].
      apply insert_In in H as [-> | H]; [left; left; reflexivity | right; exact H]. }
    apply G in Hx as [Hx | []]. exact Hx.
  - intros x Hx. exact Hx.
  - intros x Hx. left. exact Hx.
  - intros x Hx. exact Hx.
  - intros x Hx. left. exact Hx.
Qed.

Lemma needs_mono : forall nodes nodes' edges edges' x, incl nodes nodes' -> incl edges edges' -> needs r nodes edges x -> needs r nodes' edges' x.
Proof.
  intros nodes nodes' edges edges' x Hn He [(f & H1 & H2 & H3) | (c & e & w & H1 & H2 & H3 & H4)]; [left; exists f | right; exists c, e, w]; auto.
Qed.
Lemma needs_space_mono : forall nodes nodes' edges edges' x, incl nodes nodes' -> incl edges edges' -> needs_space r nodes edges x -> needs_space r nodes' edges' x.
Proof.
  intros nodes nodes' edges edges' x Hn He [(f & H1 & H2 & H3) | (c & e & w & H1 & H2 & H3 & H4)]; [left; exists f | right; exists c, e, w]; auto.
Qed.
Lemma taken_mono : forall tr tr' c, incl (t_edges tr) (t_edges tr') -> taken tr c -> taken tr' c.
Proof. intros tr tr' c H (e & w & Hd & He). exists e, w. split; [exact Hd | apply H; exact He]. Qed.
Lemma at_rest_mono : forall g' tr tr' c, incl (t_edges tr) (t_edges tr') -> at_rest g' tr c -> at_rest g' tr' c.
Proof. intros g' tr tr' c H Hr e w Hd Hn. apply (Hr e w Hd). intro X. apply Hn, H, X. Qed.

(** A run of the search. *)
Definition searched (s : solver) (tr : tree) (fl : flac) : solver :=
  {| s_state := s_state s; s_tree := tr; s_flac := fl; s_independent := s_independent s; s_space := s_space s |}.
Lemma searched_good : forall s b tr fl, Good s -> run_once pop (u_graph (s_state s)) (s_tree s) (s_flac s) = Done (b, tr, fl) ->
  Good (searched s tr fl) /\ incl (t_nodes (s_tree s)) (t_nodes tr) /\ (b = false -> incl (t_terminals tr) (t_nodes tr)).
Proof.
  intros s b tr fl [G1 G2 G3 G4 G5 G6 G7 G8 G9 G10 G11 G12 G13 G14 G15 G16] H.
  destruct (C73_run_once_ends g root _ _ pop (u_graph (s_state s)) G1 Hpop G2) as (b' & tr' & fl' & H' & Hn & He & Hc).
  rewrite H in H'. injection H' as <- <- <-. destruct (run_once_terms _ _ _ _ _ _ _ H) as [Et Ei].
  split; [| split; [exact Hn | intros Hb x Hx; rewrite Et in Hx; apply (Hc Hb x Hx)]].
  constructor; cbn [searched s_state s_tree s_flac s_space]; try assumption.
  - apply (solving_once g root pop (u_graph (s_state s)) _ _ _ _ _ Hpop G2 G1 H).
  - destruct G7 as (dn & P & Hd). exists dn. split; [exact P |]. intros f Hf. destruct (Hd f Hf) as (D1 & D2 & D3). rewrite Ei. split; [apply Hn; exact D1 | split; assumption].
  - destruct G8 as (dc & P & Hd & Hr). exists dc. split; [exact P |]. split.
    + intros c Hc'. destruct (Hd c Hc') as (D1 & D2 & D3). rewrite Ei. split; [apply (taken_mono _ _ _ He D1) | split; assumption].
    + intros Hnd c Hc'. apply (at_rest_mono _ _ _ _ He). apply (Hr Hnd c Hc').
  - intros x Hx. rewrite Ei in Hx. rewrite Et. destruct (G11 x Hx) as [X | X]; [left; exact X | right; apply Hn; exact X].
  - rewrite Et. exact G12.
  - intros x Hx. rewrite Et in Hx. destruct (G13 x Hx) as [X | X]; [left; exact X | right; apply (needs_mono _ _ _ _ _ Hn He X)].
  - intros x Hx. destruct (G15 x Hx) as [X | X]; [left; exact X | right; apply (needs_space_mono _ _ _ _ _ Hn He X)].
  - rewrite Et. exact G16.
Qed.

Lemma good_inside : forall s, Good s -> ends_inside (u_graph (s_state s)) (s_tree s).
Proof.
  intros s G. apply (same_shape_inside g); [apply (g_shape s G) |]. destruct (solving_inv _ _ _ _ (g_solving s G)) as (_ & A & _). intros e He. apply (ar_edges _ _ _ A e He).
Qed.
Lemma good_few : forall s, Good s -> few (s_state s).
Proof.
  intros s G c Hc. destruct (g_cost s G) as (dc & P & _). assert (Hin : In c (with_cost r)) by (apply (Permutation_in c (Permutation_sym P)), in_app_iff; right; exact Hc).
  assert (Hl : List.length (c_nodes c) <= List.length (flat_map c_nodes (with_cost r))).
  { clear - Hin. induction (with_cost r) as [| c' l IH]; [destruct Hin |]. cbn [flat_map]. rewrite app_length. destruct Hin as [-> | Hin]; [lia | specialize (IH Hin); lia]. }
  unfold size in Hsize. lia.
Qed.
Lemma flat_map_perm : forall A B (f : A -> list B) l l', Permutation l l' -> List.length (flat_map f l) = List.length (flat_map f l').
Proof. intros A B f l l' H. induction H; cbn [flat_map]; rewrite ?app_length in *; lia. Qed.

(** An update. *)
Lemma update_good : forall s a s', Good s -> update pop limit s = Done (a, s') -> a = CycleDetected \/
  exists more, a = Ok more /\ Good s' /\ Settled (s_tree s) (s_state s') /\
    t_nodes (s_tree s') = t_nodes (s_tree s) /\ t_edges (s_tree s') = t_edges (s_tree s) /\ s_flac s' = s_flac s /\
    (more = false -> t_terminals (s_tree s') = t_terminals (s_tree s)) /\
    (s_independent s' = Some false -> Estimated (s_tree s) (s_state s')) /\
    (exists added, t_terminals (s_tree s') = t_terminals (s_tree s) ++ added /\ forall x, In x added -> ~ In x (t_nodes (s_tree s))) /\
    (exists dn dc, Permutation (by_node (u_requirements (s_state s))) (dn ++ by_node (u_requirements (s_state s'))) /\
       Permutation (with_cost (u_requirements (s_state s))) (dc ++ with_cost (u_requirements (s_state s'))) /\
       (more = true -> 0 < List.length dn + List.length dc)).
Proof.
  intros s a s' G H. unfold update in H.
  destruct (iterate pop limit (s_tree s) _ 100 0 (s_state s)) as [[o st] | |] eqn:Ei; cbn [bind] in H; try discriminate.
  destruct (iterate_spec pop limit Hpop _ _ _ _ _ _ _ (good_inside s G) (good_few s G) (g_tmp s G) Ei) as (I1 & I2 & I3 & I4 & I5).
  destruct o as [n |]; [right | injection H as <- _; left; reflexivity].
  destruct (C74_terminals (u_new st) (s_tree s)) as (added & T1 & T2 & T3 & T4 & T5 & T6 & T7 & T8).
  destruct (extend_terminals (u_new st) (s_tree s)) as [more tr] eqn:Ext. cbn [fst snd] in T1, T4, T5, T6, T7, T8. injection H as <- <-. exists more. split; [reflexivity |].
  destruct I2 as (dn & dc & P1 & P2 & P3 & P4 & P5 & P6 & P7 & P8 & P9 & P10 & P11).
  destruct G as [G1 G2 G3 G4 G5 G6 G7 G8 G9 G10 G11 G12 G13 G14 G15 G16]. rewrite G3 in P6, P8. rewrite G4 in P7.
  assert (Hsub : forall c, In c (with_cost (u_requirements (s_state s))) -> In c (with_cost r)).
  { intros c Hc. destruct G8 as (dc0 & P & _). apply (Permutation_in c (Permutation_sym P)), in_app_iff. right. exact Hc. }
  assert (Hsubn : forall f, In f (by_node (u_requirements (s_state s))) -> In f (by_node r)).
  { intros c Hc. destruct G7 as (dc0 & P & _). apply (Permutation_in c (Permutation_sym P)), in_app_iff. right. exact Hc. }
  assert (Hin_dn : forall f, In f dn -> In f (by_node (u_requirements (s_state s)))) by (intros f Hf; apply (Permutation_in f (Permutation_sym P1)), in_app_iff; left; exact Hf).
  assert (Hin_dc : forall f, In f dc -> In f (with_cost (u_requirements (s_state s)))) by (intros f Hf; apply (Permutation_in f (Permutation_sym P2)), in_app_iff; left; exact Hf).
  assert (Hedges : forall e, In e (edges_of (with_cost (u_requirements (s_state s)))) -> In e (edges_of (with_cost r))).
  { intros e He. unfold edges_of in *. apply in_map_iff in He as (ew & <- & He). apply in_map. apply in_flat_map in He as (c & Hc & He). apply in_flat_map. exists c. split; [apply Hsub; exact Hc | exact He]. }
  assert (Hadd : List.length added <= List.length (u_new st)).
  { apply NoDup_incl_length; [exact T2 |]. intros x Hx. apply T3 in Hx as [Hx _]. exact Hx. }
  assert (Hneeds : forall x, In x (u_new st) -> needs r (t_nodes (s_tree s)) (t_edges (s_tree s)) x).
  { intros x Hx. apply P6 in Hx as [[] | [Hx | Hx]]; apply in_flat_map in Hx as (f & Hf & Hx).
    - left. exists f. split; [apply Hsubn, Hin_dn; exact Hf | split; [apply P4; exact Hf | exact Hx]].
    - right. destruct (P5 f Hf) as (e & w & Hd & He). exists f, e, w. split; [apply Hsub, Hin_dc; exact Hf | split; [exact Hd | split; assumption]]. }
  assert (Hneeds_space : forall x, In x (u_new_space st) -> needs_space r (t_nodes (s_tree s)) (t_edges (s_tree s)) x).
  { intros x Hx. apply P7 in Hx as [[] | [Hx | Hx]]; apply in_flat_map in Hx as (f & Hf & Hx).
    - left. exists f. split; [apply Hsubn, Hin_dn; exact Hf | split; [apply P4; exact Hf | exact Hx]].
    - right. destruct (P5 f Hf) as (e & w & Hd & He). exists f, e, w. split; [apply Hsub, Hin_dc; exact Hf | split; [exact Hd | split; assumption]]. }
  assert (Hb : List.length (t_terminals tr) + List.length (flat_map r_nodes (by_node (u_requirements st))) + List.length (flat_map c_nodes (with_cost (u_requirements st))) <=
               List.length terminals + List.length (flat_map r_nodes (by_node r)) + List.length (flat_map c_nodes (with_cost r))).
  { rewrite T1, app_length. assert (X1 := flat_map_perm _ _ r_nodes _ _ P1). assert (X2 := flat_map_perm _ _ c_nodes _ _ P2).
    rewrite flat_map_app, app_length in X1, X2. cbn [List.length] in P8. lia. }
  split; [| split; [| split; [| split; [| split; [| split; [| split; [| split]]]]]]]; cbn [s_state s_tree s_flac s_space s_independent u_requirements].
  - constructor; cbn [s_state s_tree s_flac s_space u_graph u_requirements u_new u_new_space u_flac u_changed]; try reflexivity; rewrite ?T6, ?T7.
    + replace tr with (snd (extend_terminals (u_new st) (s_tree s))) by (rewrite Ext; reflexivity). apply solving_more; [exact G1 |]. rewrite Ext. cbn [snd].
      unfold size in Hsize. lia.
    + apply (same_shape_trans _ _ _ G2 P9).
    + exact I1.
    + rewrite P3. exact G6.
    + destruct G7 as (dn0 & P & Hd). exists (dn0 ++ dn). split; [eapply perm_trans; [exact P |]; rewrite <- app_assoc; apply Permutation_app_head; exact P1 |].
      intros f Hf. apply in_app_iff in Hf as [Hf | Hf].
      * destruct (Hd f Hf) as (D1 & D2 & D3). split; [exact D1 |]. split; [intros x Hx; apply T5; left; apply D2; exact Hx | intros x Hx; apply in_app_iff; left; apply D3; exact Hx].
      * split; [apply P4; exact Hf |]. split; intros x Hx; [apply T5; right; apply P6 | apply in_app_iff; right; apply P7]; right; left; apply in_flat_map; exists f; split; assumption.
    + destruct G8 as (dc0 & P & Hd & Hr). exists (dc0 ++ dc). split; [eapply perm_trans; [exact P |]; rewrite <- app_assoc; apply Permutation_app_head; exact P2 |]. split.
      * intros f Hf. assert (Ht : forall c, taken (s_tree s) c -> taken tr c) by (intros c; apply taken_mono; rewrite T7; apply incl_refl).
        apply in_app_iff in Hf as [Hf | Hf].
        -- destruct (Hd f Hf) as (D1 & D2 & D3). split; [apply Ht; exact D1 |]. split; [intros x Hx; apply T5; left; apply D2; exact Hx | intros x Hx; apply in_app_iff; left; apply D3; exact Hx].
        -- split; [apply Ht, P5; exact Hf |]. split; intros x Hx; [apply T5; right; apply P6 | apply in_app_iff; right; apply P7]; right; right; apply in_flat_map; exists f; split; assumption.
      * intros Hnd c Hc. apply (at_rest_mono _ (s_tree s)); [rewrite T7; apply incl_refl |].
        assert (Hp := edges_of_perm _ _ P). rewrite edges_of_app in Hp. destruct (NoDup_split _ _ (Permutation_NoDup Hp Hnd)) as (_ & N2 & N3).
        destruct (P10 N2) as [F1 F2]. apply in_app_iff in Hc as [Hc | Hc]; [| apply F2; exact Hc].
        intros e w Hd' Hn. rewrite F1; [apply (Hr Hnd c Hc e w Hd' Hn) |]. apply N3. apply (edges_of_In _ c e w Hc Hd').
    + intros Hnd e He. destruct G8 as (dc0 & P & _). assert (Hp := edges_of_perm _ _ P). rewrite edges_of_app in Hp.
      destruct (NoDup_split _ _ (Permutation_NoDup Hp Hnd)) as (_ & N2 & _). destruct (P10 N2) as [F1 _]. rewrite F1; [apply (G9 Hnd e He) |]. intro X. apply He, Hedges, X.
    + intros e ed He. apply P11 in He as [He | (c & w & Hc & Hd & Hw)]; [apply G10; exact He |]. right. exists c, w. split; [apply Hsub; exact Hc | split; assumption].
    + intros x Hx. rewrite T1. apply T5 in Hx as [Hx | Hx].
      * destruct (G11 x Hx) as [X | X]; [left; apply in_app_iff; left; exact X | right; exact X].
      * destruct (in_dec Nat.eq_dec x (t_nodes (s_tree s))) as [X | X]; [right; exact X |].
        destruct (in_dec Nat.eq_dec x (t_is_terminal (s_tree s))) as [Y | Y].
        -- destruct (G11 x Y) as [Z | Z]; [left; apply in_app_iff; left; exact Z | right; exact Z].
        -- left. apply in_app_iff. right. apply T3. split; [exact Hx | split; assumption].
    + intros x Hx. rewrite T1. apply in_app_iff. left. apply G12. exact Hx.
    + intros x Hx. rewrite T1 in Hx. apply in_app_iff in Hx as [Hx | Hx]; [apply G13; exact Hx |]. apply T3 in Hx as [Hx _]. right. apply Hneeds. exact Hx.
    + intros x Hx. apply in_app_iff. left. apply G14. exact Hx.
    + intros x Hx. apply in_app_iff in Hx as [Hx | Hx]; [apply G15; exact Hx |]. right. apply Hneeds_space. exact Hx.
    + exact Hb.
  - exact I3.
  - exact T6.
  - exact T7.
  - reflexivity.
  - intros ->. rewrite T1. destruct added as [| x added]; [apply app_nil_r |]. exfalso. assert (false = true); [| discriminate]. apply T4. exists x. apply T3. left. reflexivity.
  - intro X. apply I5; [destruct (s_independent s) as [[|] |]; congruence | discriminate].
  - exists added. split; [exact T1 |]. intros x Hx. apply T3 in Hx as [_ [_ Hx]]. exact Hx.
  - exists dn, dc. split; [exact P1 |]. split; [exact P2 |]. intros ->. destruct T4 as [T4 _]. destruct (T4 eq_refl) as (x & Hx & _). apply P6 in Hx as [[] | [Hx | Hx]].
    + destruct dn; [destruct Hx | cbn [List.length]; lia].
    + destruct dc; [destruct Hx | cbn [List.length]; lia].
Qed.

(** The end of the loop. *)
Definition Complete (s : solver) : Prop :=
  Good s /\ Settled (s_tree s) (s_state s) /\ incl (t_terminals (s_tree s)) (t_nodes (s_tree s)) /\
  (s_independent s = Some false -> Estimated (s_tree s) (s_state s)).
Lemma settled_ext : forall tr tr' st, t_nodes tr' = t_nodes tr -> t_edges tr' = t_edges tr -> Settled tr st -> Settled tr' st.
Proof.
  intros tr tr' st En Ee (H1 & H2 & H3). split; [rewrite En; exact H1 |]. split; [| rewrite Ee; exact H3]. intros c Hc X. apply (H2 c Hc). destruct X as (e & w & X). rewrite Ee in X. exists e, w. exact X.
Qed.
Lemma estimated_ext : forall tr tr' st, t_nodes tr' = t_nodes tr -> t_edges tr' = t_edges tr -> Estimated tr st -> Estimated tr' st.
Proof.
  intros tr tr' st En Ee H c Hc Hne. destruct (H c Hc Hne) as (w & L & Hw). exists w. split; [| exact Hw]. unfold leads_to. rewrite En, Ee. exact L.
Qed.
Lemma execute_good : forall fuel s s', Good s -> execute pop limit fuel s = Done (Some s') -> Complete s'.
Proof.
  induction fuel as [| fuel IH]; intros s s' G H; [discriminate |]. cbn [execute] in H.
  destruct (run_once pop (u_graph (s_state s)) (s_tree s) (s_flac s)) as [[[b tr] fl] | |] eqn:Er; cbn [bind] in H; try discriminate.
  destruct (searched_good s b tr fl G Er) as (G1 & _ & Hc). fold (searched s tr fl) in H.
  destruct (update pop limit (searched s tr fl)) as [[a s1] | |] eqn:Eu; cbn [bind] in H; try discriminate.
  destruct (update_good _ _ _ G1 Eu) as [-> | (more & -> & G2 & Hs & En & Ee & _ & Ht & He & _)]; [discriminate |].
  destruct (negb more && negb b) eqn:Eb; [| apply (IH _ _ G2 H)]. injection H as <-. apply andb_true_iff in Eb as [E1 E2]. apply negb_true_iff in E1, E2. subst.
  cbn [searched s_tree] in Hs, En, Ee, Ht, He. split; [exact G2 |]. split; [apply (settled_ext tr _ _ En Ee Hs) |].
  split; [rewrite (Ht eq_refl), En; apply Hc; reflexivity |]. intro X. apply (estimated_ext tr _ _ En Ee (He X)).
Qed.
End Good.
