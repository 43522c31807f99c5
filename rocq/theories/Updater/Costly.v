(** The third loop of the updater: requirements with a cost. *)
From Coq Require Import QArith NArith List Bool Arith Lia Permutation.
From Verif.Steiner Require Import Model Spec Facts Invariant Subtree Flow Run TreeProps.
From Verif.Updater Require Import Model Proofs Estimate.
Import ListNotations.
Local Open Scope nat_scope.
Local Open Scope list_scope.

Section Costly.
Variable pop : list (nat * Q) -> option (nat * Q).
Variable limit : nat.
Hypothesis Hpop : pops_an_entry pop.

(** The weights of the edges of requirements that were not taken: the estimate and what the edge had. *)
Definition estimated (g : graph) (tr : tree) (c : costly) : Prop :=
  exists w, leads_to g tr (c_parents c) (c_nodes c) w /\
    forall e iw, In (e, iw) (c_dependent c) -> exists ed, nth_error g e = Some ed /\ e_weight ed = wrap (iw + w).
Lemma same_shape_dst : forall g g' e, same_shape g g' -> dst g' e = dst g e.
Proof.
  intros g g' e Hs. destruct (lt_dec e (List.length g)) as [Hl | Hl]; [apply same_shape_ends; assumption |].
  unfold dst. rewrite !nth_overflow; [reflexivity | lia | rewrite <- (proj1 Hs); lia].
Qed.
Lemma same_shape_inside : forall g g' tr, same_shape g g' -> ends_inside g tr -> ends_inside g' tr.
Proof. intros g g' tr Hs H e He. rewrite (same_shape_dst _ _ _ Hs). apply H. exact He. Qed.
Definition few (st : state) : Prop := forall c, In c (with_cost (u_requirements st)) -> (N.of_nat (List.length (c_nodes c)) < 65536)%N.

Lemma costly_loop_spec : forall tr fuel i st st', ends_inside (u_graph st) tr -> few st -> tmp_ok (u_flac st) ->
  costly_loop pop limit tr fuel i st = Done st' ->
  tmp_ok (u_flac st') /\ exists removed,
    Permutation (with_cost (u_requirements st)) (removed ++ with_cost (u_requirements st')) /\
    (forall c, In c removed -> taken tr c) /\
    (Forall (fun c => ~ taken tr c) (firstn i (with_cost (u_requirements st))) -> forall c, In c (with_cost (u_requirements st')) -> ~ taken tr c) /\
    u_new st' = u_new st ++ flat_map c_nodes removed /\ u_new_space st' = u_new_space st ++ flat_map c_space removed /\
    by_edge (u_requirements st') = by_edge (u_requirements st) /\ by_node (u_requirements st') = by_node (u_requirements st) /\
    same_shape (u_graph st) (u_graph st') /\
    (u_changed st = true -> u_changed st' = true) /\
    (u_changed st' = false -> u_graph st' = u_graph st /\
       (Forall (fun c => c_nodes c <> [] -> estimated (u_graph st) tr c) (firstn i (with_cost (u_requirements st))) ->
        forall c, In c (with_cost (u_requirements st')) -> c_nodes c <> [] -> estimated (u_graph st) tr c) /\
       (forall c, In c removed -> forall e w, In (e, w) (c_dependent c) -> ~ In e (t_edges tr) ->
          exists ed, nth_error (u_graph st) e = Some ed /\ e_weight ed = w)) /\
    (forall e ed, nth_error (u_graph st') e = Some ed -> nth_error (u_graph st) e = Some ed \/
       exists c w extra, In c (with_cost (u_requirements st)) /\ In (e, w) (c_dependent c) /\ e_weight ed = extra /\
         ((In c removed /\ extra = w) \/ (c_nodes c <> [] /\ exists x, extra = wrap (w + x)))).
Proof.
  intros tr fuel. induction fuel as [| fuel IH]; intros i st st' Hin Hfew Hok H; cbn [costly_loop] in H;
    destruct (nth_error (with_cost (u_requirements st)) i) as [c |] eqn:Hn; try discriminate.
  1, 3: injection H as <-; split; [exact Hok |]; exists []; split; [reflexivity |]; split; [intros c [] |];
    split; [intros F; apply Forall_forall, (firstn_all_iff _ _ _ _ Hn F) |]; cbn [flat_map]; rewrite !app_nil_r;
    do 4 (split; [reflexivity |]); split; [apply same_shape_refl |]; split; [intro X; exact X |];
    split; [intros _; split; [reflexivity |]; split; [intros F; exact (proj1 (Forall_forall _ _) (firstn_all_iff _ _ _ _ Hn F)) | intros c []] |];
    intros e ed X; left; exact X.
  destruct (existsb (fun ew => mem (fst ew) (t_edges tr)) (c_dependent c)) eqn:Et.
  - apply taken_spec in Et. destruct (put_weights _ st) as [st1 |] eqn:Ep; [| discriminate]. cbn zeta in H. cbn [extend u_requirements] in H.
    destruct (put_weights_spec _ _ _ Ep) as (P1 & (P2 & P3 & P4) & P5 & P6 & P7 & P8 & P9). rewrite P2 in H.
    destruct (swap_remove_spec _ i _ c Hn) as (l & Hl & Hp & Hpre). rewrite Hl in H. apply IH in H.
    2:{ apply (same_shape_inside _ _ _ P1 Hin). }
    2:{ intros c' Hc'. apply Hfew. eapply Permutation_in; [symmetry; exact Hp | right; exact Hc']. }
    2:{ cbn [with_requirements extend u_flac]. rewrite P5. exact Hok. }
    cbn [with_requirements extend u_requirements by_node by_edge with_cost u_new u_new_space u_graph u_flac u_changed] in H.
    destruct H as (H0 & removed & H1 & H2 & H3 & H4 & H5 & H6 & H7 & H8 & H9 & H10 & H11). rewrite P3 in H4. rewrite P4 in H5.
    split; [exact H0 |]. exists (c :: removed). split; [eapply perm_trans; [exact Hp | cbn [app]; apply perm_skip; exact H1] |].
    split; [intros c' [<- | Hc']; [exact Et | apply H2; exact Hc'] |]. split; [intro F; apply H3; rewrite Hpre; exact F |].
    cbn [flat_map]. split; [rewrite H4, <- app_assoc; reflexivity |]. split; [rewrite H5, <- app_assoc; reflexivity |].
    split; [exact H6 |]. split; [exact H7 |]. split; [apply (same_shape_trans _ _ _ P1 H8) |]. split; [intro X; apply H9, P6, X |]. split.
    + intro X. destruct (H10 X) as (G1 & G2 & G3). assert (X1 : u_changed st1 = false) by (destruct (u_changed st1); [rewrite H9 in X; [discriminate | reflexivity] | reflexivity]).
      destruct (P9 X1) as [Pg Pw]. rewrite Pg in G1, G2, G3. split; [exact G1 |]. split; [intro F; apply G2; rewrite Hpre; exact F |].
      intros c' [<- | Hc'] e w Hd Hnot; [| apply (G3 c' Hc' e w Hd Hnot)]. apply Pw. apply filter_In. split; [exact Hd |].
      apply negb_true_iff, mem_not_In. exact Hnot.
    + intros e ed X. apply H11 in X as [X | (c' & w & extra & X1 & X2 & X3 & X4)].
      * apply P8 in X as [X | (w & Hd & Hw)]; [left; exact X |]. right. apply filter_In in Hd as [Hd _].
        exists c, w, w. split; [apply nth_error_In in Hn; exact Hn |]. split; [exact Hd |]. split; [exact Hw |]. left. split; [left; reflexivity | reflexivity].
      * right. exists c', w, extra. split; [eapply Permutation_in; [symmetry; exact Hp | right; exact X1] |]. split; [exact X2 |]. split; [exact X3 |].
        destruct X4 as [[X4 X5] | X4]; [left; split; [right; exact X4 | exact X5] | right; exact X4].
  - assert (Hnt : ~ taken tr c) by (rewrite <- taken_spec, Et; discriminate).
    assert (Hpre : forall P, Forall P (firstn i (with_cost (u_requirements st))) -> P c -> Forall P (firstn (S i) (with_cost (u_requirements st)))).
    { intros P F Pc. rewrite (firstn_next _ _ _ _ Hn). apply Forall_app. split; [exact F | constructor; [exact Pc | constructor]]. }
    destruct (c_nodes c) as [| n ns] eqn:En.
    + apply IH in H; [| exact Hin | exact Hfew | exact Hok]. destruct H as (H0 & removed & H1 & H2 & H3 & H4 & H5 & H6 & H7 & H8 & H9 & H10 & H11).
      split; [exact H0 |]. exists removed. split; [exact H1 |]. split; [exact H2 |]. split; [intro F; apply H3, Hpre; [exact F | exact Hnt] |].
      do 6 (split; [assumption |]). split; [| exact H11]. intro X. destruct (H10 X) as (G1 & G2 & G3). split; [exact G1 |]. split; [| exact G3].
      intro F. apply G2, Hpre; [exact F |]. intro Y. rewrite En in Y. congruence.
    + rewrite <- En in H. assert (Hne : c_nodes c <> []) by (rewrite En; discriminate). clear En.
      destruct (estimate pop limit (u_graph st) tr (c_parents c) (c_nodes c) (u_flac st)) as [[w fl] | |] eqn:Ee; [| discriminate | discriminate].
      destruct (estimate_spec _ _ _ _ _ _ _ _ _ Hpop Hin Hok (Hfew c (nth_error_In _ _ Hn)) Ee) as [Hok1 Hleads].
      destruct (put_weights _ _) as [st1 |] eqn:Ep; [| discriminate]. destruct (put_weights_spec _ _ _ Ep) as (P1 & (P2 & P3 & P4) & P5 & P6 & P7 & P8 & P9).
      cbn [u_graph u_requirements u_new u_new_space u_flac u_changed] in P1, P2, P3, P4, P5, P6, P7, P8, P9.
      apply IH in H; [| apply (same_shape_inside _ _ _ P1 Hin) | intros c' Hc'; apply Hfew; rewrite <- P2; exact Hc' | rewrite P5; exact Hok1].
      rewrite P2, P3, P4 in H. destruct H as (H0 & removed & H1 & H2 & H3 & H4 & H5 & H6 & H7 & H8 & H9 & H10 & H11).
      split; [exact H0 |]. exists removed. split; [exact H1 |]. split; [exact H2 |]. split; [intro F; apply H3, Hpre; [exact F | exact Hnt] |].
      do 4 (split; [assumption |]). split; [apply (same_shape_trans _ _ _ P1 H8) |]. split; [intro X; apply H9, P6, X |]. split.
      * intro X. destruct (H10 X) as (G1 & G2 & G3). assert (X1 : u_changed st1 = false) by (destruct (u_changed st1); [rewrite H9 in X; [discriminate | reflexivity] | reflexivity]).
        destruct (P9 X1) as [Pg Pw]. rewrite Pg in G1, G2, G3. split; [exact G1 |]. split; [| exact G3]. intro F. apply G2, Hpre; [exact F |]. intros _.
        exists w. split; [exact Hleads |]. intros e iw Hd. apply Pw. apply in_map_iff. exists (e, iw). split; [reflexivity | exact Hd].
      * intros e ed X. apply H11 in X as [X | X]; [| right; exact X]. apply P8 in X as [X | (w' & Hd & Hw)]; [left; exact X |]. right.
        apply in_map_iff in Hd as ([e0 iw] & Heq & Hd). injection Heq as -> <-. cbn [fst snd] in Hw. exists c, iw, (wrap (iw + w)).
        split; [apply nth_error_In in Hn; exact Hn |]. split; [exact Hd |]. split; [exact Hw |]. right. split; [exact Hne | exists w; reflexivity].
Qed.

(** Edges with different requirements each: those of a requirement that was taken are back to what they had. *)
Definition edges_of (l : list costly) : list nat := map fst (flat_map c_dependent l).
Definition at_rest (g : graph) (tr : tree) (c : costly) : Prop :=
  forall e w, In (e, w) (c_dependent c) -> ~ In e (t_edges tr) -> exists ed, nth_error g e = Some ed /\ e_weight ed = w.
Lemma put_weights_each : forall l st st', NoDup (map fst l) -> put_weights l st = Some st' ->
  forall e w, In (e, w) l -> exists ed, nth_error (u_graph st') e = Some ed /\ e_weight ed = w.
Proof.
  induction l as [| [e0 w0] l IH]; intros st st' Hnd H e w Hin; [destruct Hin |]. cbn [put_weights] in H.
  unfold put_weight in H. destruct (nth_error (u_graph st) e0) as [ed0 |] eqn:E; [| discriminate]. cbn [map fst] in Hnd. inversion Hnd as [| ? ? Hnot Hnd' Eq]; subst.
  destruct Hin as [Hin | Hin]; [| apply (IH _ _ Hnd' H e w Hin)]. injection Hin as <- <-.
  destruct (put_weights_spec _ _ _ H) as (_ & _ & _ & _ & Hsame & _). cbn [u_graph] in Hsame.
  rewrite Hsame; [| intros w' Hw'; apply Hnot; apply in_map_iff; exists (e0, w'); split; [reflexivity | exact Hw']].
  rewrite (set_weight_get _ _ _ _ E), Nat.eqb_refl. eexists. split; reflexivity.
Qed.
Lemma edges_of_perm : forall l l', Permutation l l' -> Permutation (edges_of l) (edges_of l').
Proof. intros l l' H. unfold edges_of. apply Permutation_map. induction H; cbn [flat_map]; [reflexivity | apply Permutation_app_head; assumption | rewrite !app_assoc; apply Permutation_app_tail, Permutation_app_comm | etransitivity; eassumption]. Qed.
Lemma edges_of_In : forall l c e w, In c l -> In (e, w) (c_dependent c) -> In e (edges_of l).
Proof. intros l c e w Hc He. unfold edges_of. apply in_map_iff. exists (e, w). split; [reflexivity |]. apply in_flat_map. exists c. split; assumption. Qed.
Lemma NoDup_split : forall (l m : list nat), NoDup (l ++ m) -> NoDup l /\ NoDup m /\ forall x, In x l -> ~ In x m.
Proof.
  induction l as [| x l IH]; intros m H; cbn [app] in H; [split; [constructor |]; split; [exact H | intros x []] |].
  inversion H as [| ? ? Hn Hnd Eq]; subst. destruct (IH m Hnd) as (H1 & H2 & H3). split; [constructor; [intro X; apply Hn, in_app_iff; left; exact X | exact H1] |].
  split; [exact H2 |]. intros y [<- | Hy]; [intro X; apply Hn, in_app_iff; right; exact X | apply H3; exact Hy].
Qed.
Lemma NoDup_filter_keys : forall (f : nat * N -> bool) l, NoDup (map fst l) -> NoDup (map fst (filter f l)).
Proof.
  intros f l. induction l as [| x l IH]; intro H; cbn [map filter] in *; [constructor |]. inversion H as [| ? ? Hn Hnd Eq]; subst.
  destruct (f x); [| apply IH; exact Hnd]. cbn [map]. constructor; [| apply IH; exact Hnd]. intro X. apply Hn. apply in_map_iff in X as (y & <- & Hy).
  apply in_map. apply filter_In in Hy as [Hy _]. exact Hy.
Qed.
Lemma costly_loop_fixed : forall tr fuel i st st', NoDup (edges_of (with_cost (u_requirements st))) ->
  costly_loop pop limit tr fuel i st = Done st' ->
  (forall e, ~ In e (edges_of (with_cost (u_requirements st))) -> nth_error (u_graph st') e = nth_error (u_graph st) e) /\
  (forall c, In c (with_cost (u_requirements st)) -> In c (with_cost (u_requirements st')) \/ at_rest (u_graph st') tr c).
Proof.
  intros tr fuel. induction fuel as [| fuel IH]; intros i st st' Hnd H; cbn [costly_loop] in H;
    destruct (nth_error (with_cost (u_requirements st)) i) as [c |] eqn:Hn; try discriminate.
  1, 3: injection H as <-; split; [reflexivity | intros c Hc; left; exact Hc].
  destruct (existsb (fun ew => mem (fst ew) (t_edges tr)) (c_dependent c)) eqn:Et.
  - destruct (put_weights _ st) as [st1 |] eqn:Ep; [| discriminate]. cbn zeta in H. cbn [extend u_requirements] in H.
    destruct (put_weights_spec _ _ _ Ep) as (P1 & (P2 & P3 & P4) & P5 & P6 & P7 & P8 & P9). rewrite P2 in H.
    destruct (swap_remove_spec _ i _ c Hn) as (l & Hl & Hp & Hpre). rewrite Hl in H.
    assert (Hnd2 : NoDup (edges_of (c :: l))) by (apply (Permutation_NoDup (edges_of_perm _ _ Hp) Hnd)).
    unfold edges_of in Hnd2. cbn [flat_map] in Hnd2. rewrite map_app in Hnd2. fold (edges_of l) in Hnd2. destruct (NoDup_split _ _ Hnd2) as (N1 & N2 & N3).
    apply IH in H; [| exact N2]. cbn [with_requirements extend u_requirements with_cost u_graph] in H. destruct H as [H1 H2]. split.
    + intros e He. rewrite H1.
      * apply P7. intros w Hw. apply filter_In in Hw as [Hw _]. apply He. apply (edges_of_In _ c e w (nth_error_In _ _ Hn) Hw).
      * intro X. apply He. apply (Permutation_in e (Permutation_sym (edges_of_perm _ _ Hp))). unfold edges_of. cbn [flat_map]. rewrite map_app. apply in_app_iff. right. exact X.
    + intros c' Hc'. apply (Permutation_in c' Hp) in Hc' as [<- | Hc']; [| apply H2; exact Hc']. right. intros e w Hd Hnot.
      rewrite H1; [| apply N3; apply in_map_iff; exists (e, w); split; [reflexivity | exact Hd]].
      apply (put_weights_each _ _ _ (NoDup_filter_keys _ _ N1) Ep). apply filter_In. split; [exact Hd |]. apply negb_true_iff, mem_not_In. exact Hnot.
  - destruct (c_nodes c) as [| n ns]; [apply (IH _ _ _ Hnd H) |].
    destruct (estimate _ _ _ _ _ _ _) as [[w fl] | |]; [| discriminate | discriminate].
    destruct (put_weights _ _) as [st1 |] eqn:Ep; [| discriminate]. destruct (put_weights_spec _ _ _ Ep) as (P1 & (P2 & P3 & P4) & P5 & P6 & P7 & P8 & P9).
    cbn [u_graph u_requirements] in P2, P7. apply IH in H; [| rewrite P2; exact Hnd]. rewrite P2 in H. destruct H as [H1 H2]. split; [| exact H2].
    intros e He. rewrite H1 by exact He. apply P7. intros w' Hw'. apply in_map_iff in Hw' as ([e0 iw] & Heq & Hd). injection Heq as -> _.
    apply He. apply (edges_of_In _ c e iw (nth_error_In _ _ Hn) Hd).
Qed.

(** Loops without anything to estimate end. *)
Lemma costly_loop_ends : forall tr fuel i st, List.length (with_cost (u_requirements st)) <= fuel + i ->
  (forall c, In c (with_cost (u_requirements st)) -> c_nodes c = [] /\ forall e w, In (e, w) (c_dependent c) -> e < List.length (u_graph st)) ->
  exists st', costly_loop pop limit tr fuel i st = Done st'.
Proof.
  intros tr fuel. induction fuel as [| fuel IH]; intros i st Hf Hall; cbn [costly_loop].
  - rewrite (proj2 (nth_error_None (with_cost (u_requirements st)) i) Hf). exists st. reflexivity.
  - destruct (nth_error (with_cost (u_requirements st)) i) as [c |] eqn:Hn; [| exists st; reflexivity].
    destruct (Hall c (nth_error_In _ _ Hn)) as [Hc Hd]. destruct (existsb _ (c_dependent c)) eqn:Et.
    + destruct (put_weights_some (filter (fun ew => negb (mem (fst ew) (t_edges tr))) (c_dependent c)) st) as (st1 & Ep).
      { intros e w Hin. apply filter_In in Hin as [Hin _]. apply (Hd e w Hin). }
      rewrite Ep. cbn zeta. cbn [extend u_requirements]. destruct (put_weights_spec _ _ _ Ep) as (P1 & (P2 & _) & _). rewrite P2.
      destruct (swap_remove_spec _ i _ c Hn) as (l & -> & Hp & _). assert (Hl := Permutation_length Hp). cbn [List.length] in Hl. apply IH.
      * cbn [with_requirements u_requirements with_cost]. lia.
      * cbn [with_requirements extend u_requirements with_cost u_graph]. intros c' Hc'. rewrite <- (proj1 P1). apply Hall.
        eapply Permutation_in; [symmetry; exact Hp | right; exact Hc'].
    + rewrite Hc. apply IH; [lia | exact Hall].
Qed.
End Costly.
