(** What the loops of the updater do. *)
From Coq Require Import QArith NArith List Bool Arith Lia Permutation.
From Verif.Steiner Require Import Model Spec Facts Invariant Subtree Flow Run TreeProps.
From Verif.Updater Require Import Model.
Import ListNotations.
Local Open Scope nat_scope.
Local Open Scope list_scope.

(** ** Vec::swap_remove *)
Lemma replace_length : forall A i (x : A) l, List.length (replace i x l) = List.length l.
Proof. intros A i x l. revert i. induction l as [| y l IH]; intros [| i]; cbn; [reflexivity | reflexivity | reflexivity | rewrite IH; reflexivity]. Qed.
Lemma replace_perm : forall A (x : A) l i y, nth_error l i = Some y -> Permutation (x :: l) (y :: replace i x l).
Proof.
  intros A x l. induction l as [| z l IH]; intros [| i] y H; cbn in H; try discriminate.
  - injection H as <-. apply perm_swap.
  - cbn [replace]. eapply perm_trans; [apply perm_swap |]. eapply perm_trans; [apply perm_skip, (IH i y H) | apply perm_swap].
Qed.
Lemma replace_firstn : forall A (x : A) l i, firstn i (replace i x l) = firstn i l.
Proof. intros A x l. induction l as [| z l IH]; intros [| i]; cbn; [reflexivity | reflexivity | reflexivity | rewrite IH; reflexivity]. Qed.
Lemma swap_remove_spec : forall A i (l : list A) y, nth_error l i = Some y ->
  exists l', swap_remove i l = Some l' /\ Permutation l (y :: l') /\ firstn i l' = firstn i l.
Proof.
  intros A i l y H. assert (Hi : i < List.length l) by (apply nth_error_Some; rewrite H; discriminate).
  unfold swap_remove. destruct (rev l) as [| x before] eqn:E.
  { assert (L := rev_length l). rewrite E in L. cbn in L. lia. }
  assert (L : l = rev before ++ [x]) by (rewrite <- (rev_involutive l), E; reflexivity).
  assert (Ll : List.length l = S (List.length (rev before))) by (rewrite L, app_length; cbn; lia).
  rewrite (proj2 (Nat.ltb_lt _ _) Hi). destruct (S i =? List.length l) eqn:En.
  - apply Nat.eqb_eq in En. exists (rev before). split; [reflexivity |].
    assert (Ei : i = List.length (rev before)) by lia.
    rewrite L in H. rewrite Ei, nth_error_app2, Nat.sub_diag in H by lia. cbn in H. injection H as <-.
    split; [rewrite L; symmetry; apply Permutation_cons_append |].
    rewrite L, firstn_app, Ei, Nat.sub_diag. cbn. rewrite app_nil_r. reflexivity.
  - apply Nat.eqb_neq in En. exists (replace i x (rev before)). split; [reflexivity |].
    rewrite L in H. rewrite nth_error_app1 in H by lia. split.
    + rewrite L. eapply perm_trans; [symmetry; apply Permutation_cons_append |]. apply replace_perm. exact H.
    + rewrite replace_firstn, L, firstn_app. replace (i - List.length (rev before)) with 0 by lia. cbn. rewrite app_nil_r. reflexivity.
Qed.
Lemma swap_remove_none : forall A i (l : list A), List.length l <= i -> swap_remove i l = None.
Proof.
  intros A i l H. unfold swap_remove. destruct (rev l); [reflexivity |]. destruct (i <? List.length l) eqn:E; [apply Nat.ltb_lt in E; lia | reflexivity].
Qed.
Lemma firstn_all_iff : forall A (P : A -> Prop) l i, nth_error l i = None -> Forall P (firstn i l) -> Forall P l.
Proof. intros A P l i H F. apply nth_error_None in H. rewrite firstn_all2 in F by exact H. exact F. Qed.
Lemma firstn_next : forall A (l : list A) i y, nth_error l i = Some y -> firstn (S i) l = firstn i l ++ [y].
Proof. intros A l. induction l as [| z l IH]; intros [| i] y H; cbn in H; try discriminate; [injection H as <-; reflexivity |]. change (z :: firstn (S i) l = z :: firstn i l ++ [y]). rewrite (IH i y H). reflexivity. Qed.

(** ** Weights *)
Lemma set_weight_shape : forall g e w, same_shape g (set_weight g e w).
Proof.
  intros g e w. unfold set_weight. destruct (nth_error g e) as [ed |] eqn:E.
  - split; [rewrite replace_length; reflexivity |]. revert e E. induction g as [| d g IH]; intros [| e] E e' ed' H; cbn in E; try discriminate.
    + injection E as ->. destruct e' as [| e']; cbn in *; [injection H as <-; eexists; split; [reflexivity | split; reflexivity] |].
      exists ed'. split; [exact H | split; reflexivity].
    + destruct e' as [| e']; cbn in *; [injection H as <-; eexists; split; [reflexivity | split; reflexivity] |]. apply (IH e E e' ed' H).
  - split; [reflexivity |]. intros e' ed' H. exists ed'. split; [exact H | split; reflexivity].
Qed.
Lemma same_shape_refl : forall g, same_shape g g.
Proof. intro g. split; [reflexivity |]. intros e ed H. exists ed. split; [exact H | split; reflexivity]. Qed.
Lemma same_shape_trans : forall a b c, same_shape a b -> same_shape b c -> same_shape a c.
Proof.
  intros a b c [L1 H1] [L2 H2]. split; [congruence |]. intros e ed H. destruct (H1 e ed H) as (ed' & H' & E1 & E2).
  destruct (H2 e ed' H') as (ed'' & H'' & E3 & E4). exists ed''. split; [exact H'' | split; congruence].
Qed.
Lemma set_weight_get : forall g e w ed, nth_error g e = Some ed ->
  forall e', nth_error (set_weight g e w) e' = if e' =? e then Some {| e_src := e_src ed; e_dst := e_dst ed; e_weight := w |} else nth_error g e'.
Proof.
  intros g e w ed H e'. unfold set_weight. rewrite H. generalize {| e_src := e_src ed; e_dst := e_dst ed; e_weight := w |}. intro x.
  revert e e' H. induction g as [| d g IH]; intros [| e] [| e'] H; cbn in H |- *; try discriminate; try reflexivity. apply IH. exact H.
Qed.

(** What an update of weights leaves as it is. *)
Definition rest (st st' : state) : Prop :=
  u_requirements st' = u_requirements st /\ u_new st' = u_new st /\ u_new_space st' = u_new_space st.
Lemma put_weights_spec : forall l st st', put_weights l st = Some st' ->
  same_shape (u_graph st) (u_graph st') /\ rest st st' /\ u_flac st' = u_flac st /\
  (u_changed st = true -> u_changed st' = true) /\
  (forall e, (forall w, ~ In (e, w) l) -> nth_error (u_graph st') e = nth_error (u_graph st) e) /\
  (forall e ed, nth_error (u_graph st') e = Some ed -> nth_error (u_graph st) e = Some ed \/ exists w, In (e, w) l /\ e_weight ed = w) /\
  (u_changed st' = false -> u_graph st' = u_graph st /\ forall e w, In (e, w) l -> exists ed, nth_error (u_graph st) e = Some ed /\ e_weight ed = w).
Proof.
  induction l as [| [e w] l IH]; intros st st' H; cbn [put_weights] in H.
  - injection H as <-. split; [apply same_shape_refl |]. split; [repeat split; reflexivity |]. split; [reflexivity |]. split; [intro X; exact X |].
    split; [reflexivity |]. split; [intros e ed X; left; exact X |]. intros _. split; [reflexivity | intros e w []].
  - unfold put_weight in H. destruct (nth_error (u_graph st) e) as [ed |] eqn:E; [| discriminate]. apply IH in H.
    cbn [u_graph u_requirements u_new u_new_space u_flac u_changed] in H. destruct H as (H1 & (H2 & H3 & H4) & H5 & H6 & H7 & H8 & H9).
    split; [apply (same_shape_trans _ _ _ (set_weight_shape (u_graph st) e w) H1) |].
    split; [split; [exact H2 | split; [exact H3 | exact H4]] |]. split; [exact H5 |]. split; [intro X; apply H6; rewrite X; reflexivity |].
    split; [| split].
    + intros e' He'. rewrite H7; [| intros w' Hin; apply (He' w'); right; exact Hin]. rewrite (set_weight_get _ _ _ _ E).
      destruct (e' =? e) eqn:Ee; [| reflexivity]. apply Nat.eqb_eq in Ee. subst. exfalso. apply (He' w). left. reflexivity.
    + intros e' ed' H'. apply H8 in H' as [H' | (w' & Hin & Hw)]; [| right; exists w'; split; [right; exact Hin | exact Hw]].
      rewrite (set_weight_get _ _ _ _ E) in H'. destruct (e' =? e) eqn:Ee; [| left; exact H']. apply Nat.eqb_eq in Ee. subst.
      injection H' as <-. right. exists w. split; [left; reflexivity | reflexivity].
    + intro X. destruct (H9 X) as [Hg Hw]. assert (Hs : u_changed st || negb (N.eqb (e_weight ed) w) = false).
      { destruct (u_changed st || negb (N.eqb (e_weight ed) w)) eqn:Y; [specialize (H6 eq_refl); congruence | reflexivity]. }
      apply orb_false_iff in Hs as [_ Hs]. apply negb_false_iff, N.eqb_eq in Hs.
      assert (Hsame : set_weight (u_graph st) e w = u_graph st).
      { unfold set_weight. rewrite E, <- Hs. clear - E. revert e E. induction (u_graph st) as [| d g IHg]; intros [| e] E; cbn in E |- *; try discriminate.
        - injection E as ->. destruct ed. reflexivity.
        - rewrite (IHg e E). reflexivity. }
      rewrite Hsame in Hg, Hw. split; [exact Hg |]. intros e' w' [X' | X']; [injection X' as <- <-; exists ed; split; [exact E | exact Hs] |]. apply Hw. exact X'.
Qed.
Lemma put_weights_some : forall l st, (forall e w, In (e, w) l -> e < List.length (u_graph st)) -> exists st', put_weights l st = Some st'.
Proof.
  induction l as [| [e w] l IH]; intros st H; cbn [put_weights]; [exists st; reflexivity |]. unfold put_weight.
  destruct (nth_error (u_graph st) e) as [ed |] eqn:E; [| apply nth_error_None in E; specialize (H e w (or_introl eq_refl)); lia].
  apply IH. cbn [u_graph]. intros e' w' Hin. rewrite <- (proj1 (set_weight_shape (u_graph st) e w)). apply (H e' w'). right. exact Hin.
Qed.

(** ** The first loop *)
Definition others (r r' : requirements) : Prop := by_edge r' = by_edge r.
Lemma nodes_loop_spec : forall tr fuel i st, List.length (by_node (u_requirements st)) <= fuel + i ->
  exists st' removed, nodes_loop tr fuel i st = Done st' /\
    Permutation (by_node (u_requirements st)) (removed ++ by_node (u_requirements st')) /\
    (forall r, In r removed -> In (r_of r) (t_nodes tr)) /\
    (Forall (fun r => ~ In (r_of r) (t_nodes tr)) (firstn i (by_node (u_requirements st))) -> forall r, In r (by_node (u_requirements st')) -> ~ In (r_of r) (t_nodes tr)) /\
    u_new st' = u_new st ++ flat_map r_nodes removed /\ u_new_space st' = u_new_space st ++ flat_map r_space removed /\
    by_edge (u_requirements st') = by_edge (u_requirements st) /\ with_cost (u_requirements st') = with_cost (u_requirements st) /\
    u_graph st' = u_graph st /\ u_flac st' = u_flac st /\ u_changed st' = u_changed st.
Proof.
  intros tr fuel. induction fuel as [| fuel IH]; intros i st Hf.
  - cbn [nodes_loop]. assert (Hn : nth_error (by_node (u_requirements st)) i = None) by (apply nth_error_None; exact Hf). rewrite Hn.
    exists st, []. split; [reflexivity |]. split; [reflexivity |]. split; [intros r [] |].
    split; [intros F; apply Forall_forall, (firstn_all_iff _ _ _ _ Hn F) |]. cbn [flat_map]. rewrite !app_nil_r. repeat (split; [reflexivity |]). reflexivity.
  - cbn [nodes_loop]. destruct (nth_error (by_node (u_requirements st)) i) as [r |] eqn:Hn.
    2:{ exists st, []. split; [reflexivity |]. split; [reflexivity |]. split; [intros r [] |].
        split; [intros F; apply Forall_forall, (firstn_all_iff _ _ _ _ Hn F) |]. cbn [flat_map]. rewrite !app_nil_r. repeat (split; [reflexivity |]). reflexivity. }
    destruct (mem (r_of r) (t_nodes tr)) eqn:Em.
    + apply mem_In in Em. cbn zeta. cbn [extend u_requirements]. destruct (swap_remove_spec _ i _ r Hn) as (l & -> & Hp & Hpre).
      assert (Hl := Permutation_length Hp). cbn [List.length] in Hl.
      destruct (IH i (with_requirements (extend (r_nodes r) (r_space r) st)
                  {| by_node := l; by_edge := by_edge (u_requirements st); with_cost := with_cost (u_requirements st) |})) as (st' & removed & H1 & H2 & H3 & H4 & H5 & H6 & H7).
      { cbn [with_requirements u_requirements by_node]. lia. }
      cbn [with_requirements extend u_requirements by_node by_edge with_cost u_new u_new_space u_graph u_flac u_changed] in H1, H2, H3, H4, H5, H6, H7.
      exists st', (r :: removed). split; [exact H1 |]. split; [eapply perm_trans; [exact Hp | cbn [app]; apply perm_skip; exact H2] |].
      split; [intros r' [<- | Hr']; [exact Em | apply H3; exact Hr'] |]. split; [intro F; apply H4; rewrite Hpre; exact F |].
      cbn [flat_map]. split; [rewrite H5, <- app_assoc; reflexivity |]. split; [rewrite H6, <- app_assoc; reflexivity | exact H7].
    + destruct (IH (S i) st) as (st' & removed & H1 & H2 & H3 & H4 & H5); [lia |]. exists st', removed. split; [exact H1 |]. split; [exact H2 |].
      split; [exact H3 |]. split; [| exact H5]. intro F. apply H4. rewrite (firstn_next _ _ _ _ Hn). apply Forall_app. split; [exact F |].
      constructor; [apply mem_not_In; exact Em | constructor].
Qed.

(** ** The second *)
Lemma edges_loop_panics : forall tr fuel i st r, nth_error (by_edge (u_requirements st)) i = Some r -> mem (r_of r) (t_edges tr) = true ->
  List.length (by_node (u_requirements st)) < fuel -> edges_loop tr fuel i st = Panic.
Proof.
  intros tr fuel. induction fuel as [| fuel IH]; intros i st r Hn Hm Hf; [lia |]. cbn [edges_loop]. rewrite Hn, Hm. cbn zeta. cbn [extend u_requirements].
  destruct (nth_error (by_node (u_requirements st)) i) as [y |] eqn:E.
  - destruct (swap_remove_spec _ i _ y E) as (l & -> & Hp & _). assert (Hl := Permutation_length Hp). cbn [List.length] in Hl.
    apply (IH i _ r); [exact Hn | exact Hm | cbn [with_requirements u_requirements by_node]; lia].
  - apply nth_error_None in E. rewrite (swap_remove_none _ i _ E). reflexivity.
Qed.
Lemma edges_loop_spec : forall tr fuel i st, List.length (by_edge (u_requirements st)) + List.length (by_node (u_requirements st)) <= fuel + i ->
  ((exists r, In r (skipn i (by_edge (u_requirements st))) /\ In (r_of r) (t_edges tr)) /\ edges_loop tr fuel i st = Panic) \/
  ((forall r, In r (skipn i (by_edge (u_requirements st))) -> ~ In (r_of r) (t_edges tr)) /\ edges_loop tr fuel i st = Done st).
Proof.
  intros tr fuel. induction fuel as [| fuel IH]; intros i st Hf.
  - right. cbn [edges_loop]. assert (Hn : nth_error (by_edge (u_requirements st)) i = None) by (apply nth_error_None; lia). rewrite Hn.
    split; [| reflexivity]. apply nth_error_None in Hn. rewrite skipn_all2 by exact Hn. intros r [].
  - destruct (nth_error (by_edge (u_requirements st)) i) as [r |] eqn:Hn.
    2:{ right. cbn [edges_loop]. rewrite Hn. split; [| reflexivity]. apply nth_error_None in Hn. rewrite skipn_all2 by exact Hn. intros r []. }
    assert (Hs : skipn i (by_edge (u_requirements st)) = r :: skipn (S i) (by_edge (u_requirements st))).
    { clear - Hn. revert i Hn. induction (by_edge (u_requirements st)) as [| x l IHl]; intros [| i] Hn; cbn in Hn; try discriminate; [injection Hn as ->; reflexivity |].
      cbn [skipn]. apply IHl. exact Hn. }
    rewrite Hs. destruct (mem (r_of r) (t_edges tr)) eqn:Em.
    + left. split; [exists r; split; [left; reflexivity | apply mem_In; exact Em] |]. apply (edges_loop_panics tr (S fuel) i st r Hn Em).
      assert (Hi : i < List.length (by_edge (u_requirements st))) by (apply nth_error_Some; rewrite Hn; discriminate). lia.
    + cbn [edges_loop]. rewrite Hn, Em. destruct (IH (S i) st) as [((r' & Hr' & Hin) & ->) | (Hno & ->)]; [lia | |].
      * left. split; [exists r'; split; [right; exact Hr' | exact Hin] | reflexivity].
      * right. split; [| reflexivity]. intros r' [<- | Hr']; [apply mem_not_In; exact Em | apply Hno; exact Hr'].
Qed.

(** ** The third *)
Definition taken (tr : tree) (c : costly) : Prop := exists e w, In (e, w) (c_dependent c) /\ In e (t_edges tr).
Lemma taken_spec : forall tr c, existsb (fun ew => mem (fst ew) (t_edges tr)) (c_dependent c) = true <-> taken tr c.
Proof.
  intros tr c. rewrite existsb_exists. split.
  - intros ([e w] & Hin & Hm). cbn [fst] in Hm. apply mem_In in Hm. exists e, w. split; assumption.
  - intros (e & w & Hin & He). exists (e, w). split; [exact Hin | apply mem_In; exact He].
Qed.
