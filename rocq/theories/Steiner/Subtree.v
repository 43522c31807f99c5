(** Adding the subtree that was found to the tree. *)
From Coq Require Import QArith NArith List Bool Arith Lia.
From Verif.Steiner Require Import Model Spec Facts Invariant.
Import ListNotations.
Local Open Scope nat_scope.
Local Open Scope list_scope.

Lemma sum_weights_app : forall g a b, sum_weights g (a ++ b) = (sum_weights g a + sum_weights g b)%N.
Proof. intros g a b. induction a as [| e a IH]; cbn [app sum_weights]; [reflexivity |]. rewrite IH. lia. Qed.
Lemma sum_weights_rev : forall g l, sum_weights g (rev l) = sum_weights g l.
Proof. intros g l. induction l as [| e l IH]; cbn [rev sum_weights]; [reflexivity |]. rewrite sum_weights_app, IH. cbn [sum_weights]. lia. Qed.
Lemma weight_lookup : forall g e, e < List.length g -> match nth_error g e with Some ed => e_weight ed | None => 0%N end = weight g e.
Proof. intros g e H. rewrite (lookup g e H). reflexivity. Qed.
Lemma wrap_add : forall a b, wrap (wrap a + b) = wrap (a + b).
Proof. intros a b. unfold wrap. apply N.add_mod_idemp_l. lia. Qed.

Section Subtree.
Variable g : graph.

(** A list of edges, with their targets. *)
Lemma add_list : forall l tr, NoDup l -> (forall e, In e l -> ~ In e (t_edges tr) /\ e < List.length g) ->
  let tr' := fold_left (fun tr e' => add_node (dst g e') (add_edge g tr e')) l tr in
  t_edges tr' = rev l ++ t_edges tr /\
  (t_total tr < 65536 -> t_total tr' = wrap (t_total tr + sum_weights g l))%N /\
  (forall x, In x (t_nodes tr') <-> In x (t_nodes tr) \/ exists e, In e l /\ x = dst g e) /\
  t_terminals tr' = t_terminals tr /\ t_is_terminal tr' = t_is_terminal tr.
Proof.
  induction l as [| e l IH]; intros tr Hnd Hl tr'.
  - subst tr'. cbn [fold_left rev app sum_weights]. split; [reflexivity |]. split.
    { intro H. rewrite N.add_0_r. symmetry. apply N.mod_small. exact H. }
    split; [| split; reflexivity].
    intro x. split; [intro H; left; exact H | intros [H | (e & [] & _)]; exact H].
  - subst tr'. cbn [fold_left]. inversion Hnd as [| ? ? Hn Hnd' E]; subst.
    destruct (Hl e (or_introl eq_refl)) as [He Hlen].
    assert (Ee : t_edges (add_node (dst g e) (add_edge g tr e)) = e :: t_edges tr).
    { cbn [add_node add_edge t_edges]. unfold insert. rewrite (proj2 (mem_not_In _ _) He). reflexivity. }
    assert (Et : t_total (add_node (dst g e) (add_edge g tr e)) = wrap (t_total tr + weight g e)) by reflexivity.
    assert (En : t_nodes (add_node (dst g e) (add_edge g tr e)) = insert (dst g e) (t_nodes tr)) by reflexivity.
    destruct (IH (add_node (dst g e) (add_edge g tr e)) Hnd') as (H1 & H2 & H3 & H4 & H5).
    { intros e' He'. split; [| apply (Hl e'); right; exact He']. rewrite Ee. intros [<- | H]; [contradiction |].
      apply (Hl e' (or_intror He')). exact H. }
    rewrite Ee in H1. rewrite Et in H2. rewrite En in H3. split; [| split; [| split; [| split; [exact H4 | exact H5]]]].
    + rewrite H1. cbn [rev]. rewrite <- app_assoc. reflexivity.
    + intro Hsm. rewrite H2 by (apply N.mod_lt; discriminate). rewrite wrap_add. cbn [sum_weights]. rewrite weight_lookup by exact Hlen. f_equal. lia.
    + intro x. rewrite H3, insert_In. split.
      * intros [[-> | H] | (e' & He' & ->)]; [right; exists e; split; [left; reflexivity | reflexivity] | left; exact H |].
        right. exists e'. split; [right; exact He' | reflexivity].
      * intros [H | (e' & [-> | He'] & ->)]; [left; right; exact H | left; left; reflexivity |].
        right. exists e'. split; [exact He' | reflexivity].
Qed.

(** The edges that were added since the tree had the edges [E0] and the weight [w0]. *)
Record Grown (E0 : list nat) (w0 : N) (tr : tree) : Prop := {
  gr_dst : forall e, In e (t_edges tr) -> In (dst g e) (t_nodes tr);
  gr_small : (t_total tr < 65536)%N;
  gr_added : exists added, t_edges tr = added ++ E0 /\ NoDup added /\ (forall e, In e added -> ~ In e E0 /\ light g e) /\
                           t_total tr = wrap (w0 + sum_weights g added) }.

(** A tree rooted at [root]. *)
Record Arbo (root : nat) (tr : tree) : Prop := {
  ar_root : In root (t_nodes tr);
  ar_edges : forall e, In e (t_edges tr) -> e < List.length g /\ In (src g e) (t_nodes tr) /\ In (dst g e) (t_nodes tr);
  ar_not_root : forall e, In e (t_edges tr) -> dst g e <> root;
  ar_one : forall e e', In e (t_edges tr) -> In e' (t_edges tr) -> dst g e = dst g e' -> e = e';
  ar_reach : forall x, In x (t_nodes tr) -> exists p, path g (fun e => In e (t_edges tr)) root p x }.

Lemma arbo_tree : forall root tr, Arbo root tr -> rooted_tree g root (t_nodes tr) (t_edges tr).
Proof.
  intros root tr [A1 A2 A3 A4 A5]. split; [exact A1 |]. split.
  - intros e He. destruct (A2 e He) as (Hl & Hs & Hd). exists (nth e g no_edge). split; [apply lookup; exact Hl | split; [exact Hs | exact Hd]].
  - intros x Hx. destruct (A5 x Hx) as (p & Hp). exists p. split; [exact Hp |]. clear Hx. revert x Hp.
    induction p as [| e p IH] using rev_ind; intros x Hp q Hq.
    + apply path_inv in Hp as <-. destruct q as [| e q _] using rev_ind; [reflexivity |].
      apply path_last in Hq as (_ & He & _ & Ed). exfalso. apply (A3 e He). symmetry. exact Ed.
    + apply path_last in Hp as (_ & He & Hp & ->). destruct q as [| e' q _] using rev_ind.
      * apply path_inv in Hq. exfalso. apply (A3 e He). symmetry. exact Hq.
      * apply path_last in Hq as (_ & He' & Hq & Ed). assert (E := A4 e e' He He' Ed). subst e'.
        rewrite (IH _ Hp q Hq). reflexivity.
Qed.

Section Found.
Variable terminals : list nat.
Variable act : nat -> nat -> Prop.
Variable tree0 : list nat.
Hypothesis act_terminals : forall ix t, act ix t -> nth_error terminals ix = Some t.
Variables (tr : tree) (st : flac) (e : nat).
Hypothesis B : Inv g terminals act tree0 (eq (dst g e)) tr st.
Hypothesis Hgood : good g act st (dst g e).
Hypothesis Hlen : e < List.length g.
Hypothesis Hlight : (weight g e < weight_max)%N.
Hypothesis Hu : In (src g e) (t_nodes tr).
Hypothesis Hv : ~ In (dst g e) (t_nodes tr).
Hypothesis Hdis : bdisjoint (f_root_feeding st) (f_feeding st (dst g e)) = true.
Let v := dst g e.
Let P := fun e' => In e' (f_saturated st).

Definition joined : flac :=
  {| f_saturated := f_saturated st; f_marked := f_marked st;
     f_root_feeding := bunion (f_root_feeding st) (f_feeding st (dst g e));
     f_feeding := f_feeding st; f_rates := f_rates st; f_time := f_time st; f_heap := f_heap st |}.
Definition grown : tree := add_subtree g (f_saturated st) e (dst g e) tr.
Let bl := below g (f_saturated st) (S (List.length g)) v.

Lemma below_iff : forall e', In e' bl <-> exists p, path g P v (p ++ [e']) (dst g e').
Proof.
  intro e'. unfold bl. rewrite below_In. split.
  - intros (p & Hp & _). exists p. exact Hp.
  - intros (p & Hp). exists p. split; [exact Hp |]. assert (H := path_length _ _ (i_acyclic _ _ _ _ _ _ _ B) _ _ _ Hp).
    rewrite app_length in H. cbn [List.length] in H. lia.
Qed.
(** Nothing below [v] is in the tree. *)
Lemma below_fresh : forall p x, path g P v p x -> ~ In x (t_nodes tr).
Proof.
  intros p x Hp Hx. destruct p as [| e' p _] using rev_ind.
  - apply path_inv in Hp as <-. contradiction.
  - apply path_last in Hp as (_ & He' & Hp & ->). destruct (i_useful _ _ _ _ _ _ _ B e' He') as (ix & t & q & Ha & Hq).
    apply (proj1 (bdisjoint_spec _ _) Hdis ix).
    + apply (i_rooted _ _ _ _ _ _ _ B e' ix t q He' Hx Ha Hq).
    + apply (proj1 Hgood). exists t, ((p ++ [e']) ++ q). split; [exact Ha |].
      eapply path_app; [| exact Hq]. apply path_snoc; [| exact He' | exact Hp].
      apply (i_marked _ _ _ _ _ _ _ B). apply (i_sat_marked _ _ _ _ _ _ _ B). exact He'.
Qed.
Lemma path_to_below : forall p x, path g P v p x -> x = v \/ exists e', In e' bl /\ x = dst g e'.
Proof.
  intros p x Hp. destruct p as [| e' p _] using rev_ind.
  - apply path_inv in Hp as <-. left. reflexivity.
  - right. exists e'. assert (E := Hp). apply path_last in E as (_ & _ & _ & ->). split; [apply below_iff; exists p; exact Hp | reflexivity].
Qed.
Lemma below_path : forall e', In e' bl -> exists p, path g P v p (dst g e') /\ e' < List.length g /\ P e' /\ exists q, path g P v q (src g e') /\ p = q ++ [e'].
Proof.
  intros e' He'. apply below_iff in He' as (q & Hp). exists (q ++ [e']). split; [exact Hp |].
  apply path_last in Hp as (Hl & HP & Hq & _). split; [exact Hl |]. split; [exact HP |]. exists q. split; [exact Hq | reflexivity].
Qed.

Lemma grown_facts : (forall e', In e' (t_edges tr) -> In (dst g e') (t_nodes tr)) ->
  NoDup (rev bl ++ [e]) /\
  t_edges grown = rev bl ++ e :: t_edges tr /\
  (t_total tr < 65536 -> t_total grown = wrap (t_total tr + sum_weights g (e :: bl)))%N /\
  (forall x, In x (t_nodes grown) <-> In x (t_nodes tr) \/ exists p, path g P v p x) /\
  t_terminals grown = t_terminals tr.
Proof.
  intro Hd. unfold grown, add_subtree. fold v. fold bl.
  assert (Hbl : forall e', In e' bl -> ~ In (dst g e') (t_nodes tr) /\ dst g e' <> v /\ e' < List.length g).
  { intros e' He'. destruct (below_path e' He') as (p & Hp & Hl & HP & q & Hq & ->). split; [apply (below_fresh _ _ Hp) |]. split; [| exact Hl].
    intro E. rewrite E in Hp. apply (i_acyclic _ _ _ _ _ _ _ B) in Hp. destruct q; discriminate. }
  assert (Hnd : NoDup bl).
  { apply below_NoDup. intros p q y Hp Hq. apply (proj1 (proj2 Hgood) p q y Hp Hq). }
  assert (He : ~ In e (t_edges tr)) by (intro H; apply Hv; apply Hd; exact H).
  assert (Hebl : ~ In e bl) by (intro H; apply (Hbl e H); reflexivity).
  assert (Ee : t_edges (add_node v (add_edge g tr e)) = e :: t_edges tr).
  { cbn [add_node add_edge t_edges]. unfold insert. rewrite (proj2 (mem_not_In _ _) He). reflexivity. }
  assert (Et : t_total (add_node v (add_edge g tr e)) = wrap (t_total tr + weight g e)) by reflexivity.
  assert (En : t_nodes (add_node v (add_edge g tr e)) = insert v (t_nodes tr)) by reflexivity.
  destruct (add_list bl (add_node v (add_edge g tr e)) Hnd) as (H1 & H2 & H3 & H4 & _).
  { intros e' He'. split; [| apply (Hbl e' He')]. rewrite Ee. intros [<- | H]; [contradiction |].
    apply (proj1 (Hbl e' He')). apply Hd. exact H. }
  rewrite Ee in H1. rewrite Et in H2. split; [| split; [exact H1 | split; [| split; [| exact H4]]]].
  - apply app_NoDup; [apply NoDup_rev; exact Hnd | constructor; [intros [] | constructor] |].
    intros x Hx [<- | []]. apply in_rev in Hx. contradiction.
  - intro Hsm. rewrite H2 by (apply N.mod_lt; discriminate). rewrite wrap_add. cbn [sum_weights]. rewrite weight_lookup by exact Hlen. f_equal. lia.
  - intro x. rewrite H3, En, insert_In. split.
    + intros [[-> | H] | (e' & He' & ->)]; [right; exists []; constructor | left; exact H |].
      right. destruct (below_path e' He') as (p & Hp & _). exists p. exact Hp.
    + intros [H | (p & Hp)]; [left; right; exact H |]. destruct (path_to_below p x Hp) as [-> | H]; [left; left; reflexivity | right; exact H].
Qed.

Lemma grown_inv : (forall e', In e' (t_edges tr) -> In (dst g e') (t_nodes tr)) ->
  Inv g terminals act tree0 (fun _ => False) grown joined.
Proof.
  intro Hd. destruct (grown_facts Hd) as (_ & _ & _ & Hn & _). pose proof B as B'.
  destruct B' as [B1 B2 B3 B4 B5 B6 B7 B8 B9 B10 B11 B12 B13 B14 B15].
  constructor; cbn [joined f_saturated f_marked f_root_feeding f_feeding f_rates f_time f_heap]; try assumption.
  - intros x e' _ Hf Hr Hx. assert (Hx1 : ~ In x (t_nodes tr)) by (intro H; apply Hx; apply Hn; left; exact H).
    apply (B4 x e'); [| exact Hf | exact Hr | exact Hx1]. intros <-. apply Hx. apply Hn. right. exists []. constructor.
  - intros e' He' Hs. apply Hn. apply Hn in Hs as [Hs | (p & Hp)]; [left; apply B9; assumption |].
    right. exists (p ++ [e']). apply path_snoc; [apply B2; apply B1; exact He' | exact He' | exact Hp].
  - intros e' ix t p He' Hs Ha Hp. rewrite bget_bunion. apply orb_true_iff.
    apply Hn in Hs as [Hs | (q & Hq)]; [left; apply (B10 e' ix t p He' Hs Ha Hp) |].
    right. apply (proj1 Hgood). exists t, (q ++ p). split; [exact Ha | eapply path_app; eassumption].
  - rewrite length_bunion, B12. assert (H := B11 (dst g e)). cbn in H |- *. lia.
  - intros ix Hix. rewrite bget_bunion in Hix. apply orb_true_iff in Hix as [Hix | Hix].
    + destruct (B13 ix Hix) as (t & Ht & Hin). exists t. split; [exact Ht | apply Hn; left; exact Hin].
    + destruct (B6 _ _ Hix) as (t & p & Ha & Hp). exists t. split; [apply act_terminals; exact Ha |]. apply Hn. right. exists p. exact Hp.
  - intros x Hx. apply Hn. left. apply B15. exact Hx.
Qed.

Lemma grown_grown : forall E0 w0, Grown E0 w0 tr -> Grown E0 w0 grown.
Proof.
  intros E0 w0 [G1 G2 (added & Ea & Hnda & Hne & Ht)]. destruct (grown_facts G1) as (Hnd & He & Htot & Hn & _).
  assert (Hin : forall e', In e' (rev bl ++ [e]) -> ~ In (dst g e') (t_nodes tr) /\ light g e').
  { intros e' Hin. apply in_app_iff in Hin as [Hin | [<- | []]].
    - apply in_rev in Hin. destruct (below_path e' Hin) as (p & Hp & Hl & HP & _). split; [apply (below_fresh _ _ Hp) |].
      exists (nth e' g no_edge). split; [apply lookup; exact Hl |]. apply (i_marked _ _ _ _ _ _ _ B). apply (i_sat_marked _ _ _ _ _ _ _ B). exact HP.
    - split; [exact Hv |]. exists (nth e g no_edge). split; [apply lookup; exact Hlen | exact Hlight]. }
  constructor.
  - intros e' He'. apply Hn. rewrite He in He'. apply in_app_iff in He' as [He' | [<- | He']].
    + apply in_rev in He'. destruct (below_path e' He') as (p & Hp & _). right. exists p. exact Hp.
    + right. exists []. constructor.
    + left. apply G1. exact He'.
  - rewrite (Htot G2). apply N.mod_lt. discriminate.
  - exists ((rev bl ++ [e]) ++ added). split; [rewrite He, Ea, <- !app_assoc; reflexivity |]. split; [| split].
    + apply app_NoDup; [exact Hnd | exact Hnda |]. intros x Hx Hx'. destruct (Hin x Hx) as [Hf _]. apply Hf. apply G1. rewrite Ea. apply in_app_iff. left. exact Hx'.
    + intros e' He'. apply in_app_iff in He' as [He' | He']; [| apply Hne; exact He']. destruct (Hin e' He') as [Hf Hli]. split; [| exact Hli].
      intro H. apply Hf. apply G1. rewrite Ea. apply in_app_iff. right. exact H.
    + rewrite (Htot G2), Ht, wrap_add, !sum_weights_app, sum_weights_rev. cbn [sum_weights]. f_equal. lia.
Qed.

Lemma grown_arbo : forall root, Arbo root tr -> Arbo root grown.
Proof.
  intros root [A1 A2 A3 A4 A5]. assert (Hd : forall e', In e' (t_edges tr) -> In (dst g e') (t_nodes tr)) by (intros e' H; apply (A2 e' H)).
  destruct (grown_facts Hd) as (Hnd & He & _ & Hn & _).
  assert (Hin : forall e', In e' (t_edges grown) <-> In e' bl \/ e' = e \/ In e' (t_edges tr)).
  { intro e'. rewrite He, in_app_iff, <- in_rev. cbn [In]. split; intros [H | [H | H]]; subst; auto. }
  assert (Hbl : forall e', In e' bl -> ~ In (dst g e') (t_nodes tr) /\ dst g e' <> v).
  { intros e' He'. destruct (below_path e' He') as (p & Hp & Hl & HP & q & Hq & ->). split; [apply (below_fresh _ _ Hp) |].
    intro E. rewrite E in Hp. apply (i_acyclic _ _ _ _ _ _ _ B) in Hp. destruct q; discriminate. }
  constructor.
  - apply Hn. left. exact A1.
  - intros e' H. apply Hin in H as [H | [-> | H]].
    + destruct (below_path e' H) as (p & Hp & Hl & HP & q & Hq & _). split; [exact Hl |]. split; apply Hn; right; eexists; eassumption.
    + split; [exact Hlen |]. split; apply Hn; [left; exact Hu | right; exists []; constructor].
    + destruct (A2 e' H) as (Hl & Hs & Hd'). split; [exact Hl |]. split; apply Hn; left; assumption.
  - intros e' H. apply Hin in H as [H | [-> | H]].
    + intro E. apply (proj1 (Hbl e' H)). rewrite E. exact A1.
    + intro E. apply Hv. rewrite E. exact A1.
    + apply A3. exact H.
  - intros e1 e2 H1 H2 E. apply Hin in H1 as [H1 | [-> | H1]]; apply Hin in H2 as [H2 | [-> | H2]].
    + destruct (below_path e1 H1) as (p1 & Hp1 & _ & _ & q1 & _ & ->). destruct (below_path e2 H2) as (p2 & Hp2 & _ & _ & q2 & _ & ->).
      rewrite E in Hp1. assert (Eq := proj1 (proj2 Hgood) _ _ _ Hp1 Hp2). apply app_inj_tail in Eq as [_ Eq]. exact Eq.
    + exfalso. apply (proj2 (Hbl e1 H1)). exact E.
    + exfalso. apply (proj1 (Hbl e1 H1)). rewrite E. apply Hd. exact H2.
    + exfalso. apply (proj2 (Hbl e2 H2)). symmetry. exact E.
    + reflexivity.
    + exfalso. apply Hv. rewrite E. apply Hd. exact H2.
    + exfalso. apply (proj1 (Hbl e2 H2)). rewrite <- E. apply Hd. exact H1.
    + exfalso. apply Hv. rewrite <- E. apply Hd. exact H1.
    + apply A4; assumption.
  - assert (Hw : forall x p, path g (fun e => In e (t_edges tr)) root p x -> path g (fun e => In e (t_edges grown)) root p x).
    { intros x p. apply path_weaken. intros e' _ H. apply Hin. right. right. exact H. }
    intros x Hx. apply Hn in Hx as [Hx | (q & Hq)].
    + destruct (A5 x Hx) as (p & Hp). exists p. apply Hw. exact Hp.
    + destruct (A5 _ Hu) as (p & Hp). exists (p ++ e :: q). eapply path_app; [apply Hw; exact Hp |].
      apply path_cons'; [exact Hlen | apply Hin; right; left; reflexivity |]. fold v.
      assert (Hall : forall e', In e' q -> In e' bl).
      { intros e' He'. apply in_split in He' as (q1 & q2 & ->). apply below_iff. exists q1.
        change (q1 ++ e' :: q2) with (q1 ++ [e'] ++ q2) in Hq. rewrite app_assoc in Hq. apply path_split in Hq as (y & H1 & _).
        assert (E := H1). apply path_last in E as (_ & _ & _ & ->). exact H1. }
      revert Hq. apply path_weaken. intros e' He' _. apply Hin. left. apply Hall. exact He'.
Qed.
End Found.
End Subtree.
