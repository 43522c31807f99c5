(** Whole runs. *)
From Coq Require Import QArith NArith List Bool Arith Lia.
From Verif.Steiner Require Import Model Spec Facts Invariant Subtree Flow.
Import ListNotations.
Local Open Scope nat_scope.
Local Open Scope list_scope.

Section Run.
Variable pop : list (nat * Q) -> option (nat * Q).
Hypothesis Hpop : pops_an_entry pop.

(** The search's state goes with the tree: no bit is beyond the terminals, and what is said to be
    connected is. *)
Definition Ready (tr : tree) (st : flac) : Prop :=
  (N.of_nat (List.length (t_terminals tr)) < 65536)%N /\
  List.length (f_root_feeding st) <= List.length (t_terminals tr) /\
  (forall x, List.length (f_feeding st x) <= List.length (t_terminals tr)) /\
  (forall ix, bget (f_root_feeding st) ix = true -> exists t, nth_error (t_terminals tr) ix = Some t /\ In t (t_nodes tr)).

Definition starts (g : graph) (tr : tree) (ixs : list nat) (ix t : nat) : Prop :=
  In ix ixs /\ nth_error (t_terminals tr) ix = Some t /\ find_next g [] t <> None.

Lemma start_all_spec : forall g tr ixs st, f_saturated st = [] -> f_marked st = [] ->
  (forall x, List.length (f_feeding st x) <= List.length (t_terminals tr)) ->
  (forall ix, In ix ixs -> ix < List.length (t_terminals tr)) ->
  exists st', start_all g tr ixs st = Done st' /\ f_saturated st' = [] /\ f_marked st' = [] /\
    f_root_feeding st' = f_root_feeding st /\ f_time st' = f_time st /\
    (forall x, List.length (f_feeding st' x) <= List.length (t_terminals tr)) /\
    (forall x ix, bget (f_feeding st' x) ix = true <-> bget (f_feeding st x) ix = true \/ starts g tr ixs ix x) /\
    (forall x, (f_rates st' x = f_rates st x /\ ~ (exists ix, starts g tr ixs ix x)) \/
               (f_rates st' x = 1%N /\ exists ix, starts g tr ixs ix x)) /\
    (forall e, In e (keys (f_heap st')) <-> In e (keys (f_heap st)) \/ exists ix t, starts g tr ixs ix t /\ find_next g [] t = Some e).
Proof.
  intros g tr. induction ixs as [| ix ixs IH]; intros st Hs Hm Hl Hix.
  - exists st. cbn [start_all]. split; [reflexivity |]. do 4 (split; [first [assumption | reflexivity] |]). split; [exact Hl |].
    split; [| split].
    + intros x ix. split; [intro H; left; exact H | intros [H | ([] & _)]; exact H].
    + intro x. left. split; [reflexivity |]. intros (ix & [] & _).
    + intro e. split; [intro H; left; exact H | intros [H | (ix & t & ([] & _) & _)]; exact H].
  - cbn [start_all]. unfold start_terminal. assert (Hlt := Hix ix (or_introl eq_refl)).
    destruct (nth_error (t_terminals tr) ix) as [t |] eqn:Et; [| apply nth_error_None in Et; lia].
    rewrite Hm. destruct (find_next g [] t) as [e |] eqn:En.
    + set (st1 := {| f_saturated := f_saturated st; f_marked := f_marked st; f_root_feeding := f_root_feeding st;
                     f_feeding := upd (f_feeding st) t (bset (bgrow (f_feeding st t) (List.length (t_terminals tr))) ix);
                     f_rates := upd (f_rates st) t 1%N; f_time := f_time st;
                     f_heap := heap_push e (f_time st + Q_of (weight g e)) (f_heap st) |}).
      assert (Hlen : List.length (bgrow (f_feeding st t) (List.length (t_terminals tr))) = List.length (t_terminals tr)).
      { rewrite length_bgrow. specialize (Hl t). lia. }
      assert (Hl1 : forall x, List.length (f_feeding st1 x) <= List.length (t_terminals tr)).
      { intro x. cbn [st1 f_feeding]. unfold upd. destruct (x =? t); [| apply Hl]. rewrite length_bset, Hlen. apply Nat.le_refl. }
      destruct (IH st1 Hs Hm Hl1 (fun i Hi => Hix i (or_intror Hi))) as (st' & H1 & H2 & H3 & H4 & H5 & H6 & H7 & H8 & H9).
      exists st'. split; [rewrite <- Hm; exact H1 |]. split; [exact H2 |]. split; [exact H3 |]. split; [exact H4 |]. split; [exact H5 |].
      split; [exact H6 |]. split; [| split].
      * intros x i. rewrite H7. cbn [st1 f_feeding]. unfold upd. destruct (x =? t) eqn:Ex.
        -- apply Nat.eqb_eq in Ex. subst x. rewrite bget_bset by (rewrite Hlen; exact Hlt). rewrite bget_bgrow. unfold starts. cbn [In]. split.
           ++ intros [[-> | H] | (H & Ht & Hn)]; [| left; exact H | right; split; [right; exact H | split; assumption]].
              right. split; [left; reflexivity |]. split; [exact Et | rewrite En; discriminate].
           ++ intros [H | ([-> | H] & Ht & Hn)]; [left; right; exact H | left; left; reflexivity |]. right. split; [exact H | split; assumption].
        -- apply Nat.eqb_neq in Ex. unfold starts. cbn [In]. split.
           ++ intros [H | (H & Ht & Hn)]; [left; exact H | right; split; [right; exact H | split; assumption]].
           ++ intros [H | ([-> | H] & Ht & Hn)]; [left; exact H | | right; split; [exact H | split; assumption]].
              rewrite Et in Ht. injection Ht as ->. contradiction.
      * intro x. destruct (H8 x) as [[Hr Hno] | [Hr (i & Hi)]].
        -- cbn [st1 f_rates] in Hr. unfold upd in Hr. destruct (x =? t) eqn:Ex.
           ++ apply Nat.eqb_eq in Ex. subst x. right. split; [exact Hr |]. exists ix. split; [left; reflexivity |]. split; [exact Et | rewrite En; discriminate].
           ++ apply Nat.eqb_neq in Ex. left. split; [exact Hr |]. intros (i & [-> | Hi] & Ht & Hn).
              ** rewrite Et in Ht. injection Ht as ->. contradiction.
              ** apply Hno. exists i. split; [exact Hi | split; assumption].
        -- right. split; [exact Hr |]. exists i. destruct Hi as (Hi & Ht & Hn). split; [right; exact Hi | split; assumption].
      * intro e'. rewrite H9. cbn [st1 f_heap]. rewrite keys_push. split.
        -- intros [[-> | H] | (i & t' & (Hi & Ht & Hn) & He)]; [| left; exact H |].
           ++ right. exists ix, t. split; [| exact En]. split; [left; reflexivity |]. split; [exact Et | rewrite En; discriminate].
           ++ right. exists i, t'. split; [| exact He]. split; [right; exact Hi | split; assumption].
        -- intros [H | (i & t' & ([-> | Hi] & Ht & Hn) & He)]; [left; right; exact H | |].
           ++ rewrite Et in Ht. injection Ht as <-. rewrite En in He. injection He as <-. left. left. reflexivity.
           ++ right. exists i, t'. split; [| exact He]. split; [exact Hi | split; assumption].
    + destruct (IH st Hs Hm Hl (fun i Hi => Hix i (or_intror Hi))) as (st' & H1 & H2 & H3 & H4 & H5 & H6 & H7 & H8 & H9).
      exists st'. split; [exact H1 |]. split; [exact H2 |]. split; [exact H3 |]. split; [exact H4 |]. split; [exact H5 |]. split; [exact H6 |].
      assert (Hst : forall i x, starts g tr (ix :: ixs) i x <-> starts g tr ixs i x).
      { intros i x. split; intros (Hi & Ht & Hn); (split; [| split; assumption]); [| right; exact Hi].
        destruct Hi as [-> | Hi]; [| exact Hi]. rewrite Et in Ht. injection Ht as ->. contradiction. }
      split; [| split].
      * intros x i. rewrite H7, Hst. reflexivity.
      * intro x. destruct (H8 x) as [[Hr Hno] | [Hr (i & Hi)]].
        -- left. split; [exact Hr |]. intros (i & Hi). apply Hno. exists i. apply Hst. exact Hi.
        -- right. split; [exact Hr |]. exists i. apply Hst. exact Hi.
      * intro e'. rewrite H9. split; (intros [H | (i & t' & Hi & He)]; [left; exact H | right; exists i, t'; split; [apply Hst; exact Hi | exact He]]).
Qed.

Section Once.
Variables (g : graph) (tr : tree) (st : flac).
Hypothesis Hready : Ready tr st.
Let st0 := initialize tr st.
Let ixs := bzeroes (f_root_feeding st0).
Let n := List.length (t_terminals tr).

Lemma root0 : List.length (f_root_feeding st0) = n /\ forall ix, bget (f_root_feeding st0) ix = bget (f_root_feeding st) ix.
Proof.
  destruct Hready as (_ & Hl & _). unfold st0, initialize. cbn [f_root_feeding]. split; [rewrite length_bgrow; fold n in Hl |- *; lia |].
  intro ix. apply bget_bgrow.
Qed.
Lemma ixs_In : forall ix, In ix ixs <-> ix < n /\ bget (f_root_feeding st) ix = false.
Proof. intro ix. unfold ixs. rewrite bzeroes_In. destruct root0 as [-> H]. rewrite H. reflexivity. Qed.

Lemma started : exists st1, start_all g tr ixs st0 = Done st1 /\
  Inv g (t_terminals tr) (starts g tr ixs) (t_nodes tr) (fun _ => False) tr st1 /\
  Dry g (starts g tr ixs) tr st1 /\ f_root_feeding st1 = f_root_feeding st0 /\ f_marked st1 = [] /\
  (forall ix t, starts g tr ixs ix t -> f_rates st1 t = 1%N).
Proof.
  pose proof Hready as (Hn & Hr & Hf & Hc). destruct root0 as [Hlen Hroot].
  destruct (start_all_spec g tr ixs st0 eq_refl eq_refl) as (st1 & H1 & H2 & H3 & H4 & H5 & H6 & H7 & H8 & H9).
  { intro x. unfold st0, initialize. cbn [f_feeding]. rewrite length_bclear. apply Hf. }
  { intros ix Hix. apply ixs_In in Hix as [Hix _]. exact Hix. }
  assert (H7' : forall x ix, bget (f_feeding st1 x) ix = true <-> starts g tr ixs ix x).
  { intros x ix. rewrite H7. unfold st0, initialize. cbn [f_feeding]. rewrite bget_bclear. split; [intros [H | H]; [discriminate | exact H] | intro H; right; exact H]. }
  assert (H8' : forall x, (f_rates st1 x = 0%N /\ ~ (exists ix, starts g tr ixs ix x)) \/ (f_rates st1 x = 1%N /\ exists ix, starts g tr ixs ix x)) by exact H8.
  assert (Hnil : forall x p y, sat_path g st1 x p y -> p = [] /\ x = y).
  { intros x p y Hp. destruct p as [| e p]; apply path_inv in Hp; [split; [reflexivity | exact Hp] |].
    destruct Hp as (_ & He & _). rewrite H2 in He. destruct He. }
  assert (Hpt : forall x ix, (exists t p, starts g tr ixs ix t /\ sat_path g st1 x p t) <-> starts g tr ixs ix x).
  { intros x ix. split; [intros (t & p & Ha & Hp); apply Hnil in Hp as [_ ->]; exact Ha | intro H; exists x, []; split; [exact H | constructor]]. }
  exists st1. split; [exact H1 |]. split; [| split; [| split; [exact H4 | split; [exact H3 |]]]].
  - constructor; rewrite ?H2, ?H3.
    + intros e [].
    + intros e [].
    + intros e He. apply H9 in He as [[] | (ix & t & Hs & He)]. destruct (find_next_some _ _ _ _ He) as (_ & Hd & _). rewrite Hd. split; [exact He |].
      destruct (H8' t) as [[_ Hno] | [-> _]]; [exfalso; apply Hno; exists ix; exact Hs | lia].
    + intros x e _ He Hrx _. apply H9. right. destruct (H8' x) as [[Hz _] | [_ (ix & Hs)]]; [rewrite Hz in Hrx; lia |]. exists ix, x. split; assumption.
    + intros x Hx. split; [intro ix; rewrite Hpt, H7'; reflexivity |]. split; [intros p q y Hp Hq; apply Hnil in Hp as [-> _]; apply Hnil in Hq as [-> _]; reflexivity |].
      destruct (H8' x) as [[Hz Hno] | [Ho (ix & Hs)]].
      * assert (Hcz : count (f_feeding st1 x) = 0).
        { apply count_zero. intro i. destruct (bget (f_feeding st1 x) i) eqn:E; [| reflexivity]. exfalso. apply Hno. exists i. apply H7'. exact E. }
        rewrite Hz, Hcz. split; [split; intro H; lia | lia].
      * assert (Hcp : 0 < count (f_feeding st1 x)) by (apply count_pos with (i := ix); apply H7'; exact Hs). rewrite Ho. split; [split; intro H; lia | lia].
    + intros x ix Hix. destruct (proj2 (Hpt x ix) (proj1 (H7' x ix) Hix)) as (t & p & Ha & Hp).
      exists t, p. split; [exact Ha |]. rewrite H2 in Hp. exact Hp.
    + intros e [].
    + intros x p Hp. apply path_inv in Hp. destruct p as [| e p]; [reflexivity |]. destruct Hp as (_ & [] & _).
    + intros e [].
    + intros e ix t p [].
    + exact H6.
    + rewrite H4. exact Hlen.
    + intros ix Hix. rewrite H4, Hroot in Hix. apply Hc. exact Hix.
    + intros e [].
    + intros x Hx. exact Hx.
  - split; [| intros e He; rewrite H3 in He; destruct He]. intros ix t (Hix & _). rewrite H4. apply bzeroes_In in Hix as [_ Hix]. exact Hix.
  - intros ix t Hs. destruct (H8' t) as [[_ Hno] | [Ho _]]; [exfalso; apply Hno; exists ix; exact Hs | exact Ho].
Qed.

Lemma full_root0 : bfull (f_root_feeding st0) = true <-> forall ix, ix < n -> bget (f_root_feeding st) ix = true.
Proof. rewrite bfull_spec. destruct root0 as [-> H]. split; intros H' ix Hix; [rewrite <- H | rewrite H]; apply H'; exact Hix. Qed.

(** A terminal whose turn has not come: outside of the tree and in its reach. *)
Definition Pending (tr : tree) (st : flac) : Prop :=
  forall ix t, nth_error (t_terminals tr) ix = Some t -> bget (f_root_feeding st) ix = false ->
    ~ In t (t_nodes tr) /\ reachable_from g (t_nodes tr) t.
(** A terminal that can't be connected. *)
Definition Stuck (tr : tree) (st : flac) (ix t : nat) : Prop :=
  nth_error (t_terminals tr) ix = Some t /\ bget (f_root_feeding st) ix = false /\
  (In t (t_nodes tr) \/ ~ reachable_from g (t_nodes tr) t).

Lemma reachable_starts : forall t, ~ In t (t_nodes tr) -> reachable_from g (t_nodes tr) t -> find_next g [] t <> None.
Proof.
  intros t Hn (x & p & Hx & Hp) Hf. destruct p as [| e p _] using rev_ind; [apply path_inv in Hp as ->; contradiction |].
  apply path_last in Hp as (Hl & (ed & He & Hw) & _ & ->). destruct (lookup_src _ _ _ He) as (_ & _ & Hwe).
  assert (H := find_next_none g [] (dst g e) Hf e Hl eq_refl). rewrite Hwe in H. apply (H Hw).
Qed.
Lemma reachable_mono : forall nodes nodes' t, (forall x, In x nodes -> In x nodes') -> reachable_from g nodes t -> reachable_from g nodes' t.
Proof. intros nodes nodes' t H (x & p & Hx & Hp). exists x, p. split; [apply H; exact Hx | exact Hp]. Qed.
Lemma reachable_trans : forall nodes nodes' t, (forall x, In x nodes' -> reachable_from g nodes x) -> reachable_from g nodes' t -> reachable_from g nodes t.
Proof.
  intros nodes nodes' t H (x & p & Hx & Hp). destruct (H x Hx) as (y & q & Hy & Hq). exists y, (q ++ p). split; [exact Hy | eapply path_app; eassumption].
Qed.

Lemma once : forall E0 w0, Grown g E0 w0 tr ->
  exists b tr' st', run_once pop g tr st = Done (b, tr', st') /\ Ready tr' st' /\ List.length (f_root_feeding st') = n /\
    b = negb (bfull (f_root_feeding st')) /\ Grown g E0 w0 tr' /\ (forall root, Arbo g root tr -> Arbo g root tr') /\
    t_terminals tr' = t_terminals tr /\
    (forall x, In x (t_nodes tr) -> In x (t_nodes tr')) /\
    (forall ix, bget (f_root_feeding st) ix = true -> bget (f_root_feeding st') ix = true) /\
    (forall x, In x (t_nodes tr') -> reachable_from g (t_nodes tr) x) /\
    (Pending tr st -> Pending tr' st' /\
       (b = true -> exists ix, bget (f_root_feeding st') ix = true /\ bget (f_root_feeding st) ix = false)) /\
    (forall ix t, Stuck tr st ix t -> Stuck tr' st' ix t).
Proof.
  intros E0 w0 G. destruct root0 as [Hlen Hroot]. unfold run_once. fold st0. fold ixs.
  destruct ixs as [| i0 ixs'] eqn:Eixs.
  - assert (Hfull : bfull (f_root_feeding st0) = true) by (apply bzeroes_nil; exact Eixs).
    exists false, tr, st0. split; [reflexivity |]. split.
    { destruct Hready as (Hn & Hr & Hf & Hc). split; [exact Hn |]. split; [rewrite Hlen; apply Nat.le_refl |]. split.
      - intro x. unfold st0, initialize. cbn [f_feeding]. rewrite length_bclear. apply Hf.
      - intros ix Hix. rewrite Hroot in Hix. apply Hc. exact Hix. }
    split; [exact Hlen |]. split; [rewrite Hfull; reflexivity |]. split; [exact G |]. split; [intros root A; exact A |]. split; [reflexivity |].
    split; [intros x Hx; exact Hx |]. split; [intros ix Hix; rewrite Hroot; exact Hix |].
    split; [intros x Hx; exists x, []; split; [exact Hx | constructor] |]. split.
    + intro Pd. split; [| discriminate]. intros ix t Ht Hf. rewrite Hroot in Hf. apply (Pd ix t Ht Hf).
    + intros ix t (Ht & Hf & Hs). exfalso. assert (Hb := proj1 full_root0 Hfull ix). rewrite Hf in Hb.
      assert (Hlt : ix < n) by (apply nth_error_Some; rewrite Ht; discriminate). specialize (Hb Hlt). discriminate.
  - rewrite <- Eixs. clear Eixs i0 ixs'. destruct started as (st1 & H1 & B & D & Er & Em & Hrates). rewrite H1.
    assert (Hact : forall ix t, starts g tr ixs ix t -> nth_error (t_terminals tr) ix = Some t) by (intros ix t (_ & H & _); exact H).
    pose proof Hready as (Hn & Hrl & Hfl & Hcv).
    destruct (flow_spec g (t_terminals tr) (starts g tr ixs) (t_nodes tr) Hact Hn pop Hpop (S (List.length g)) E0 w0 tr st1 B G)
      as (tr' & st' & F1 & F2 & F3 & F4 & F5 & F6 & F7 & F8 & F9 & F10 & F11).
    { assert (H := unmarked_le g (f_marked st1)). lia. }
    rewrite F1. exists (negb (bfull (f_root_feeding st'))), tr', st'. split; [reflexivity |].
    split.
    { split; [rewrite F5; exact Hn |]. rewrite F5. split; [rewrite (i_root_len _ _ _ _ _ _ _ F2); apply Nat.le_refl |].
      split; [apply (i_len _ _ _ _ _ _ _ F2) | apply (i_covered _ _ _ _ _ _ _ F2)]. }
    split; [apply (i_root_len _ _ _ _ _ _ _ F2) |]. split; [reflexivity |]. split; [exact F3 |]. split; [exact F4 |]. split; [exact F5 |].
    split; [exact F6 |]. split; [intros ix Hix; apply F7; rewrite Er, Hroot; exact Hix |].
    assert (Hreach : forall x, In x (t_nodes tr') -> reachable_from g (t_nodes tr) x).
    { apply F9. intros x Hx. exists x, []. split; [exact Hx | constructor]. }
    split; [exact Hreach |]. split.
    + intro Pd.
      assert (Hstarts : forall ix t, nth_error (t_terminals tr) ix = Some t -> bget (f_root_feeding st) ix = false -> starts g tr ixs ix t).
      { intros ix t Ht Hf. split; [| split; [exact Ht |]].
        - apply ixs_In. split; [apply nth_error_Some; rewrite Ht; discriminate | exact Hf].
        - destruct (Pd ix t Ht Hf) as [Hnt Hrt]. apply reachable_starts; assumption. }
      assert (Hw : Waiting (starts g tr ixs) tr st1).
      { intros ix t (Hix & Ht & _) _. apply ixs_In in Hix as [_ Hix]. apply (Pd ix t Ht Hix). }
      split.
      * intros ix t Ht Hf. rewrite F5 in Ht.
        assert (Hf0 : bget (f_root_feeding st) ix = false).
        { destruct (bget (f_root_feeding st) ix) eqn:E; [| reflexivity]. rewrite <- Hroot, <- Er in E. apply F7 in E. rewrite Hf in E. discriminate. }
        split; [apply (F8 Hw ix t (Hstarts ix t Ht Hf0) Hf) |]. apply (reachable_mono (t_nodes tr)); [exact F6 | apply (Pd ix t Ht Hf0)].
      * intro Hb. apply negb_true_iff in Hb. destruct (F11 D) as [(ix & P1 & P2) | (-> & D' & B' & Hh)].
        -- exists ix. split; [exact P1 | rewrite <- Hroot, <- Er; exact P2].
        -- exfalso. destruct (bzeroes (f_root_feeding st')) as [| ix l] eqn:Ez; [apply bzeroes_nil in Ez; rewrite Hb in Ez; discriminate |].
           assert (Hin : In ix (bzeroes (f_root_feeding st'))) by (rewrite Ez; left; reflexivity).
           apply bzeroes_In in Hin as [Hl Hf]. rewrite (i_root_len _ _ _ _ _ _ _ F2) in Hl.
           destruct (nth_error (t_terminals tr) ix) as [t |] eqn:Et; [| apply nth_error_None in Et; lia].
           assert (Hf0 : bget (f_root_feeding st) ix = false).
           { destruct (bget (f_root_feeding st) ix) eqn:E; [| reflexivity]. rewrite <- Hroot, <- Er in E. apply F7 in E. rewrite Hf in E. discriminate. }
           destruct (Pd ix t Et Hf0) as [Hnt (x & p & Hx & Hp)].
           refine (dry_end g _ _ _ tr st' B' D' Hh t x p _ Hnt Hp Hx).
           destruct (find_next g (f_marked st') t) eqn:En; [right | left; reflexivity].
           assert (Hg := i_good _ _ _ _ _ _ _ B' t ltac:(rewrite En; discriminate)). apply Hg. apply count_pos with (i := ix). apply Hg.
           exists t, []. split; [apply Hstarts; assumption | constructor].
    + intros ix t (Ht & Hf & Hs). split; [rewrite F5; exact Ht |]. split.
      * destruct (bget (f_root_feeding st') ix) eqn:E; [exfalso | reflexivity].
        assert (Nw : Newly (starts g tr ixs) (t_nodes tr) (f_root_feeding st1) st1) by (intros i Hi; left; exact Hi).
        destruct (i_covered _ _ _ _ _ _ _ F2 ix E) as (t' & Ht' & Hin'). rewrite Ht in Ht'. injection Ht' as <-.
        apply (F10 _ Nw ix) in E as [E | (t' & Ha & Hnt)].
        -- rewrite Er, Hroot, Hf in E. discriminate.
        -- apply Hact in Ha. rewrite Ht in Ha. injection Ha as <-. destruct Hs as [Hs | Hs]; [contradiction | apply Hs; apply Hreach; exact Hin'].
      * destruct Hs as [Hs | Hs]; [left; apply F6; exact Hs |]. right. intro H. apply Hs. apply (reachable_trans _ _ _ Hreach H).
Qed.
End Once.

(** ** Runs until every terminal is connected *)
Lemma run_done : forall g fuel tr st tr' st' E0 w0, Ready tr st -> Grown g E0 w0 tr -> run pop g fuel tr st = Done (tr', st') ->
  Ready tr' st' /\ Grown g E0 w0 tr' /\ (forall root, Arbo g root tr -> Arbo g root tr') /\ t_terminals tr' = t_terminals tr /\
  (forall x, In x (t_nodes tr) -> In x (t_nodes tr')) /\ (forall t, In t (t_terminals tr) -> In t (t_nodes tr')).
Proof.
  intros g. induction fuel as [| fuel IH]; intros tr st tr' st' E0 w0 R G H; [discriminate |]. cbn [run] in H.
  destruct (once g tr st R E0 w0 G) as (b & tr1 & st1 & H1 & R1 & L1 & Eb & G1 & A1 & T1 & N1 & _). rewrite H1 in H. destruct b.
  - destruct (IH tr1 st1 tr' st' E0 w0 R1 G1 H) as (R2 & G2 & A2 & T2 & N2 & C2). split; [exact R2 |]. split; [exact G2 |].
    split; [intros root A; apply A2, A1, A |]. split; [rewrite T2; exact T1 |]. split; [intros x Hx; apply N2, N1, Hx |].
    intros t Ht. apply C2. rewrite T1. exact Ht.
  - injection H as <- <-. split; [exact R1 |]. split; [exact G1 |]. split; [exact A1 |]. split; [exact T1 |]. split; [exact N1 |].
    intros t Ht. destruct (In_nth_error _ _ Ht) as (ix & Hix). symmetry in Eb. apply negb_false_iff in Eb. rewrite bfull_spec in Eb.
    destruct R1 as (_ & _ & _ & Hc). destruct (Hc ix) as (t' & Ht' & Hin).
    + apply Eb. rewrite L1. apply nth_error_Some. rewrite Hix. discriminate.
    + rewrite T1, Hix in Ht'. injection Ht' as <-. exact Hin.
Qed.

Lemma run_no_panic : forall g fuel tr st E0 w0, Ready tr st -> Grown g E0 w0 tr -> run pop g fuel tr st <> Panic.
Proof.
  intros g. induction fuel as [| fuel IH]; intros tr st E0 w0 R G H; [discriminate |]. cbn [run] in H.
  destruct (once g tr st R E0 w0 G) as (b & tr1 & st1 & H1 & R1 & _ & _ & G1 & _). rewrite H1 in H. destruct b; [| discriminate].
  apply (IH tr1 st1 E0 w0 R1 G1 H).
Qed.

Definition uncovered (k : nat) (st : flac) : nat := List.length (filter (fun i => negb (bget (f_root_feeding st) i)) (seq 0 k)).

Lemma run_ends : forall g fuel tr st E0 w0, Ready tr st -> Grown g E0 w0 tr -> Pending g tr st ->
  uncovered (List.length (t_terminals tr)) st < fuel -> exists tr' st', run pop g fuel tr st = Done (tr', st').
Proof.
  intros g. induction fuel as [| fuel IH]; intros tr st E0 w0 R G Pd Hu; [lia |]. cbn [run].
  destruct (once g tr st R E0 w0 G) as (b & tr1 & st1 & H1 & R1 & L1 & Eb & G1 & _ & T1 & _ & M1 & _ & P1 & _). rewrite H1.
  destruct b; [| exists tr1, st1; reflexivity]. destruct (P1 Pd) as [Pd1 Hprog].
  apply (IH tr1 st1 E0 w0 R1 G1 Pd1). destruct (Hprog eq_refl) as (ix & Hi1 & Hi2).
  apply Nat.lt_le_trans with (uncovered (List.length (t_terminals tr)) st); [| lia]. rewrite T1. unfold uncovered.
  apply filter_length_lt with (a := ix).
  - intros i Hi. apply negb_true_iff in Hi. apply negb_true_iff. destruct (bget (f_root_feeding st) i) eqn:E; [| reflexivity].
    apply M1 in E. rewrite Hi in E. discriminate.
  - apply in_seq. apply bget_length in Hi1. rewrite L1 in Hi1. lia.
  - rewrite Hi2. reflexivity.
  - rewrite Hi1. reflexivity.
Qed.

Lemma run_hangs : forall g fuel tr st E0 w0 ix t, Ready tr st -> Grown g E0 w0 tr -> Stuck g tr st ix t -> run pop g fuel tr st = Hang.
Proof.
  intros g. induction fuel as [| fuel IH]; intros tr st E0 w0 ix t R G Sk; [reflexivity |]. cbn [run].
  destruct (once g tr st R E0 w0 G) as (b & tr1 & st1 & H1 & R1 & L1 & Eb & G1 & _ & T1 & _ & _ & _ & _ & S1). rewrite H1.
  specialize (S1 ix t Sk). assert (Hb : b = true).
  { rewrite Eb. apply negb_true_iff. destruct (bfull (f_root_feeding st1)) eqn:E; [| reflexivity]. rewrite bfull_spec in E.
    destruct S1 as (Ht & Hf & _). rewrite (E ix) in Hf; [discriminate |]. rewrite L1, <- T1. apply nth_error_Some. rewrite Ht. discriminate. }
  rewrite Hb. apply (IH tr1 st1 E0 w0 ix t R1 G1 S1).
Qed.
End Run.
