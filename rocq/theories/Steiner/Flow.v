(** A run of the search: how it starts, its steps and how it ends. *)
From Coq Require Import QArith NArith List Bool Arith Lia.
From Verif.Steiner Require Import Model Spec Facts Invariant Subtree.
Import ListNotations.
Local Open Scope nat_scope.
Local Open Scope list_scope.

Definition unmarked (g : graph) (marked : list nat) : nat := List.length (filter (fun e => negb (mem e marked)) (ids g)).

Lemma filter_length_lt : forall (A : Type) (P Q : A -> bool) l a, (forall x, Q x = true -> P x = true) ->
  In a l -> P a = true -> Q a = false -> List.length (filter Q l) < List.length (filter P l).
Proof.
  intros A P Q l a HPQ Hin HP HQ. 
  assert (Hle : forall m, List.length (filter Q m) <= List.length (filter P m)).
  { induction m as [| x m IH]; [apply Nat.le_refl |]. cbn [filter]. destruct (Q x) eqn:E; [rewrite (HPQ x E); cbn [List.length]; lia |].
    destruct (P x); cbn [List.length]; lia. }
  induction l as [| x l IH]; [destruct Hin |]. cbn [filter]. destruct Hin as [-> | Hin].
  - rewrite HP, HQ. cbn [List.length]. specialize (Hle l). lia.
  - specialize (IH Hin). destruct (Q x) eqn:E; [rewrite (HPQ x E); cbn [List.length]; lia |]. destruct (P x); cbn [List.length]; lia.
Qed.
Lemma unmarked_insert : forall g marked e, e < List.length g -> ~ In e marked -> unmarked g (insert e marked) < unmarked g marked.
Proof.
  intros g marked e Hl Hn. unfold unmarked. apply filter_length_lt with (a := e).
  - intros x Hx. apply negb_true_iff in Hx. apply negb_true_iff. apply mem_not_In in Hx. apply mem_not_In.
    intro H. apply Hx. apply insert_In. right. exact H.
  - apply ids_In. exact Hl.
  - apply negb_true_iff, mem_not_In. exact Hn.
  - apply negb_false_iff, mem_In, insert_In. left. reflexivity.
Qed.
Lemma unmarked_le : forall g marked, unmarked g marked <= List.length g.
Proof.
  intros g marked. unfold unmarked. assert (H : List.length (ids g) = List.length g) by (unfold ids; rewrite rev_length, seq_length; reflexivity).
  rewrite <- H. clear H. induction (ids g) as [| e l IH]; [apply Nat.le_refl |]. cbn [filter]. destruct (negb (mem e marked)); cbn [List.length]; lia.
Qed.

Section Flow.
Variable g : graph.
Variable terminals : list nat.
Variable act : nat -> nat -> Prop.
Variable tree0 : list nat.
Hypothesis act_terminals : forall ix t, act ix t -> nth_error terminals ix = Some t.
Hypothesis n_small : (N.of_nat (List.length terminals) < 65536)%N.

(** No water has reached the tree yet. *)
Definition Dry (tr : tree) (st : flac) : Prop :=
  (forall ix t, act ix t -> bget (f_root_feeding st) ix = false) /\
  (forall e, In e (f_marked st) -> ~ In (dst g e) (t_nodes tr) ->
     ~ In (src g e) (t_nodes tr) /\ (next g st (src g e) = None \/ (0 < f_rates st (src g e))%N)).

(** What is known of the tree when the run ends. *)
Definition Waiting (tr : tree) (st : flac) : Prop :=
  forall ix t, act ix t -> bget (f_root_feeding st) ix = false -> ~ In t (t_nodes tr).
Definition Reached (tr : tree) : Prop := forall x, In x (t_nodes tr) -> reachable_from g tree0 x.
Definition Newly (root0 : bits) (st : flac) : Prop :=
  forall ix, bget (f_root_feeding st) ix = true -> bget root0 ix = true \/ exists t, act ix t /\ ~ In t tree0.

Definition after_pop (st : flac) (e : nat) (t : Q) : flac :=
  {| f_saturated := f_saturated st; f_marked := f_marked st; f_root_feeding := f_root_feeding st;
     f_feeding := f_feeding st; f_rates := f_rates st; f_time := t;
     f_heap := filter (fun x => negb (fst x =? e)) (f_heap st) |}.

Definition exactly (tr : tree) (st : flac) (e : nat) (t : Q) : control * flac :=
  if mem (dst g e) (t_nodes tr) then (Continue, popped st e t)
  else if mem (src g e) (t_nodes tr) then
    if bdisjoint (f_root_feeding st) (f_feeding st (dst g e)) then (FoundSubtree (dst g e), joined g (popped st e t) e)
    else (Break, popped st e t)
  else if existsb (fun x => negb (bdisjoint (f_feeding st (dst g e)) (f_feeding st x)))
                  (above g (f_saturated st) (S (List.length g)) (src g e))
  then (Continue, schedule_next g e (dst g e) (popped st e t))
  else (Continue, schedule_next g e (dst g e) (fed g (popped st e t) e)).
Lemma update_exactly : forall tr st e t, update_flow_rates g tr (after_pop st e t) e = exactly tr st e t.
Proof. intros tr st e t. reflexivity. Qed.

Lemma weaken_exc : forall (exc exc' : nat -> Prop) tr st, (forall x, exc x -> exc' x) ->
  Inv g terminals act tree0 exc tr st -> Inv g terminals act tree0 exc' tr st.
Proof.
  intros exc exc' tr st H [B1 B2 B3 B4 B5 B6 B7 B8 B9 B10 B11 B12 B13 B14 B15]. constructor; try assumption.
  intros x e Hx. apply B4. intro Hx'. apply Hx. apply H. exact Hx'.
Qed.

Lemma schedule_same : forall e v st, f_marked (schedule_next g e v st) = f_marked st /\ f_rates (schedule_next g e v st) = f_rates st /\
  f_root_feeding (schedule_next g e v st) = f_root_feeding st /\ f_saturated (schedule_next g e v st) = f_saturated st.
Proof. intros e v st. unfold schedule_next. destruct (next g st v); do 3 (split; [reflexivity |]); reflexivity. Qed.

Lemma marking_closes : forall marked e x, find_next g marked x = None -> find_next g (insert e marked) x = None.
Proof.
  intros marked e x H. destruct (find_next g (insert e marked) x) eqn:E; [| reflexivity]. exfalso.
  apply (find_next_marked g marked e x); [rewrite E; discriminate | exact H].
Qed.

Lemma step : forall E0 w0 tr st e t c st', Inv g terminals act tree0 (fun _ => False) tr st -> Grown g E0 w0 tr ->
  In e (keys (f_heap st)) -> exactly tr st e t = (c, st') ->
  f_marked st' = insert e (f_marked st) /\ e < List.length g /\ ~ In e (f_marked st) /\
  match c with
  | Continue => Inv g terminals act tree0 (fun _ => False) tr st' /\ f_root_feeding st' = f_root_feeding st /\
                (Dry tr st -> Dry tr st')
  | Break => Inv g terminals act tree0 (fun _ => True) tr st' /\ f_root_feeding st' = f_root_feeding st /\ ~ Dry tr st
  | FoundSubtree v =>
      let tr' := add_subtree g (f_saturated st') e v tr in
      Inv g terminals act tree0 (fun _ => False) tr' st' /\ Grown g E0 w0 tr' /\
      (forall root, Arbo g root tr -> Arbo g root tr') /\ t_terminals tr' = t_terminals tr /\
      (forall x, In x (t_nodes tr) -> In x (t_nodes tr')) /\
      (forall ix, bget (f_root_feeding st) ix = true -> bget (f_root_feeding st') ix = true) /\
      (exists ix, bget (f_root_feeding st') ix = true /\ bget (f_root_feeding st) ix = false) /\
      (Waiting tr st -> Waiting tr' st') /\ (Reached tr -> Reached tr') /\
      (forall root0, Newly root0 st -> Newly root0 st')
  end.
Proof.
  intros E0 w0 tr st e t c st' B G Hin Hex.
  destruct (popped_inv g terminals act tree0 tr st e t B Hin) as (Bp & Hgood & Hrate & Hlen & Hnm).
  assert (Hlight : (weight g e < weight_max)%N).
  { destruct (i_heap _ _ _ _ _ _ _ B e Hin) as [Hn _]. apply find_next_some in Hn as (_ & _ & _ & Hw & _). exact Hw. }
  unfold exactly in Hex.
  destruct (mem (dst g e) (t_nodes tr)) eqn:Ev.
  { apply mem_In in Ev. injection Hex as <- <-. split; [reflexivity |]. split; [exact Hlen |]. split; [exact Hnm |]. split; [| split; [reflexivity |]].
    - destruct Bp as [B1 B2 B3 B4 B5 B6 B7 B8 B9 B10 B11 B12 B13 B14 B15]. constructor; try assumption.
      intros x e' _ Hn Hr Hx. apply (B4 x e'); [| exact Hn | exact Hr | exact Hx]. intros <-. contradiction.
    - intros [D1 D2]. split; [exact D1 |]. intros e' He' Hd. cbn [popped f_marked] in He' |- *.
      apply insert_In in He' as [-> | He']; [contradiction |]. destruct (D2 e' He' Hd) as [H1 H2]. split; [exact H1 |].
      destruct H2 as [H2 | H2]; [left; apply marking_closes; exact H2 | right; exact H2]. }
  apply mem_not_In in Ev.
  destruct (mem (src g e) (t_nodes tr)) eqn:Eu.
  { apply mem_In in Eu. destruct (bdisjoint (f_root_feeding st) (f_feeding st (dst g e))) eqn:Ed.
    - injection Hex as <- <-. split; [reflexivity |]. split; [exact Hlen |]. split; [exact Hnm |].
      assert (Hdst : forall e', In e' (t_edges tr) -> In (dst g e') (t_nodes tr)) by apply (gr_dst _ _ _ _ G).
      destruct (grown_facts g terminals act tree0 tr (popped st e t) e Bp Hgood Hlen Hlight Ev Ed Hdst) as (_ & _ & _ & Hn & Ht).
      change (add_subtree g (f_saturated (joined g (popped st e t) e)) e (dst g e) tr) with (grown g tr (popped st e t) e).
      cbn zeta.
      split; [apply (grown_inv g terminals act tree0 act_terminals tr (popped st e t) e Bp Hgood Hlen Hlight Ev Ed Hdst) |].
      split; [apply (grown_grown g terminals act tree0 tr (popped st e t) e Bp Hgood Hlen Hlight Ev Ed E0 w0 G) |].
      split; [intros root A; apply (grown_arbo g terminals act tree0 tr (popped st e t) e Bp Hgood Hlen Hlight Eu Ev Ed root A) |].
      split; [exact Ht |]. split; [intros x Hx; apply Hn; left; exact Hx |].
      assert (Er : forall ix, bget (f_root_feeding (joined g (popped st e t) e)) ix = bget (f_root_feeding st) ix || bget (f_feeding st (dst g e)) ix).
      { intro ix. cbn [joined f_root_feeding popped f_feeding]. apply bget_bunion. }
      split; [intros ix Hix; rewrite Er, Hix; reflexivity |]. split.
      { destruct (v_feeds g terminals act n_small (popped st e t) e Hgood Hrate Hlen) as (ix & Hix). cbn [popped f_feeding] in Hix. exists ix.
        rewrite Er, Hix, orb_true_r. split; [reflexivity |]. destruct (bget (f_root_feeding st) ix) eqn:E; [| reflexivity].
        exfalso. apply (proj1 (bdisjoint_spec _ _) Ed ix E Hix). }
      split; [| split].
      + intros W ix t' Ha Hr Hx. rewrite Er in Hr. apply orb_false_iff in Hr as [Hr1 Hr2].
        apply Hn in Hx as [Hx | (p & Hp)]; [apply (W ix t' Ha Hr1 Hx) |].
        assert (Hf : bget (f_feeding st (dst g e)) ix = true) by (apply (proj1 Hgood); exists t', p; split; assumption).
        rewrite Hr2 in Hf. discriminate.
      + intros R x Hx. apply Hn in Hx as [Hx | (p & Hp)]; [apply R; exact Hx |].
        destruct (R _ Eu) as (y & q & Hy & Hq). exists y, (q ++ e :: p). split; [exact Hy |].
        eapply path_app; [exact Hq |]. apply path_cons'; [exact Hlen | exists (nth e g no_edge); split; [apply lookup; exact Hlen | exact Hlight] |].
        revert Hp. apply path_weaken. intros e' _ He'. destruct (i_marked _ _ _ _ _ _ _ Bp e' (i_sat_marked _ _ _ _ _ _ _ Bp e' He')) as [Hl' Hw'].
        exists (nth e' g no_edge). split; [apply lookup; exact Hl' | exact Hw'].
      + intros root0 Nw ix Hix. rewrite Er in Hix. apply orb_true_iff in Hix as [Hix | Hix]; [apply Nw; exact Hix |].
        right. destruct (proj1 (proj1 Hgood ix) Hix) as (t' & p & Ha & Hp). exists t'. split; [exact Ha |].
        destruct p as [| e' p _] using rev_ind.
        * apply path_inv in Hp as <-. intro H. apply Ev. apply (i_tree0 _ _ _ _ _ _ _ B). exact H.
        * apply path_last in Hp as (_ & He' & _ & ->). apply (i_new _ _ _ _ _ _ _ Bp e' He').
    - injection Hex as <- <-. split; [reflexivity |]. split; [exact Hlen |]. split; [exact Hnm |].
      split; [revert Bp; apply weaken_exc; intros x _; exact Logic.I |]. split; [reflexivity |].
      intros [D1 _]. apply bdisjoint_false in Ed as (ix & H1 & H2).
      destruct (i_sound _ _ _ _ _ _ _ B _ _ H2) as (t' & p & Ha & _). rewrite (D1 ix t' Ha) in H1. discriminate. }
  apply mem_not_In in Eu.
  assert (Hmk : In e (f_marked (popped st e t))) by (apply insert_In; left; reflexivity).
  destruct (existsb (fun x => negb (bdisjoint (f_feeding st (dst g e)) (f_feeding st x)))
                    (above g (f_saturated st) (S (List.length g)) (src g e))) eqn:Edeg.
  - injection Hex as <- <-. destruct (schedule_same e (dst g e) (popped st e t)) as (S1 & S2 & S3 & S4).
    split; [rewrite S1; reflexivity |]. split; [exact Hlen |]. split; [exact Hnm |].
    split; [apply schedule_inv; assumption |]. split; [rewrite S3; reflexivity |].
    intros [D1 D2]. split; [rewrite S3; exact D1 |]. rewrite S1, S2. cbn [popped f_marked f_rates].
    intros e' He' Hd. apply insert_In in He' as [-> | He'].
    + split; [exact Eu |]. destruct (find_next g (insert e (f_marked st)) (src g e)) as [e'' |] eqn:En; [| left; reflexivity]. right.
      assert (Hg : good g act (popped st e t) (src g e)).
      { apply (i_good _ _ _ _ _ _ _ Bp). cbn [popped f_marked]. rewrite En. discriminate. }
      destruct Hg as (G1 & _ & G3 & _). apply G3.
      apply existsb_exists in Edeg as (x & Hx & Hov). apply negb_true_iff, bdisjoint_false in Hov as (ix & _ & H2).
      apply above_In in Hx as (p & Hp & _). destruct p as [| e3 p _] using rev_ind.
      * apply path_inv in Hp as ->. apply count_pos with (i := ix). exact H2.
      * apply path_last in Hp as (_ & He3 & _ & Ed3). destruct (i_useful _ _ _ _ _ _ _ Bp e3 He3) as (ix' & t' & q & Ha & Hq).
        rewrite <- Ed3 in Hq. apply count_pos with (i := ix'). apply G1. exists t', q. split; assumption.
    + destruct (D2 e' He' Hd) as [H1 H2]. split; [exact H1 |].
      destruct H2 as [H2 | H2]; [left; apply marking_closes; exact H2 | right; exact H2].
  - injection Hex as <- <-. destruct (schedule_same e (dst g e) (fed g (popped st e t) e)) as (S1 & S2 & S3 & S4).
    destruct (fed_facts g terminals act tree0 n_small tr (popped st e t) e Bp Hgood Hrate Hlen Edeg) as (F1 & F2 & F3 & F4 & F5 & F6).
    destruct (fed_inv g terminals act tree0 n_small tr (popped st e t) e Bp Hgood Hrate Hlen Hmk Eu Ev Edeg) as [Bf Hrf].
    split; [rewrite S1, F2; reflexivity |]. split; [exact Hlen |]. split; [exact Hnm |].
    split; [apply schedule_inv; assumption |]. split; [rewrite S3, F3; reflexivity |].
    intros [D1 D2]. split; [rewrite S3, F3; exact D1 |]. rewrite S1, S2, F2. cbn [popped f_marked].
    intros e' He' Hd. apply insert_In in He' as [-> | He'].
    + split; [exact Eu |]. destruct (find_next g (insert e (f_marked st)) (src g e)) as [e'' |] eqn:En; [| left; reflexivity]. right.
      assert (Hn : next g (popped st e t) (src g e) <> None) by (cbn [popped f_marked]; rewrite En; discriminate).
      rewrite (proj2 (F4 (src g e) (ex_intro _ [] (path_nil _ _ _)) Hn)). lia.
    + destruct (D2 e' He' Hd) as [H1 H2]. split; [exact H1 |].
      destruct H2 as [H2 | H2]; [left; apply marking_closes; exact H2 |].
      destruct (find_next g (insert e (f_marked st)) (src g e')) as [e'' |] eqn:En; [| left; reflexivity]. right.
      destruct (in_dec Nat.eq_dec (src g e') (above g (f_saturated st) (S (List.length g)) (src g e))) as [Hab | Hab].
      * assert (Hn : next g (popped st e t) (src g e') <> None) by (cbn [popped f_marked]; rewrite En; discriminate).
        rewrite (proj2 (F4 (src g e') (proj1 (above_iff g terminals act tree0 n_small tr (popped st e t) e Bp Hrate Hlen _) Hab) Hn)). cbn [popped f_rates]. lia.
      * assert (Hq : ~ ((exists p, sat_path g (popped st e t) (src g e') p (src g e)) /\ next g (popped st e t) (src g e') <> None)).
        { intros [Hp _]. apply Hab. apply (above_iff g terminals act tree0 n_small tr (popped st e t) e Bp Hrate Hlen). exact Hp. }
        rewrite (proj2 (F5 _ Hq)). exact H2.
Qed.

Section Pop.
Variable pop : list (nat * Q) -> option (nat * Q).
Hypothesis Hpop : pops_an_entry pop.

Lemma flow_spec : forall fuel E0 w0 tr st, Inv g terminals act tree0 (fun _ => False) tr st -> Grown g E0 w0 tr ->
  unmarked g (f_marked st) < fuel ->
  exists tr' st', flow pop g fuel tr st = Done (tr', st') /\ Inv g terminals act tree0 (fun _ => True) tr' st' /\ Grown g E0 w0 tr' /\
    (forall root, Arbo g root tr -> Arbo g root tr') /\ t_terminals tr' = t_terminals tr /\
    (forall x, In x (t_nodes tr) -> In x (t_nodes tr')) /\
    (forall ix, bget (f_root_feeding st) ix = true -> bget (f_root_feeding st') ix = true) /\
    (Waiting tr st -> Waiting tr' st') /\ (Reached tr -> Reached tr') /\
    (forall root0, Newly root0 st -> Newly root0 st') /\
    (Dry tr st -> (exists ix, bget (f_root_feeding st') ix = true /\ bget (f_root_feeding st) ix = false) \/
                  (tr' = tr /\ Dry tr st' /\ Inv g terminals act tree0 (fun _ => False) tr st' /\ f_heap st' = [])).
Proof.
  induction fuel as [| fuel IH]; intros E0 w0 tr st B G Hf; [lia |]. cbn [flow].
  destruct (pop (f_heap st)) as [[e t] |] eqn:Ep.
  - assert (Hin : In e (keys (f_heap st))).
    { apply (proj1 Hpop) in Ep. apply (in_map fst) in Ep. exact Ep. }
    fold (after_pop st e t). rewrite update_exactly. destruct (exactly tr st e t) as [c st1] eqn:Ex.
    destruct (step E0 w0 tr st e t c st1 B G Hin Ex) as (Hm & Hlen & Hnm & Hc).
    assert (Hf1 : unmarked g (f_marked st1) < fuel).
    { rewrite Hm. assert (H := unmarked_insert g (f_marked st) e Hlen Hnm). lia. }
    destruct c as [| | v].
    + destruct Hc as (B1 & Er & Hd). destruct (IH E0 w0 tr st1 B1 G Hf1) as (tr' & st' & H1 & H2 & H3 & H4 & H5 & H6 & H7 & H8 & H9 & H10 & H11).
      exists tr', st'. unfold Waiting, Newly in *. rewrite Er in *.
      split; [exact H1 |]. split; [exact H2 |]. split; [exact H3 |]. split; [exact H4 |]. split; [exact H5 |]. split; [exact H6 |].
      split; [exact H7 |]. split; [exact H8 |]. split; [exact H9 |]. split; [exact H10 |].
      intro D. apply H11. apply Hd. exact D.
    + destruct Hc as (B1 & Er & Hd). exists tr, st1. unfold Waiting, Newly in *. rewrite Er in *.
      split; [reflexivity |]. split; [exact B1 |]. split; [exact G |]. split; [intros root A; exact A |]. split; [reflexivity |].
      split; [intros x Hx; exact Hx |]. split; [intros ix Hx; exact Hx |]. split; [intro W; exact W |]. split; [intro R; exact R |].
      split; [intros root0 Nw; exact Nw |]. intro D. contradiction.
    + cbn zeta in Hc. destruct Hc as (B1 & G1 & A1 & T1 & N1 & R1 & P1 & W1 & C1 & Z1).
      destruct (IH E0 w0 _ st1 B1 G1 Hf1) as (tr' & st' & H1 & H2 & H3 & H4 & H5 & H6 & H7 & H8 & H9 & H10 & _).
      exists tr', st'. split; [exact H1 |]. split; [exact H2 |]. split; [exact H3 |]. split; [intros root A; apply H4, A1, A |].
      split; [rewrite H5; exact T1 |]. split; [intros x Hx; apply H6, N1, Hx |]. split; [intros ix Hx; apply H7, R1, Hx |].
      split; [intro W; apply H8, W1, W |]. split; [intro R; apply H9, C1, R |]. split; [intros root0 Nw; apply H10, Z1, Nw |].
      intros _. left. destruct P1 as (ix & P1 & P2). exists ix. split; [apply H7; exact P1 | exact P2].
  - apply (proj2 Hpop) in Ep. exists tr, st. split; [reflexivity |]. split; [revert B; apply weaken_exc; intros x []; fail |].
    split; [exact G |]. split; [intros root A; exact A |]. split; [reflexivity |].
    split; [intros x Hx; exact Hx |]. split; [intros ix Hx; exact Hx |]. split; [intro W; exact W |]. split; [intro R; exact R |].
    split; [intros root0 Nw; exact Nw |]. intro D. right. split; [reflexivity |]. split; [exact D |]. split; [exact B | exact Ep].
Qed.
End Pop.

(** Where no water reached the tree, no terminal water flows from could be reached. *)
Lemma dry_end : forall tr st, Inv g terminals act tree0 (fun _ => False) tr st -> Dry tr st -> f_heap st = [] ->
  forall t x p, (next g st t = None \/ (0 < f_rates st t)%N) -> ~ In t (t_nodes tr) -> path g (light g) x p t -> ~ In x (t_nodes tr).
Proof.
  intros tr st B [_ D] Hh t x p Ht Hnt Hp.
  assert (Hclosed : forall y, (next g st y = None \/ (0 < f_rates st y)%N) -> ~ In y (t_nodes tr) -> next g st y = None).
  { intros y [Hy | Hy] Hny; [exact Hy |]. destruct (next g st y) as [e |] eqn:En; [| reflexivity].
    exfalso. assert (H := i_flow _ _ _ _ _ _ _ B y e (fun f => f) En Hy Hny). rewrite Hh in H. destruct H. }
  revert t Ht Hnt Hp. induction p as [| e p IH] using rev_ind; intros t Ht Hnt Hp.
  - apply path_inv in Hp as ->. exact Hnt.
  - apply path_last in Hp as (Hl & (ed & He & Hw) & Hp & ->).
    assert (Hm : In e (f_marked st)).
    { apply (find_next_none g (f_marked st) (dst g e)); [apply Hclosed; assumption | exact Hl | reflexivity |].
      destruct (lookup_src _ _ _ He) as (_ & _ & ->). exact Hw. }
    destruct (D e Hm Hnt) as [Hns Hs]. apply (IH (src g e) Hs Hns Hp).
Qed.
End Flow.
