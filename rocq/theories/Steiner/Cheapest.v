(** C75: with one terminal the search takes a way of the least weight. *)
From Coq Require Import QArith NArith List Bool Arith Lia Lqa Permutation.
From Verif.Steiner Require Import Model Spec Facts Invariant Subtree Flow Run TreeProps.
Import ListNotations.
Local Open Scope nat_scope.
Local Open Scope list_scope.

(** The entry that is popped has the least time. *)
Definition pops_least (pop : list (nat * Q) -> option (nat * Q)) : Prop :=
  pops_an_entry pop /\ forall h e q e' q', pop h = Some (e, q) -> In (e', q') h -> (q <= q')%Q.

Lemma Q_of_add : forall a b, (Q_of (a + b) == Q_of a + Q_of b)%Q.
Proof. intros a b. unfold Q_of. rewrite N2Z.inj_add, inject_Z_plus. reflexivity. Qed.
Lemma Q_of_le : forall a b, (Q_of a <= Q_of b)%Q <-> (a <= b)%N.
Proof. intros a b. unfold Q_of. rewrite <- Zle_Qle, N2Z.inj_le. reflexivity. Qed.
Lemma Q_of_sub : forall a b, (b <= a)%N -> (Q_of (a - b) == Q_of a - Q_of b)%Q.
Proof. intros a b H. assert (E : a = ((a - b) + b)%N) by lia. rewrite E at 2. rewrite Q_of_add. lra. Qed.
Lemma Q_of_nonneg : forall a, (0 <= Q_of a)%Q.
Proof. intro a. unfold Q_of. change 0%Q with (inject_Z 0). rewrite <- Zle_Qle. lia. Qed.
Lemma sum_weights_In : forall g l e, In e l -> e < List.length g -> (weight g e <= sum_weights g l)%N.
Proof.
  intros g l e. induction l as [| x l IH]; intros Hin Hl; [destruct Hin |]. cbn [sum_weights].
  destruct Hin as [-> | Hin]; [rewrite weight_lookup by exact Hl; lia | specialize (IH Hin Hl); lia].
Qed.
Lemma sum_weights_perm : forall g l m, Permutation l m -> sum_weights g l = sum_weights g m.
Proof. intros g l m H. induction H; cbn [sum_weights]; lia. Qed.

Section Cheapest.
Variable g : graph.
Variable t : nat.
Variable act : nat -> nat -> Prop.
Variable tree0 : list nat.
Hypothesis act_only : forall ix x, act ix x -> ix = 0 /\ x = t.
Hypothesis act_t : act 0 t.

Lemma act_terminals : forall ix x, act ix x -> nth_error [t] ix = Some x.
Proof. intros ix x H. apply act_only in H as [-> ->]. reflexivity. Qed.
Lemma one_small : (N.of_nat (List.length [t]) < 65536)%N.
Proof. vm_compute. reflexivity. Qed.

(** The distances to [t] of the nodes water has reached. *)
Record Dist (d : nat -> Q) (tr : tree) (st : flac) : Prop := {
  k_t : (0 < f_rates st t)%N /\ (d t == 0)%Q;
  k_rate : forall x, (f_rates st x <= 1)%N;
  k_feed : forall x, (0 < f_rates st x)%N -> bget (f_feeding st x) 0 = true;
  k_out : forall x, (0 < f_rates st x)%N -> ~ In x (t_nodes tr);
  k_marked : forall e, In e (f_marked st) ->
               (0 < f_rates st (dst g e))%N /\ ((0 < f_rates st (src g e))%N -> (d (src g e) <= d (dst g e) + Q_of (weight g e))%Q);
  k_sat : forall e, In e (f_saturated st) -> (0 < f_rates st (src g e))%N -> (d (src g e) == d (dst g e) + Q_of (weight g e))%Q;
  k_heap : forall e q, In (e, q) (f_heap st) -> (q == d (dst g e) + Q_of (weight g e))%Q /\ (f_time st <= q)%Q;
  k_time : forall x, (0 < f_rates st x)%N -> (d x <= f_time st)%Q }.

Notation INV := (Inv g [t] act tree0).

(** No way from the tree is shorter than the least of the times. *)
Lemma lower_bound : forall d tr st q, INV (fun _ => False) tr st -> Dry g act tr st -> Dist d tr st ->
  (forall e' q', In (e', q') (f_heap st) -> (q <= q')%Q) ->
  forall p b y, (0 < f_rates st b)%N -> In y (t_nodes tr) -> path g (light g) y p b -> (q <= d b + Q_of (sum_weights g p))%Q.
Proof.
  intros d tr st q B D K Hq p. induction p as [| f p IH] using rev_ind; intros b y Hb Hy Hp.
  - apply path_inv in Hp as ->. exfalso. apply (k_out _ _ _ K b Hb Hy).
  - apply path_last in Hp as (Hl & (ed & He & Hw) & Hp & ->). destruct (lookup_src _ _ _ He) as (_ & _ & Hwe).
    assert (Hsum : (Q_of (sum_weights g (p ++ [f])) == Q_of (sum_weights g p) + Q_of (weight g f))%Q).
    { rewrite sum_weights_app. cbn [sum_weights]. rewrite weight_lookup by exact Hl. rewrite N.add_0_r. apply Q_of_add. }
    rewrite Hsum. clear Hsum.
    assert (Hnn := Q_of_nonneg (sum_weights g p)).
    destruct (in_dec Nat.eq_dec f (f_marked st)) as [Hm | Hm].
    + assert (Hra : (0 < f_rates st (src g f))%N).
      { destruct (proj2 D f Hm (k_out _ _ _ K _ Hb)) as [Hns [Hno | Hr]]; [| exact Hr].
        destruct p as [| f' p' _] using rev_ind; [apply path_inv in Hp; subst y; contradiction |].
        apply path_last in Hp as (Hl' & (ed' & He' & Hw') & _ & Ed). destruct (lookup_src _ _ _ He') as (_ & _ & Hwe').
        assert (Hm' : In f' (f_marked st)).
        { apply (find_next_none g (f_marked st) (src g f) Hno); [exact Hl' | symmetry; exact Ed | rewrite Hwe'; exact Hw']. }
        rewrite Ed. apply (k_marked _ _ _ K f' Hm'). }
      assert (Hd := proj2 (k_marked _ _ _ K f Hm) Hra). assert (Hi := IH (src g f) y Hra Hy Hp). lra.
    + destruct (find_next g (f_marked st) (dst g f)) as [e' |] eqn:En.
      * assert (Hk : In e' (keys (f_heap st))) by (apply (i_flow _ _ _ _ _ _ _ B (dst g f) e' (fun x => x) En Hb (k_out _ _ _ K _ Hb))).
        apply in_map_iff in Hk as ([e'' q'] & Ee & Hin). cbn [fst] in Ee. subst e''.
        destruct (find_next_some _ _ _ _ En) as (_ & Hd & _ & _ & Hmin). assert (Hle := Hmin f Hl eq_refl Hm). apply Q_of_le in Hle.
        destruct (k_heap _ _ _ K e' q' Hin) as [Heq _]. rewrite Hd in Heq. specialize (Hq e' q' Hin). lra.
      * exfalso. apply Hm. apply (find_next_none g (f_marked st) (dst g f) En f Hl eq_refl). rewrite Hwe. exact Hw.
Qed.

(** The way along saturated edges has the weight of the distance. *)
Lemma sat_distance : forall d tr st, INV (fun _ => False) tr st -> Dist d tr st ->
  forall x p, sat_path g st x p t -> (0 < f_rates st x)%N -> (d x == Q_of (sum_weights g p))%Q.
Proof.
  intros d tr st B K x p Hp. refine ((fun H : forall y, sat_path g st x p y -> y = t -> (0 < f_rates st x)%N -> (d x == Q_of (sum_weights g p))%Q =>
    H t Hp eq_refl) _). clear Hp. intros y Hp Ey. induction Hp as [x | e ed p y He HP Hp IH]; intro Hr.
  - subst x. rewrite (proj2 (k_t _ _ _ K)). reflexivity.
  - destruct (lookup_src _ _ _ He) as (Es & Ed & Ew). cbn [sum_weights]. rewrite He. rewrite Q_of_add.
    rewrite <- Es in Hr |- *. rewrite (k_sat _ _ _ K e HP Hr).
    assert (Hd := proj1 (k_marked _ _ _ K e (i_sat_marked _ _ _ _ _ _ _ B e HP))). rewrite Ed in Hd |- *. rewrite (IH Ey Hd), Ew. ring.
Qed.

(** ** Steps before water reaches the tree *)
Section Step.
Variables (d : nat -> Q) (tr : tree) (st : flac) (e : nat) (q : Q).
Hypothesis B : INV (fun _ => False) tr st.
Hypothesis D : Dry g act tr st.
Hypothesis K : Dist d tr st.
Hypothesis Hin : In (e, q) (f_heap st).
Hypothesis Hleast : forall e' q', In (e', q') (f_heap st) -> (q <= q')%Q.
Let u := src g e.
Let v := dst g e.

Lemma in_keys : In e (keys (f_heap st)).
Proof. apply (in_map fst) in Hin. exact Hin. Qed.
Lemma q_is : (q == d v + Q_of (weight g e))%Q /\ (f_time st <= q)%Q.
Proof. apply (k_heap _ _ _ K e q Hin). Qed.
Lemma v_flows : find_next g (f_marked st) v = Some e /\ (0 < f_rates st v)%N.
Proof. apply (i_heap _ _ _ _ _ _ _ B e in_keys). Qed.
Lemma rate_one : forall x, (0 < f_rates st x)%N -> f_rates st x = 1%N.
Proof. intros x H. assert (H' := k_rate _ _ _ K x). lia. Qed.

Lemma popped_dist : ((0 < f_rates st u)%N \/ f_rates st u = 0%N) -> (* either way *)
  Dist d tr (popped st e q).
Proof.
  intros _. destruct q_is as [Hq1 Hq2]. destruct v_flows as [Hn Hr]. pose proof K as K'. destruct K' as [K1 K2 K3 K4 K5 K6 K7 K8].
  constructor; cbn [popped f_saturated f_marked f_root_feeding f_feeding f_rates f_time f_heap]; try assumption.
  - intros e' He'. apply insert_In in He' as [-> | He']; [| apply K5; exact He']. split; [exact Hr |]. intro Hu.
    assert (H := K8 _ Hu). fold v. lra.
  - intros e' q' He'. apply filter_In in He' as [He' _]. split; [apply (K7 e' q' He') | apply (Hleast e' q' He')].
  - intros x Hx. assert (H := K8 x Hx). lra.
Qed.

(** Scheduling, once the popped edge is marked. *)
Lemma schedule_dist : forall d' st', Dist d' tr st' -> f_marked st' = insert e (f_marked st) -> f_time st' = q -> f_rates st' v = 1%N ->
  (d' v == d v)%Q -> Dist d' tr (schedule_next g e v st').
Proof.
  intros d' st' K' Em Et Er Ed. destruct q_is as [Hq1 Hq2]. destruct v_flows as [Hn Hr]. unfold schedule_next.
  destruct (next g st' v) as [e' |] eqn:En; [| exact K'].
  rewrite Em in En. destruct (find_next_some _ _ _ _ En) as (Hl' & Hd' & Hm' & _ & _).
  destruct (find_next_some _ _ _ _ Hn) as (Hl & Hd & Hm & _ & Hmin).
  assert (Hle : (weight g e <= weight g e')%N).
  { apply Hmin; [exact Hl' | exact Hd' |]. intro H. apply Hm'. apply insert_In. right. exact H. }
  destruct K' as [K1 K2 K3 K4 K5 K6 K7 K8].
  constructor; cbn [with_heap f_saturated f_marked f_root_feeding f_feeding f_rates f_time f_heap]; try assumption.
  intros e2 q2 H2. unfold heap_push in H2. destruct H2 as [E | H2].
  - injection E as <- <-. rewrite Hd', Ed, Et, Er. assert (Hs := Q_of_sub _ _ Hle). assert (Hnn := Q_of_nonneg (weight g e' - weight g e)).
    change (Q_of 1) with 1%Q. split; [rewrite Hs | ]; unfold Qdiv; change (/ 1)%Q with 1%Q; [| revert Hnn]; try (intro Hnn); lra.
  - apply filter_In in H2 as [H2 _]. apply (K7 e2 q2 H2).
Qed.

Section NotDegenerate.
Hypothesis Hu : ~ In u (t_nodes tr).
Hypothesis Hdeg : existsb (fun x => negb (bdisjoint (f_feeding st v) (f_feeding st x)))
                          (above g (f_saturated st) (S (List.length g)) u) = false.
Let st1 := popped st e q.

Lemma v_fed : bget (f_feeding st v) 0 = true.
Proof. apply (k_feed _ _ _ K v). apply v_flows. Qed.
Lemma setup : INV (eq (dst g e)) tr st1 /\ good g act st1 (dst g e) /\ (0 < f_rates st1 (dst g e))%N /\ e < List.length g /\ ~ In e (f_marked st).
Proof. apply popped_inv; [exact B | exact in_keys]. Qed.
(** No node above has water. *)
Lemma above_dry : forall x p, sat_path g st x p u -> bget (f_feeding st x) 0 = true -> False.
Proof.
  intros x p Hp Hx. destruct setup as (B1 & G1 & R1 & L1 & _).
  apply (disjoint_above g [t] act tree0 one_small tr st1 e B1 R1 L1 Hdeg x p Hp 0); [exact v_fed | exact Hx].
Qed.
Lemma u_dry : f_rates st u = 0%N.
Proof.
  destruct (N.eq_dec (f_rates st u) 0) as [H | H]; [exact H |]. exfalso. apply (above_dry u [] (path_nil _ _ _)). apply (k_feed _ _ _ K). lia.
Qed.
(** When [u] is open no saturated edge touches it. *)
Lemma u_apart : next g st1 u <> None -> forall e', In e' (f_saturated st) -> src g e' <> u /\ dst g e' <> u.
Proof.
  intros Hn e' He'. destruct setup as (B1 & _). pose proof (i_good _ _ _ _ _ _ _ B1 u Hn) as (G1 & _).
  destruct (i_useful _ _ _ _ _ _ _ B e' He') as (ix & x & p & Ha & Hp). apply act_only in Ha as H0. destruct H0 as [-> ->].
  assert (Hl : e' < List.length g) by (apply (i_marked _ _ _ _ _ _ _ B e'); apply (i_sat_marked _ _ _ _ _ _ _ B); exact He').
  split; intro Eu; apply (above_dry u [] (path_nil _ _ _)); apply G1.
  - exists t, (e' :: p). split; [exact act_t |]. rewrite <- Eu. apply path_cons'; [exact Hl | exact He' | exact Hp].
  - exists t, p. split; [exact act_t |]. rewrite <- Eu. exact Hp.
Qed.
Lemma only_u : forall x p, sat_path g st x p u -> next g st1 x <> None -> x = u.
Proof.
  intros x p Hp Hn. destruct p as [| e' p _] using rev_ind; [apply path_inv in Hp; exact Hp |].
  exfalso. destruct setup as (B1 & _). pose proof (i_good _ _ _ _ _ _ _ B1 x Hn) as (G1 & _).
  assert (Hp' := Hp). apply path_last in Hp' as (_ & He' & _ & Ed).
  destruct (i_useful _ _ _ _ _ _ _ B e' He') as (ix & y & r & Ha & Hr). apply act_only in Ha as H0. destruct H0 as [-> ->].
  apply (above_dry x (p ++ [e']) Hp). apply G1. exists t, ((p ++ [e']) ++ r). split; [exact act_t |].
  eapply path_app; [exact Hp |]. rewrite Ed. exact Hr.
Qed.
Lemma fed_list : next_edges g (f_marked st1) (above g (f_saturated st1) (S (List.length g)) u)
  = match next g st1 u with Some e' => [(u, e')] | None => [] end.
Proof.
  destruct setup as (B1 & G1 & R1 & L1 & _).
  assert (Hnd := fed_ys g [t] act tree0 tr st1 e B1). fold u in Hnd.
  assert (Hall : forall x e', In (x, e') (next_edges g (f_marked st1) (above g (f_saturated st1) (S (List.length g)) u)) <-> x = u /\ next g st1 u = Some e').
  { intros x e'. rewrite next_edges_In. split.
    - intros [Hx Hn]. apply above_In in Hx as (p & Hp & _). assert (x = u) by (apply (only_u x p Hp); rewrite Hn; discriminate). subst x. split; [reflexivity | exact Hn].
    - intros [-> Hn]. split; [| exact Hn]. apply above_In. exists []. split; [constructor | cbn [List.length]; lia]. }
  destruct (next_edges g (f_marked st1) (above g (f_saturated st1) (S (List.length g)) u)) as [| [x e1] l] eqn:El.
  - destruct (next g st1 u) as [e' |]; [| reflexivity]. exfalso. apply (proj2 (Hall u e')). split; reflexivity.
  - assert (H1 := proj1 (Hall x e1) (or_introl eq_refl)). destruct H1 as [-> H1]. rewrite H1. f_equal.
    destruct l as [| [x2 e2] l]; [reflexivity |]. exfalso. assert (H2 := proj1 (Hall x2 e2) (or_intror (or_introl eq_refl))). destruct H2 as [-> _].
    cbn [map fst] in Hnd. apply NoDup_cons_iff in Hnd as [Hx _]. apply Hx. left. reflexivity.
Qed.

Lemma fed_dist : exists d', Dist d' tr (fed g st1 e) /\ f_marked (fed g st1 e) = insert e (f_marked st) /\ f_time (fed g st1 e) = q /\
  f_rates (fed g st1 e) v = 1%N /\ (d' v == d v)%Q.
Proof.
  destruct q_is as [Hq1 Hq2]. destruct v_flows as [Hn Hr]. assert (Hr1 := rate_one v Hr).
  assert (K1 : Dist d tr st1) by (apply popped_dist; right; exact u_dry).
  assert (Huv : v <> u) by (intro E; rewrite E, u_dry in Hr; lia).
  assert (Hfed : fed g st1 e = match next g st1 u with
                               | Some e' => feed g (f_feeding st v) 1%N (saturate st1 e) (u, e')
                               | None => saturate st1 e end).
  { unfold fed. fold u. rewrite fed_list. change (f_feeding st1 (dst g e)) with (f_feeding st v). change (f_rates st1 (dst g e)) with (f_rates st v). rewrite Hr1.
    destruct (next g st1 u); reflexivity. }
  rewrite Hfed. clear Hfed. destruct (next g st1 u) as [e' |] eqn:En.
  - assert (Hap := u_apart ltac:(rewrite En; discriminate)).
    destruct (find_next_some _ _ _ _ En) as (_ & Hde' & Hme' & _).
    assert (Hmsrc : forall f, In f (f_marked st) -> src g f <> u /\ dst g f <> u).
    { intros f Hf. split; intro Ef.
      - assert (Hdf : ~ In (dst g f) (t_nodes tr)) by (apply (k_out _ _ _ K); apply (k_marked _ _ _ K f Hf)).
        destruct (proj2 D f Hf Hdf) as [_ [H | H]].
        + rewrite Ef in H. apply marking_closes with (e := e) in H. unfold st1 in En. cbn [popped f_marked] in En. rewrite En in H. discriminate.
        + rewrite Ef, u_dry in H. lia.
      - assert (H := proj1 (k_marked _ _ _ K f Hf)). rewrite Ef, u_dry in H. lia. }
    exists (upd d u q). split; [| split; [reflexivity | split; [reflexivity | split]]].
    + assert (Hw : wrap (f_rates st u + 1) = 1%N) by (rewrite u_dry; reflexivity).
      assert (Hother : forall x, x <> u -> upd d u q x = d x) by (intros x Hx; unfold upd; apply Nat.eqb_neq in Hx; rewrite Hx; reflexivity).
      assert (Hsame : upd d u q u = q) by (unfold upd; rewrite Nat.eqb_refl; reflexivity).
      destruct K1 as [A1 A2 A3 A4 A5 A6 A7 A8].
      constructor; cbn [feed saturate f_saturated f_marked f_root_feeding f_feeding f_rates f_time f_heap].
      * destruct A1 as [A1 A1']. assert (Htu : t <> u) by (intro E; rewrite E in A1; cbn [st1 popped f_rates] in A1; rewrite u_dry in A1; lia).
        rewrite Hother by exact Htu. unfold upd. apply Nat.eqb_neq in Htu. rewrite Htu. split; assumption.
      * intro x. unfold upd. destruct (x =? u); [change (f_rates st1 u) with (f_rates st u); rewrite Hw; lia | apply A2].
      * intros x Hx. unfold upd in *. destruct (x =? u) eqn:Ex; [| apply A3; exact Hx]. rewrite bget_bunion, v_fed. apply orb_true_r.
      * intros x Hx. unfold upd in Hx. destruct (x =? u) eqn:Ex; [| apply A4; exact Hx]. apply Nat.eqb_eq in Ex. subst x. exact Hu.
      * intros f Hf. cbn [st1 popped f_marked] in Hf. apply insert_In in Hf as [-> | Hf].
        -- fold u v. assert (Evu : (v =? u) = false) by (apply Nat.eqb_neq; exact Huv). unfold upd at 1. rewrite Evu. split; [exact Hr |]. intros _.
           rewrite Hsame, (Hother v Huv). lra.
        -- destruct (Hmsrc f Hf) as [H1 H2]. rewrite (Hother _ H1), (Hother _ H2). unfold upd. apply Nat.eqb_neq in H1. apply Nat.eqb_neq in H2. rewrite H1, H2.
           apply (k_marked _ _ _ K f Hf).
      * intros f Hf. cbn [st1 popped f_saturated] in Hf. apply insert_In in Hf as [-> | Hf].
        -- fold u v. intros _. rewrite Hsame, (Hother v Huv). exact Hq1.
        -- destruct (Hap f Hf) as [H1 H2]. rewrite (Hother _ H1), (Hother _ H2). unfold upd. apply Nat.eqb_neq in H1. rewrite H1. apply (k_sat _ _ _ K f Hf).
      * intros e2 q2 H2. change (f_rates st1 u) with (f_rates st u) in H2. rewrite u_dry in H2. cbn [N.eqb] in H2.
        unfold heap_push in H2. destruct H2 as [E | H2].
        -- injection E as <- <-. rewrite Hde', Hsame. change (Q_of (wrap 1)) with 1%Q. cbn [st1 popped f_time].
           assert (Hnn := Q_of_nonneg (weight g e')). unfold Qdiv. change (/ 1)%Q with 1%Q. split; lra.
        -- apply filter_In in H2 as [H2 _]. assert (H3 := H2). cbn [st1 popped f_heap] in H3. apply filter_In in H3 as [H3 _].
           assert (Hk : In e2 (keys (f_heap st))) by (apply (in_map fst) in H3; exact H3).
           assert (Hne : dst g e2 <> u). { intro E. assert (Hr2 := proj2 (i_heap _ _ _ _ _ _ _ B e2 Hk)). rewrite E, u_dry in Hr2. lia. }
           rewrite (Hother _ Hne). apply (A7 e2 q2 H2).
      * intros x Hx. unfold upd in *. destruct (x =? u) eqn:Ex; [cbn [st1 popped f_time]; lra | apply A8; exact Hx].
    + cbn [feed saturate f_rates st1 popped]. unfold upd. apply Nat.eqb_neq in Huv. rewrite Huv. exact Hr1.
    + unfold upd. apply Nat.eqb_neq in Huv. rewrite Huv. reflexivity.
  - exists d. split; [| split; [reflexivity | split; [reflexivity | split; [exact Hr1 | reflexivity]]]].
    destruct K1 as [A1 A2 A3 A4 A5 A6 A7 A8].
    constructor; cbn [saturate f_saturated f_marked f_root_feeding f_feeding f_rates f_time f_heap]; try assumption.
    intros f Hf. cbn [st1 popped f_saturated] in Hf. apply insert_In in Hf as [-> | Hf]; [| apply A6; exact Hf].
    fold u. intro H. cbn [st1 popped f_rates] in H. rewrite u_dry in H. lia.
Qed.
End NotDegenerate.

Lemma step_dist : forall st', exactly g tr st e q = (Continue, st') -> exists d', Dist d' tr st'.
Proof.
  intros st' Hex. unfold exactly in Hex. destruct (mem (dst g e) (t_nodes tr)) eqn:Ev.
  { exfalso. apply mem_In in Ev. apply (k_out _ _ _ K (dst g e)); [apply v_flows | exact Ev]. }
  destruct (mem (src g e) (t_nodes tr)) eqn:Eu; [destruct (bdisjoint (f_root_feeding st) (f_feeding st (dst g e))); discriminate |].
  apply mem_not_In in Eu.
  assert (Hp : Dist d tr (popped st e q)) by (apply popped_dist; destruct (N.eq_dec (f_rates st u) 0); [right; assumption | left; lia]).
  destruct (existsb (fun x => negb (bdisjoint (f_feeding st (dst g e)) (f_feeding st x)))
                    (above g (f_saturated st) (S (List.length g)) (src g e))) eqn:Edeg; injection Hex as <-.
  - exists d. apply schedule_dist; [exact Hp | reflexivity | reflexivity | | reflexivity]. apply rate_one. apply v_flows.
  - destruct (fed_dist Eu Edeg) as (d' & K' & Em & Et & Er & Ed). exists d'. apply schedule_dist; assumption.
Qed.
End Step.

(** ** The whole run *)
Section Pop.
Variable pop : list (nat * Q) -> option (nat * Q).
Hypothesis Hpop : pops_least pop.

Lemma flow_covered : forall fuel E0 w0 tr st, INV (fun _ => False) tr st -> Grown g E0 w0 tr -> bget (f_root_feeding st) 0 = true ->
  unmarked g (f_marked st) < fuel -> exists st', flow pop g fuel tr st = Done (tr, st').
Proof.
  induction fuel as [| fuel IH]; intros E0 w0 tr st B G Hc Hf; [lia |]. cbn [flow].
  destruct (pop (f_heap st)) as [[e q] |] eqn:Ep; [| exists st; reflexivity].
  assert (Hin : In e (keys (f_heap st))). { apply (proj1 (proj1 Hpop)) in Ep. apply (in_map fst) in Ep. exact Ep. }
  fold (after_pop st e q). rewrite update_exactly. destruct (exactly g tr st e q) as [c st1] eqn:Ex.
  destruct (step g [t] act tree0 act_terminals one_small E0 w0 tr st e q c st1 B G Hin Ex) as (Hm & Hlen & Hnm & Hs).
  assert (Hf1 : unmarked g (f_marked st1) < fuel).
  { rewrite Hm. assert (H := unmarked_insert g (f_marked st) e Hlen Hnm). lia. }
  destruct c as [| | v].
  - destruct Hs as (B1 & Er & _). apply (IH E0 w0 tr st1 B1 G); [rewrite Er; exact Hc | exact Hf1].
  - exists st1. reflexivity.
  - exfalso. cbn zeta in Hs. destruct Hs as (B1 & _ & _ & _ & _ & _ & (ix & H1 & H2) & _).
    apply (i_covered _ _ _ _ _ _ _ B1) in H1 as (x & Hx & _). destruct ix as [| [| ix]]; [rewrite Hc in H2; discriminate | discriminate | discriminate].
Qed.

Definition cheapest (tr tr' : tree) : Prop :=
  exists x p, In x (t_nodes tr) /\ path g (light g) x p t /\
    (exists added, t_edges tr' = added ++ t_edges tr /\ Permutation added p) /\
    t_total tr' = wrap (t_total tr + sum_weights g p) /\
    (forall y, In y (t_nodes tr') <-> In y (t_nodes tr) \/ exists e, In e p /\ y = dst g e) /\
    (forall y r, In y (t_nodes tr) -> path g (light g) y r t -> (sum_weights g p <= sum_weights g r)%N).

Lemma flow_cheapest : forall fuel E0 w0 d tr st, INV (fun _ => False) tr st -> Dry g act tr st -> Dist d tr st -> Grown g E0 w0 tr ->
  unmarked g (f_marked st) < fuel -> reachable_from g (t_nodes tr) t ->
  exists tr' st', flow pop g fuel tr st = Done (tr', st') /\ cheapest tr tr'.
Proof.
  induction fuel as [| fuel IH]; intros E0 w0 d tr st B D K G Hf Hreach; [lia |]. cbn [flow].
  destruct (pop (f_heap st)) as [[e q] |] eqn:Ep.
  - assert (Hin : In (e, q) (f_heap st)) by (apply (proj1 (proj1 Hpop)); exact Ep).
    assert (Hkey : In e (keys (f_heap st))) by (apply (in_map fst) in Hin; exact Hin).
    assert (Hleast : forall e' q', In (e', q') (f_heap st) -> (q <= q')%Q) by (intros e' q' H; apply (proj2 Hpop _ _ _ _ _ Ep H)).
    fold (after_pop st e q). rewrite update_exactly. destruct (exactly g tr st e q) as [c st1] eqn:Ex.
    destruct (step g [t] act tree0 act_terminals one_small E0 w0 tr st e q c st1 B G Hkey Ex) as (Hm & Hlen & Hnm & Hs).
    assert (Hf1 : unmarked g (f_marked st1) < fuel).
    { rewrite Hm. assert (H := unmarked_insert g (f_marked st) e Hlen Hnm). lia. }
    destruct c as [| | v].
    + destruct Hs as (B1 & Er & Hd). destruct (step_dist d tr st e q B D K Hin Hleast st1 Ex) as (d' & K').
      apply (IH E0 w0 d' tr st1 B1 (Hd D) K' G Hf1 Hreach).
    + exfalso. apply (proj2 (proj2 Hs)). exact D.
    + assert (Ex' := Ex). unfold exactly in Ex. destruct (mem (dst g e) (t_nodes tr)) eqn:Ev; [discriminate |].
      destruct (mem (src g e) (t_nodes tr)) eqn:Eu; [| destruct (existsb _ _); discriminate].
      destruct (bdisjoint (f_root_feeding st) (f_feeding st (dst g e))) eqn:Ed; [| discriminate]. injection Ex as <- <-.
      apply mem_not_In in Ev. apply mem_In in Eu.
      cbn zeta in Hs. destruct Hs as (B1 & G1 & _ & _ & _ & _ & (ix & H1 & _) & _).
      assert (Hc : bget (f_root_feeding (joined g (popped st e q) e)) 0 = true).
      { assert (H0 := H1). apply (i_covered _ _ _ _ _ _ _ B1) in H0 as (x & Hx & _). destruct ix as [| [| ix]]; [exact H1 | discriminate | discriminate]. }
      destruct (flow_covered fuel E0 w0 _ _ B1 G1 Hc Hf1) as (st' & Hflow).
      eexists. exists st'. split; [exact Hflow |].
      destruct (popped_inv g [t] act tree0 tr st e q B Hkey) as (Bp & Hgood & Hrate & _ & _).
      assert (Hlight : (weight g e < weight_max)%N).
      { destruct (i_heap _ _ _ _ _ _ _ B e Hkey) as [Hn _]. apply find_next_some in Hn as (_ & _ & _ & Hw & _). exact Hw. }
      assert (Hdst : forall e', In e' (t_edges tr) -> In (dst g e') (t_nodes tr)) by apply (gr_dst _ _ _ _ G).
      destruct (grown_facts g [t] act tree0 tr (popped st e q) e Bp Hgood Hlen Hlight Ev Ed Hdst) as (Hnd & Hedges & Htot & Hnodes & _).
      change (add_subtree g (f_saturated (joined g (popped st e q) e)) e (dst g e) tr) with (grown g tr (popped st e q) e).
      set (bl := below g (f_saturated (popped st e q)) (S (List.length g)) (dst g e)) in *.
      (* the saturated way from the edge's target *)
      destruct (proj1 (proj1 Hgood 0) (k_feed _ _ _ K _ Hrate)) as (t' & r & Ha & Hr). apply act_only in Ha as [_ ->].
      assert (Hbl : forall e', In e' bl <-> In e' r).
      { intro e'. unfold bl. rewrite (below_iff g [t] act tree0 tr (popped st e q) e Bp Hlen Hlight). split.
        - intros (p1 & Hp1). assert (Hp1' := Hp1). apply path_last in Hp1' as (_ & He' & _ & _).
          destruct (i_useful _ _ _ _ _ _ _ Bp e' He') as (ix' & t' & p2 & Ha & Hp2). apply act_only in Ha as [_ ->].
          assert (E : r = (p1 ++ [e']) ++ p2).
          { apply (proj1 (proj2 Hgood) r ((p1 ++ [e']) ++ p2) t Hr). eapply path_app; [exact Hp1 | exact Hp2]. }
          rewrite E. apply in_app_iff. left. apply in_app_iff. right. left. reflexivity.
        - intro He'. apply in_split in He' as (r1 & r2 & ->). exists r1. change (r1 ++ e' :: r2) with (r1 ++ [e'] ++ r2) in Hr. rewrite app_assoc in Hr.
          apply path_split in Hr as (y & Hy & _). assert (Hy' := Hy). apply path_last in Hy' as (_ & _ & _ & ->). exact Hy. }
      assert (Hndr : NoDup r) by (apply (path_NoDup g _ (i_acyclic _ _ _ _ _ _ _ Bp) _ _ _ Hr)).
      assert (Hndb : NoDup bl) by (apply NoDup_remove_1 in Hnd; rewrite app_nil_r in Hnd; apply NoDup_rev in Hnd; rewrite rev_involutive in Hnd; exact Hnd).
      assert (Hperm : Permutation bl r) by (apply NoDup_Permutation; [exact Hndb | exact Hndr | exact Hbl]).
      assert (Hrl : path g (light g) (dst g e) r t).
      { revert Hr. apply path_weaken. intros e' _ He'. destruct (i_marked _ _ _ _ _ _ _ Bp e' (i_sat_marked _ _ _ _ _ _ _ Bp e' He')) as [Hl' Hw'].
        exists (nth e' g no_edge). split; [apply lookup; exact Hl' | exact Hw']. }
      exists (src g e), (e :: r). split; [exact Eu |]. split.
      { apply path_cons'; [exact Hlen | exists (nth e g no_edge); split; [apply lookup; exact Hlen | exact Hlight] | exact Hrl]. }
      split; [exists (rev bl ++ [e]); split; [rewrite Hedges, <- app_assoc; reflexivity |] |].
      { rewrite <- Permutation_rev, Permutation_app_comm. cbn [app]. constructor. exact Hperm. }
      split; [rewrite (Htot (gr_small _ _ _ _ G)); f_equal; f_equal; apply sum_weights_perm; constructor; exact Hperm |].
      split.
      { intro y. rewrite Hnodes. split.
        - intros [H | (p & Hp)]; [left; exact H |]. right. destruct p as [| f p _] using rev_ind.
          + apply path_inv in Hp as <-. exists e. split; [left; reflexivity | reflexivity].
          + assert (Hp' := Hp). apply path_last in Hp' as (_ & _ & _ & ->). exists f. split; [| reflexivity]. right. apply Hbl.
            unfold bl. apply (below_iff g [t] act tree0 tr (popped st e q) e Bp Hlen Hlight). exists p. exact Hp.
        - intros [H | (f & [<- | Hfr] & ->)]; [left; exact H | right; exists []; constructor |]. right.
          apply Hbl in Hfr. unfold bl in Hfr. apply (below_iff g [t] act tree0 tr (popped st e q) e Bp Hlen Hlight) in Hfr as (p & Hp). exists (p ++ [f]). exact Hp. }
      intros y s Hy Hs. apply Q_of_le.
      assert (Hlow := lower_bound d tr st q B D K Hleast s t y (proj1 (k_t _ _ _ K)) Hy Hs). rewrite (proj2 (k_t _ _ _ K)) in Hlow.
      assert (Hq := proj1 (k_heap _ _ _ K e q Hin)).
      assert (Hdv := sat_distance d tr st B K (dst g e) r Hr Hrate).
      cbn [sum_weights]. rewrite weight_lookup by exact Hlen. rewrite Q_of_add. lra.
  - exfalso. apply (proj2 (proj1 Hpop)) in Ep. destruct Hreach as (x & p & Hx & Hp).
    refine (dry_end g _ _ _ tr st B D Ep t x p _ (k_out _ _ _ K t (proj1 (k_t _ _ _ K))) Hp Hx). right. apply (k_t _ _ _ K).
Qed.
End Pop.
End Cheapest.

(** ** C75 *)
Theorem C75_one_terminal_cheapest : forall pop g root tr st t, pops_least pop -> Arbo g root tr -> (t_total tr < 65536)%N ->
  t_terminals tr = [t] -> f_root_feeding st = [] -> (forall x, f_feeding st x = []) -> ~ In t (t_nodes tr) -> reachable_from g (t_nodes tr) t ->
  exists tr' st', run pop g 2 tr st = Done (tr', st') /\ cheapest g t tr tr'.
Proof.
  intros pop g root tr st t Hpop A Htot Ht Hroot Hfeed Hnt Hreach.
  assert (R : Ready tr st).
  { split; [rewrite Ht; vm_compute; reflexivity |]. rewrite Hroot. cbn [List.length]. split; [lia |]. split; [intro x; rewrite Hfeed; cbn [List.length]; lia |].
    intros ix Hix. rewrite bget_nil in Hix. discriminate. }
  assert (G := arbo_grown g root tr A Htot).
  destruct (started g tr st R) as (st1 & H1 & B & D & Er & Em & Hrates).
  assert (Ez : bzeroes (f_root_feeding (initialize tr st)) = [0]).
  { unfold initialize. cbn [f_root_feeding]. rewrite Hroot, Ht. reflexivity. }
  rewrite Ez, Ht in *.
  assert (Hstart : starts g tr [0] 0 t).
  { split; [left; reflexivity |]. rewrite Ht. split; [reflexivity |]. apply (reachable_starts g tr t Hnt Hreach). }
  assert (Honly : forall ix x, starts g tr [0] ix x -> ix = 0 /\ x = t).
  { intros ix x ([<- | []] & Hx & _). rewrite Ht in Hx. injection Hx as <-. split; reflexivity. }
  assert (K : Dist g t (fun _ => 0%Q) tr st1).
  { (* the state after the start *)
    cbn [start_all] in H1. unfold start_terminal in H1. rewrite Ht in H1. cbn [nth_error] in H1. cbn [initialize f_marked] in H1.
    destruct (find_next g [] t) as [e |] eqn:En; [| exfalso; apply (proj2 (proj2 Hstart)); exact En].
    injection H1 as <-. destruct (find_next_some _ _ _ _ En) as (_ & Hd & _).
    constructor; cbn [initialize f_saturated f_marked f_root_feeding f_feeding f_rates f_time f_heap].
    - unfold upd. rewrite Nat.eqb_refl. split; [lia | reflexivity].
    - intro x. unfold upd. destruct (x =? t); lia.
    - intros x Hx. unfold upd in *. destruct (x =? t); [| lia]. rewrite Hfeed. reflexivity.
    - intros x Hx. unfold upd in Hx. destruct (x =? t) eqn:Ex; [| lia]. apply Nat.eqb_eq in Ex. subst x. exact Hnt.
    - intros f [].
    - intros f [].
    - intros f q [E | []]. injection E as <- <-. assert (Hnn := Q_of_nonneg (weight g e)). split; lra.
    - intros x Hx. lra. }
  assert (Hun : unmarked g (f_marked st1) < S (List.length g)) by (assert (H := unmarked_le g (f_marked st1)); lia).
  destruct (flow_cheapest g t (starts g tr [0]) (t_nodes tr) Honly Hstart pop Hpop (S (List.length g)) _ _ _ tr st1 B D K G Hun Hreach)
    as (tr' & st' & Hflow & Hch).
  assert (Honce : exists b, run_once pop g tr st = Done (b, tr', st')).
  { unfold run_once. rewrite Ez. rewrite H1, Hflow. eexists. reflexivity. }
  destruct Honce as (b & Honce). destruct (once pop (proj1 Hpop) g tr st R _ _ G) as (b1 & tr1 & st2 & O1 & O2 & O3 & O4 & O5 & O6 & O7 & _).
  rewrite Honce in O1. injection O1 as <- <- <-.
  assert (Hfull : bfull (f_root_feeding st') = true \/ bfull (f_root_feeding st') = false) by (destruct (bfull (f_root_feeding st')); [left | right]; reflexivity).
  exists tr', st'. split; [| exact Hch]. cbn [run]. rewrite Honce.
  assert (Hb : b = false); [| rewrite Hb; reflexivity].
  destruct b; [| reflexivity]. exfalso.
  (* all terminals are connected *)
  destruct (once pop (proj1 Hpop) g tr st R _ _ G) as (b2 & tr2 & st3 & P1 & _ & _ & _ & _ & _ & _ & _ & _ & _ & P2 & _).
  rewrite Honce in P1. injection P1 as <- <- <-.
  assert (Pd : Pending g tr st).
  { intros ix x Hx _. rewrite Ht in Hx. destruct ix as [| [| ix]]; [| discriminate | discriminate]. injection Hx as <-. split; assumption. }
  destruct (P2 Pd) as [_ P3]. destruct (P3 eq_refl) as (ix & Hix & _). symmetry in O4. apply negb_true_iff in O4.
  assert (Hix0 : ix = 0) by (apply bget_length in Hix; rewrite O3, Ht in Hix; cbn [List.length] in Hix; lia). subst ix.
  assert (Hf : bfull (f_root_feeding st') = true).
  { apply bfull_spec. intros i Hi. rewrite O3, Ht in Hi. cbn [List.length] in Hi. assert (i = 0) by lia. subst i. exact Hix. }
  rewrite O4 in Hf. discriminate.
Qed.

(** In terms of the root: with one terminal the tree is a cheapest way from the root. *)
Theorem C75_one_terminal_cheapest_way : forall pop g root t, pops_least pop -> t <> root -> reachable_from g [root] t ->
  exists tr st p, run pop g 2 (new_tree root [t]) new_flac = Done (tr, st) /\ path g (light g) root p t /\ Permutation (t_edges tr) p /\
    t_total tr = (sum_weights g p mod 65536)%N /\
    forall r, path g (light g) root r t -> (sum_weights g p <= sum_weights g r)%N.
Proof.
  intros pop g root t Hpop Hne Hreach.
  destruct (C75_one_terminal_cheapest pop g root (new_tree root [t]) new_flac t Hpop (new_arbo g root [t])) as (tr & st & Hrun & x & p & [<- | []] & Hp & (added & Ea & Hperm) & Htot & _ & Hmin);
    try reflexivity; [intros [H | []]; apply Hne; symmetry; exact H | exact Hreach |].
  exists tr, st, p. split; [exact Hrun |]. split; [exact Hp |]. cbn [new_tree t_edges] in Ea. rewrite app_nil_r in Ea. subst added.
  split; [exact Hperm |]. split; [exact Htot |]. intros r Hr. apply (Hmin root r (or_introl eq_refl) Hr).
Qed.

Lemma pop_min_least : pops_least pop_min.
Proof.
  split; [exact pop_min_pops |]. induction h as [| [e0 q0] h IH]; intros e q e' q' H Hin; [destruct Hin |].
  cbn [pop_min] in H. destruct (pop_min h) as [[e1 q1] |] eqn:E.
  - destruct (Qle_bool q0 q1) eqn:Eb; injection H as <- <-.
    + apply Qle_bool_iff in Eb. destruct Hin as [Ei | Hin]; [injection Ei as <- <-; lra |]. assert (H := IH _ _ _ _ eq_refl Hin). lra.
    + assert (Hlt : (q1 <= q0)%Q). { apply Qnot_lt_le. intro H. apply Qlt_le_weak in H. apply Qle_bool_iff in H. rewrite Eb in H. discriminate. }
      destruct Hin as [Ei | Hin]; [injection Ei as <- <-; exact Hlt |]. apply (IH _ _ _ _ eq_refl Hin).
  - injection H as <- <-. destruct Hin as [Ei | Hin]; [injection Ei as <- <-; lra |]. apply (proj2 pop_min_pops) in E. subst h. destruct Hin.
Qed.
(** The way through 2 is the cheapest to 4 from 0, with a shortcut of weight 3 from 2. *)
Example ex_cheapest : shown (run pop_min (ex_graph ++ [e_ 2 4 3%N]) 2 (new_tree 0 [4]) new_flac) = Some ([4; 2; 0], [8; 1], 11%N).
Proof. vm_compute. reflexivity. Qed.
(** With several terminals the weight isn't the least: the two direct edges are taken, 8 in all, and
    the tree through 1 would weigh 7. *)
Example ex_not_least : shown (run pop_min [e_ 0 1 5; e_ 1 2 1; e_ 1 3 1; e_ 0 2 3; e_ 0 3 5]%N 4 (new_tree 0 [2; 3]) new_flac)
  = Some ([3; 2; 0], [4; 3], 8%N).
Proof. vm_compute. reflexivity. Qed.
