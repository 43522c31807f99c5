(** What an estimate is: the weight of edges that lead to the nodes that are required. *)
From Coq Require Import QArith NArith List Bool Arith Lia.
From Verif.Steiner Require Import Model Spec Facts Invariant Subtree Flow Run TreeProps.
From Verif.Updater Require Import Model Proofs.
Import ListNotations.
Local Open Scope nat_scope.
Local Open Scope list_scope.

(** Every node is reached from the first ones through the edges of the tree. *)
Definition Linked (g : graph) (first : list nat) (tr : tree) : Prop :=
  forall x, In x (t_nodes tr) -> exists n p, In n first /\ path g (fun e => In e (t_edges tr)) n p x.
Definition in_range (g : graph) (st : flac) : Prop := forall k, In k (keys (f_heap st)) -> k < List.length g.

Lemma find_next_range : forall g marked v e, find_next g marked v = Some e -> e < List.length g.
Proof. intros g marked v e H. apply find_next_some in H as (H & _). exact H. Qed.
Lemma push_range : forall g st e t, in_range g st -> e < List.length g -> in_range g (with_heap st (heap_push e t (f_heap st))).
Proof. intros g st e t H He k Hk. cbn [with_heap f_heap] in Hk. apply keys_push in Hk as [-> | Hk]; [exact He | apply H; exact Hk]. Qed.
Lemma schedule_range : forall g e v st, in_range g st -> in_range g (schedule_next g e v st).
Proof.
  intros g e v st H. unfold schedule_next. destruct (find_next g (f_marked st) v) as [e' |] eqn:E; [| exact H].
  apply push_range; [exact H | apply (find_next_range _ _ _ _ E)].
Qed.
Lemma feed_range : forall g extra rate l st, (forall x e, In (x, e) l -> e < List.length g) -> in_range g st -> in_range g (fold_left (feed g extra rate) l st).
Proof.
  intros g extra rate l. induction l as [| [x e] l IH]; intros st Hl H; [exact H |]. cbn [fold_left]. apply IH; [intros x' e' Hin; apply (Hl x' e'); right; exact Hin |].
  intros k Hk. cbn [feed f_heap] in Hk. destruct (f_rates st x =? 0)%N.
  - apply keys_push in Hk as [-> | Hk]; [apply (Hl x e); left; reflexivity | apply H; exact Hk].
  - rewrite keys_change in Hk. apply H. exact Hk.
Qed.
Lemma next_edges_range : forall g marked xs x e, In (x, e) (next_edges g marked xs) -> e < List.length g.
Proof.
  intros g marked xs x e H. unfold next_edges in H. apply in_flat_map in H as (y & _ & Hy). destruct (find_next g marked y) as [e' |] eqn:E; [| destruct Hy].
  destruct Hy as [Hy | []]. injection Hy as _ <-. apply (find_next_range _ _ _ _ E).
Qed.
Lemma update_range : forall g tr st e c st', update_flow_rates g tr st e = (c, st') -> in_range g st ->
  in_range g st' /\ (forall v, c = FoundSubtree v -> v = dst g e /\ In (src g e) (t_nodes tr)).
Proof.
  intros g tr st e c st' H R. unfold update_flow_rates in H. cbn zeta in H.
  destruct (mem (dst g e) (t_nodes tr)); [injection H as <- <-; split; [exact R | discriminate] |].
  destruct (mem (src g e) (t_nodes tr)) eqn:Eu.
  - destruct (bdisjoint _ _); injection H as <- <-; split; try exact R; [| discriminate].
    intros v Hv. injection Hv as <-. split; [reflexivity | apply mem_In; exact Eu].
  - destruct (existsb _ _); apply pair_equal_spec in H as [<- <-]; split; try discriminate; [apply schedule_range; exact R |].
    apply schedule_range, feed_range; [intros x e'; apply next_edges_range | exact R].
Qed.

Lemma add_all : forall g bl tr, let tr' := fold_left (fun tr e' => add_node (dst g e') (add_edge g tr e')) bl tr in
  (forall x, In x (t_nodes tr') <-> In x (t_nodes tr) \/ exists e, In e bl /\ x = dst g e) /\
  (forall e, In e (t_edges tr') <-> In e (t_edges tr) \/ In e bl).
Proof.
  intros g bl. induction bl as [| e bl IH]; intro tr; cbn [fold_left].
  - split; [intro x; split; [intro H; left; exact H | intros [H | (e & [] & _)]; exact H] | intro e; split; [intro H; left; exact H | intros [H | []]; exact H]].
  - destruct (IH (add_node (dst g e) (add_edge g tr e))) as [H1 H2]. split; [intro x; rewrite H1 | intro e'; rewrite H2]; cbn [add_node add_edge t_nodes t_edges]; rewrite insert_In.
    + split.
      * intros [[-> | H] | (e' & H & ->)]; [right; exists e; split; [left; reflexivity | reflexivity] | left; exact H | right; exists e'; split; [right; exact H | reflexivity]].
      * intros [H | (e' & [<- | H] & ->)]; [left; right; exact H | left; left; reflexivity | right; exists e'; split; [exact H | reflexivity]].
    + cbn [In]. split; [intros [[-> | H] | H]; auto | intros [H | [-> | H]]; auto].
Qed.
Lemma subtree_links : forall g first sat e tr, e < List.length g -> In (src g e) (t_nodes tr) -> Linked g first tr ->
  Linked g first (add_subtree g sat e (dst g e) tr).
Proof.
  intros g first sat e tr He Hs L x Hx. unfold add_subtree in Hx |- *. set (bl := below g sat (S (List.length g)) (dst g e)) in *.
  destruct (add_all g bl (add_node (dst g e) (add_edge g tr e))) as [Hn Hedge]. cbn zeta in Hn, Hedge.
  set (tr' := fold_left (fun tr0 e' => add_node (dst g e') (add_edge g tr0 e')) bl (add_node (dst g e) (add_edge g tr e))) in *.
  assert (Hold : forall e', In e' (t_edges tr) -> In e' (t_edges tr')).
  { intros e' H. apply Hedge. left. cbn [add_node add_edge t_edges]. apply insert_In. right. exact H. }
  assert (Hw : forall n p y, path g (fun e => In e (t_edges tr)) n p y -> path g (fun e => In e (t_edges tr')) n p y).
  { intros n p y. apply path_weaken. intros e' _ H. apply Hold. exact H. }
  assert (Hv : exists n p, In n first /\ path g (fun e => In e (t_edges tr')) n p (dst g e)).
  { destruct (L _ Hs) as (n & p & Hn' & Hp). exists n, (p ++ [e]). split; [exact Hn' |]. apply path_snoc; [exact He | | apply Hw; exact Hp].
    apply Hedge. left. cbn [add_node add_edge t_edges]. apply insert_In. left. reflexivity. }
  apply Hn in Hx as [Hx | (e' & He' & ->)].
  - cbn [add_node add_edge t_nodes] in Hx. apply insert_In in Hx as [-> | Hx]; [exact Hv |]. destruct (L x Hx) as (n & p & Hn' & Hp).
    exists n, p. split; [exact Hn' | apply Hw; exact Hp].
  - destruct Hv as (n & p & Hn' & Hp). apply below_In in He' as (q & Hq & Hlen). exists n, (p ++ q ++ [e']). split; [exact Hn' |]. eapply path_app; [exact Hp |].
    assert (Hall : forall e0, In e0 (q ++ [e']) -> In e0 bl).
    { intros e0 H0. apply in_split in H0 as (q1 & q2 & E). apply below_In. exists q1. split.
      - rewrite E in Hq. change (q1 ++ e0 :: q2) with (q1 ++ [e0] ++ q2) in Hq. rewrite app_assoc in Hq. apply path_split in Hq as (y & H1 & _).
        assert (E1 := H1). apply path_last in E1 as (_ & _ & _ & ->). exact H1.
      - assert (EL := f_equal (@List.length nat) E). rewrite !app_length in EL. cbn [List.length] in EL. lia. }
    revert Hq. apply path_weaken. intros e0 H0 _. apply Hedge. right. apply Hall. exact H0.
Qed.

Section Links.
Variable pop : list (nat * Q) -> option (nat * Q).
Hypothesis Hpop : pops_an_entry pop.

Lemma flow_links : forall g first fuel tr st tr' st', flow pop g fuel tr st = Done (tr', st') -> in_range g st -> Linked g first tr -> Linked g first tr'.
Proof.
  intros g first fuel. induction fuel as [| fuel IH]; intros tr st tr' st' H R L; [discriminate |]. cbn [flow] in H.
  destruct (pop (f_heap st)) as [[e t] |] eqn:Ep; [| injection H as <- <-; exact L].
  assert (He : e < List.length g).
  { apply R. apply (proj1 Hpop) in Ep. apply in_map_iff. exists (e, t). split; [reflexivity | exact Ep]. }
  set (st1 := {| f_saturated := _ |}) in H. assert (R1 : in_range g st1).
  { intros k Hk. unfold st1 in Hk. cbn [f_heap] in Hk. apply keys_remove in Hk as [_ Hk]. apply R. exact Hk. }
  destruct (update_flow_rates g tr st1 e) as [c st2] eqn:Eu. destruct (update_range _ _ _ _ _ _ Eu R1) as [R2 Hf]. destruct c as [| | v].
  - apply (IH _ _ _ _ H R2 L).
  - injection H as <- <-. exact L.
  - destruct (Hf v eq_refl) as [-> Hs]. apply (IH _ _ _ _ H R2). apply subtree_links; assumption.
Qed.
Lemma start_all_range : forall g tr ixs st st', start_all g tr ixs st = Done st' -> in_range g st -> in_range g st'.
Proof.
  intros g tr ixs. induction ixs as [| ix ixs IH]; intros st st' H R; cbn [start_all] in H; [injection H as <-; exact R |].
  destruct (start_terminal g tr st ix) as [st1 | |] eqn:E; [| discriminate | discriminate]. apply (IH _ _ H). unfold start_terminal in E.
  destruct (nth_error (t_terminals tr) ix) as [t |]; [| discriminate]. destruct (find_next g (f_marked st) t) as [e |] eqn:Ef; injection E as <-; [| exact R].
  intros k Hk. cbn [f_heap] in Hk. apply keys_push in Hk as [-> | Hk]; [apply (find_next_range _ _ _ _ Ef) | apply R; exact Hk].
Qed.
Lemma run_once_links : forall g first tr st b tr' st', run_once pop g tr st = Done (b, tr', st') -> Linked g first tr -> Linked g first tr'.
Proof.
  intros g first tr st b tr' st' H L. unfold run_once in H. destruct (bzeroes (f_root_feeding (initialize tr st))) as [| i ixs]; [injection H as _ <- _; exact L |].
  destruct (start_all g tr (i :: ixs) (initialize tr st)) as [st1 | |] eqn:E1; [| discriminate | discriminate].
  destruct (flow pop g (S (List.length g)) tr st1) as [[tr2 st2] | |] eqn:E2; [| discriminate | discriminate]. injection H as _ <- _.
  apply (flow_links _ _ _ _ _ _ _ E2); [| exact L]. apply (start_all_range _ _ _ _ _ E1). intros k [].
Qed.
Lemma run_links : forall g first fuel tr st tr' st', run pop g fuel tr st = Done (tr', st') -> Linked g first tr -> Linked g first tr'.
Proof.
  intros g first fuel. induction fuel as [| fuel IH]; intros tr st tr' st' H L; [discriminate |]. cbn [run] in H.
  destruct (run_once pop g tr st) as [[[b tr1] st1] | |] eqn:E; [| discriminate | discriminate]. assert (L1 := run_once_links _ _ _ _ _ _ _ E L).
  destruct b; [apply (IH _ _ _ _ H L1) | injection H as <- <-; exact L1].
Qed.
End Links.

(** ** Estimates *)
Lemma cut : forall g first added E0 p n x, (forall e, In e E0 -> In (dst g e) first) -> In n first ->
  path g (fun e => In e (added ++ E0)) n p x -> exists n' p', In n' first /\ path g (fun e => In e added) n' p' x.
Proof.
  intros g first added E0 p n x HE Hn. revert x. induction p as [| e p IH] using rev_ind; intros x Hp.
  - apply path_inv in Hp as <-. exists n, []. split; [exact Hn | constructor].
  - apply path_last in Hp as (Hl & He & Hp & ->). apply in_app_iff in He as [He | He].
    + destruct (IH _ Hp) as (n' & p' & Hn' & Hp'). exists n', (p' ++ [e]). split; [exact Hn' | apply path_snoc; assumption].
    + exists (dst g e), []. split; [apply HE; exact He | constructor].
Qed.
Lemma take_parents_spec : forall g parents tr tr', take_parents g parents tr = Some tr' ->
  (forall x, In x (t_nodes tr') <-> In x (t_nodes tr) \/ exists e, In e parents /\ x = dst g e) /\
  (forall e, In e (t_edges tr') <-> In e (t_edges tr) \/ In e parents) /\
  t_total tr' = t_total tr /\ t_terminals tr' = t_terminals tr /\ t_is_terminal tr' = t_is_terminal tr.
Proof.
  intros g parents. induction parents as [| e parents IH]; intros tr tr' H; cbn [take_parents] in H.
  - injection H as <-. split; [intro x; split; [intro H; left; exact H | intros [H | (e & [] & _)]; exact H] |].
    split; [intro e; split; [intro H; left; exact H | intros [H | []]; exact H] |]. repeat split; reflexivity.
  - destruct (nth_error g e) as [ed |] eqn:E; [| discriminate]. destruct (lookup_src _ _ _ E) as (_ & Ed & _). rewrite <- Ed in H. clear ed E Ed.
    apply IH in H. cbn [t_nodes t_edges t_total t_terminals t_is_terminal] in H. destruct H as (H1 & H2 & H3). split; [| split; [| exact H3]].
    + intro x. rewrite H1, insert_In. split.
      * intros [[-> | H] | (e' & H & ->)]; [right; exists e; split; [left; reflexivity | reflexivity] | left; exact H | right; exists e'; split; [right; exact H | reflexivity]].
      * intros [H | (e' & [<- | H] & ->)]; [left; right; exact H | left; left; reflexivity | right; exists e'; split; [exact H | reflexivity]].
    + intro e'. rewrite H2, insert_In. cbn [In]. split; [intros [[-> | H] | H]; auto | intros [H | [-> | H]]; auto].
Qed.

Lemma start_all_long : forall g tr ixs st ix, In ix ixs -> List.length (t_terminals tr) <= ix -> start_all g tr ixs st = Panic.
Proof.
  intros g tr ixs. induction ixs as [| i ixs IH]; intros st ix Hin Hle; [destruct Hin |]. cbn [start_all]. destruct Hin as [-> | Hin].
  - unfold start_terminal. rewrite (proj2 (nth_error_None _ _) Hle). reflexivity.
  - unfold start_terminal. destruct (nth_error (t_terminals tr) i) as [t |]; [| reflexivity].
    destruct (find_next g (f_marked st) t); apply (IH _ _ Hin Hle).
Qed.
(** A state that was used with more terminals. *)
Lemma run_long : forall pop g fuel tr fl, (forall i, bget (f_root_feeding fl) i = false) -> List.length (t_terminals tr) < List.length (f_root_feeding fl) ->
  run pop g (S fuel) tr fl = Panic.
Proof.
  intros pop g fuel tr fl Hz Hl. cbn [run]. unfold run_once. set (ix := List.length (t_terminals tr)).
  assert (Hin : In ix (bzeroes (f_root_feeding (initialize tr fl)))).
  { apply bzeroes_In. cbn [initialize f_root_feeding]. rewrite length_bgrow, bget_bgrow. split; [unfold ix; lia | apply Hz]. }
  destruct (bzeroes (f_root_feeding (initialize tr fl))) as [| i ixs]; [destruct Hin |]. rewrite (start_all_long _ _ _ _ ix Hin (Nat.le_refl _)). reflexivity.
Qed.

(** The state of estimates: what flows to nodes is no longer than what flows to the root. *)
Definition tmp_ok (fl : flac) : Prop := forall x, List.length (f_feeding fl x) <= List.length (f_root_feeding fl).
Definition ends_inside (g : graph) (tr : tree) : Prop := forall e, In e (t_edges tr) -> In (dst g e) (t_nodes tr).

(** The edges an estimate stands for. *)
Definition leads_to (g : graph) (tr : tree) (parents nodes : list nat) (w : N) : Prop :=
  exists added, NoDup added /\ (forall e, In e added -> light g e /\ ~ In e (t_edges tr) /\ ~ In e parents) /\
    w = (sum_weights g added mod 65536)%N /\
    forall x, In x nodes -> exists n p, (In n (t_nodes tr) \/ exists e, In e parents /\ n = dst g e) /\ path g (fun e => In e added) n p x.

Lemma estimate_spec : forall pop limit g tr parents nodes fl w fl', pops_an_entry pop -> ends_inside g tr -> tmp_ok fl ->
  (N.of_nat (List.length nodes) < 65536)%N -> estimate pop limit g tr parents nodes fl = Done (w, fl') ->
  tmp_ok fl' /\ leads_to g tr parents nodes w.
Proof.
  intros pop limit g tr parents nodes fl w fl' Hpop Hin Hok Hnum H. unfold estimate in H. cbn zeta in H.
  assert (Hres : tmp_ok (reset fl)) by (intro x; cbn [reset f_feeding f_root_feeding]; rewrite length_bclear; apply Hok).
  destruct (C75_new_terminals tr nodes) as (T1 & T2 & T3 & T4 & T5 & T6). destruct (clone_with_new_terminals tr nodes) as [more tmp]. cbn [fst snd] in T1, T2, T3, T4, T5, T6.
  destruct more.
  - destruct (take_parents g parents tmp) as [tmp1 |] eqn:Ep; [| discriminate]. destruct (take_parents_spec _ _ _ _ Ep) as (P1 & P2 & P3 & P4 & P5).
    destruct (run pop g limit tmp1 (reset fl)) as [[tmp2 fl2] | |] eqn:Er; [| discriminate | discriminate]. injection H as <- <-.
    assert (Hlen : List.length (f_root_feeding (reset fl)) <= List.length (t_terminals tmp1)).
    { destruct (le_lt_dec (List.length (f_root_feeding (reset fl))) (List.length (t_terminals tmp1))) as [Hle | Hlt]; [exact Hle |]. exfalso.
      destruct limit as [| limit]; [discriminate |]. rewrite (run_long pop g limit tmp1 (reset fl)) in Er; [discriminate | | exact Hlt].
      intro i. cbn [reset f_root_feeding]. apply bget_bclear. }
    assert (Hsize : List.length (t_terminals tmp) <= List.length nodes).
    { apply NoDup_incl_length; [exact T4 |]. intros x Hx. apply T5 in Hx as [Hx _]. exact Hx. }
    assert (R : Ready tmp1 (reset fl)).
    { split; [rewrite P4; lia |]. split; [exact Hlen |]. split; [intro x; specialize (Hres x); lia |].
      intros ix Hix. cbn [reset f_root_feeding] in Hix. rewrite bget_bclear in Hix. discriminate. }
    assert (Hin1 : forall e, In e (t_edges tmp1) -> In (dst g e) (t_nodes tmp1)).
    { intros e He. apply P1. apply P2 in He as [He | He]; [left; rewrite T2; apply Hin; rewrite <- T3; exact He | right; exists e; split; [exact He | reflexivity]]. }
    assert (G : Grown g (t_edges tmp1) 0 tmp1).
    { constructor; [exact Hin1 | rewrite P3, T1; lia |]. exists []. split; [reflexivity |]. split; [constructor |]. split; [intros e [] |]. rewrite P3, T1. reflexivity. }
    destruct (run_done pop Hpop g limit _ _ _ _ _ _ R G Er) as (R2 & G2 & _ & Et & _ & Hc).
    assert (L1 : Linked g (t_nodes tmp1) tmp1) by (intros x Hx; exists x, []; split; [exact Hx | constructor]).
    assert (L2 := run_links pop Hpop g (t_nodes tmp1) limit _ _ _ _ Er L1).
    split.
    + (* the lengths after the run *)
      assert (Hl2 : forall fuel tr st tr' st', Ready tr st -> Grown g (t_edges tmp1) 0 tr -> run pop g fuel tr st = Done (tr', st') ->
                    List.length (f_root_feeding st') = List.length (t_terminals tr')).
      { clear - Hpop. intros fuel. induction fuel as [| fuel IH]; intros tr st tr' st' R G H; [discriminate |]. cbn [run] in H.
        destruct (once pop Hpop g tr st R _ _ G) as (b & tr1 & st1 & H1 & R1 & Ln & _ & G1 & _ & T1 & _). rewrite H1 in H.
        destruct b; [apply (IH _ _ _ _ R1 G1 H) |]. injection H as <- <-. rewrite Ln, T1. reflexivity. }
      intro x. rewrite (Hl2 _ _ _ _ _ R G Er). apply R2.
    + destruct (gr_added _ _ _ _ G2) as (added & Ea & Hnd & Hne & Hw). exists added. split; [exact Hnd |].
      split; [intros e He; destruct (Hne e He) as [Hn Hli]; split; [exact Hli |]; split; intro X; apply Hn, P2; [left; rewrite T3; exact X | right; exact X] |].
      split; [exact Hw |]. intros x Hx. destruct (in_dec Nat.eq_dec x (t_nodes tr)) as [Hy | Hy]; [exists x, []; split; [left; exact Hy | constructor] |].
      assert (Hx2 : In x (t_nodes tmp2)) by (apply Hc; rewrite P4; apply T5; split; assumption).
      destruct (L2 x Hx2) as (n & p & Hn & Hp). rewrite Ea in Hp. destruct (cut g (t_nodes tmp1) added (t_edges tmp1) p n x Hin1 Hn Hp) as (n' & p' & Hn' & Hp').
      exists n', p'. split; [| exact Hp']. apply P1 in Hn' as [Hn' | Hn']; [left; rewrite <- T2; exact Hn' | right; exact Hn'].
  - injection H as <- <-. split; [exact Hres |]. exists []. split; [constructor |]. split; [intros e [] |]. split; [reflexivity |].
    intros x Hx. exists x, []. split; [| constructor]. left. destruct (in_dec Nat.eq_dec x (t_nodes tr)) as [Hy | Hy]; [exact Hy |]. exfalso.
    assert (X : In x (t_terminals tmp)) by (apply T5; split; assumption). destruct T6 as [_ T6]. assert (false = true); [apply T6; intro E; rewrite E in X; destruct X | discriminate].
Qed.
