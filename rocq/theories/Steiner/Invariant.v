(** What holds all along a run of the search, whichever entry of the heap is popped. *)
From Coq Require Import QArith NArith List Bool Arith Lia.
From Verif.Steiner Require Import Model Spec Facts.
Import ListNotations.
Local Open Scope nat_scope.
Local Open Scope list_scope.

Notation sat_path g st := (path g (fun e => In e (f_saturated st))).
Notation next g st x := (find_next g (f_marked st) x).

Section Invariant.
Variable g : graph.
Variable terminals : list nat.
(** The terminals water flows from. *)
Variable act : nat -> nat -> Prop.
(** The nodes of the tree when the run started. *)
Variable tree0 : list nat.
Let n := List.length terminals.

Definition good (st : flac) (x : nat) : Prop :=
  (forall ix, bget (f_feeding st x) ix = true <-> exists t p, act ix t /\ sat_path g st x p t) /\
  (forall p q y, sat_path g st x p y -> sat_path g st x q y -> p = q) /\
  ((0 < f_rates st x)%N <-> 0 < count (f_feeding st x)) /\
  (f_rates st x <= N.of_nat (count (f_feeding st x)))%N.

Record Inv (exc : nat -> Prop) (tr : tree) (st : flac) : Prop := {
  i_sat_marked : forall e, In e (f_saturated st) -> In e (f_marked st);
  i_marked : forall e, In e (f_marked st) -> e < List.length g /\ (weight g e < weight_max)%N;
  i_heap : forall e, In e (keys (f_heap st)) -> next g st (dst g e) = Some e /\ (0 < f_rates st (dst g e))%N;
  i_flow : forall x e, ~ exc x -> next g st x = Some e -> (0 < f_rates st x)%N -> ~ In x (t_nodes tr) -> In e (keys (f_heap st));
  i_good : forall x, next g st x <> None -> good st x;
  i_sound : forall x ix, bget (f_feeding st x) ix = true -> exists t p, act ix t /\ sat_path g st x p t;
  i_useful : forall e, In e (f_saturated st) -> exists ix t p, act ix t /\ sat_path g st (dst g e) p t;
  i_acyclic : acyclic g (fun e => In e (f_saturated st));
  i_closed : forall e, In e (f_saturated st) -> In (src g e) (t_nodes tr) -> In (dst g e) (t_nodes tr);
  i_rooted : forall e ix t p, In e (f_saturated st) -> In (dst g e) (t_nodes tr) -> act ix t ->
               sat_path g st (dst g e) p t -> bget (f_root_feeding st) ix = true;
  i_len : forall x, List.length (f_feeding st x) <= n;
  i_root_len : List.length (f_root_feeding st) = n;
  i_covered : forall ix, bget (f_root_feeding st) ix = true -> exists t, nth_error terminals ix = Some t /\ In t (t_nodes tr);
  i_new : forall e, In e (f_saturated st) -> ~ In (dst g e) tree0;
  i_tree0 : forall x, In x tree0 -> In x (t_nodes tr) }.

Hypothesis act_terminals : forall ix t, act ix t -> nth_error terminals ix = Some t.
Hypothesis n_small : (N.of_nat n < 65536)%N.

(** ** Popping and marking an edge *)
Definition popped (st : flac) (e : nat) (t : Q) : flac :=
  {| f_saturated := f_saturated st; f_marked := insert e (f_marked st); f_root_feeding := f_root_feeding st;
     f_feeding := f_feeding st; f_rates := f_rates st; f_time := t;
     f_heap := filter (fun x => negb (fst x =? e)) (f_heap st) |}.

Lemma popped_inv : forall tr st e t, Inv (fun _ => False) tr st -> In e (keys (f_heap st)) ->
  Inv (eq (dst g e)) tr (popped st e t) /\ good (popped st e t) (dst g e) /\ (0 < f_rates (popped st e t) (dst g e))%N /\
  e < List.length g /\ ~ In e (f_marked st).
Proof.
  intros tr st e t B Hin. destruct (i_heap _ _ _ B e Hin) as [Hn Hr].
  destruct (find_next_some _ _ _ _ Hn) as (Hl & _ & Hm & Hw & _).
  split; [| split; [| split; [exact Hr | split; [exact Hl | exact Hm]]]].
  - destruct B as [B1 B2 B3 B4 B5 B6 B7 B8 B9 B10 B11 B12 B13 B14 B15]. constructor; cbn [popped f_saturated f_marked f_root_feeding f_feeding f_rates f_time f_heap].
    + intros e' He'. apply insert_In. right. apply B1. exact He'.
    + intros e' He'. apply insert_In in He' as [-> | He']; [split; assumption | apply B2; exact He'].
    + intros e' He'. apply keys_remove in He' as [Hne He']. destruct (B3 e' He') as [H1 H2]. split; [| exact H2].
      rewrite find_next_other; [exact H1 |]. intro Ed. rewrite Ed in Hn. rewrite Hn in H1. injection H1 as H1. apply Hne. symmetry. exact H1.
    + intros x e' Hx Hf Hrx Ht. rewrite find_next_other in Hf by exact Hx. apply keys_remove. split; [| apply (B4 x e'); [intros [] | exact Hf | exact Hrx | exact Ht]].
      intros ->. apply Hx. apply find_next_some in Hf as (_ & Hd & _). exact Hd.
    + intros x Hx. apply find_next_marked in Hx. apply (B5 x Hx).
    + exact B6.
    + exact B7.
    + exact B8.
    + exact B9.
    + exact B10.
    + exact B11.
    + exact B12.
    + exact B13.
    + exact B14.
    + exact B15.
  - apply (i_good _ _ _ B). rewrite Hn. discriminate.
Qed.

(** ** Scheduling the next edge *)
Lemma schedule_inv : forall tr st e, Inv (eq (dst g e)) tr st -> (0 < f_rates st (dst g e))%N ->
  Inv (fun _ => False) tr (schedule_next g e (dst g e) st).
Proof.
  intros tr st e B Hr. unfold schedule_next. destruct (next g st (dst g e)) as [e' |] eqn:En.
  - destruct (find_next_some _ _ _ _ En) as (_ & Hd & _).
    destruct B as [B1 B2 B3 B4 B5 B6 B7 B8 B9 B10 B11 B12 B13 B14 B15].
    constructor; cbn [with_heap f_saturated f_marked f_root_feeding f_feeding f_rates f_time f_heap]; try assumption.
    + intros e'' He''. apply keys_push in He'' as [-> | He'']; [| apply B3; exact He''].
      rewrite Hd. split; assumption.
    + intros x e'' _ Hf Hrx Ht. apply keys_push. destruct (Nat.eq_dec (dst g e) x) as [<- | Hne].
      * rewrite En in Hf. injection Hf as ->. left. reflexivity.
      * right. apply (B4 x e'' Hne Hf Hrx Ht).
  - destruct B as [B1 B2 B3 B4 B5 B6 B7 B8 B9 B10 B11 B12 B13 B14 B15]. constructor; try assumption.
    intros x e'' _ Hf Hrx Ht. apply (B4 x e''); [| exact Hf | exact Hrx | exact Ht]. intros <-. rewrite En in Hf. discriminate.
Qed.

(** ** Feeding the nodes above *)
Lemma feed_fold : forall extra r ys st, NoDup (map fst ys) ->
  let st' := fold_left (feed g extra r) ys st in
  f_saturated st' = f_saturated st /\ f_marked st' = f_marked st /\ f_root_feeding st' = f_root_feeding st /\
  f_time st' = f_time st /\
  (forall x, f_feeding st' x = if mem x (map fst ys) then bunion (f_feeding st x) extra else f_feeding st x) /\
  (forall x, f_rates st' x = if mem x (map fst ys) then wrap (f_rates st x + r) else f_rates st x) /\
  (forall e, In e (keys (f_heap st')) <-> In e (keys (f_heap st)) \/ exists x, In (x, e) ys /\ f_rates st x = 0%N).
Proof.
  intros extra r ys. induction ys as [| [x e] ys IH]; intros st Hnd st'.
  - subst st'. cbn [fold_left map mem existsb]. do 4 (split; [reflexivity |]). split; [intro x; reflexivity |].
    split; [intro x; reflexivity |]. intro e. split; [intro H; left; exact H | intros [H | (x & [] & _)]; exact H].
  - cbn [map fst] in Hnd. inversion Hnd as [| ? ? Hx Hnd' Ex]; subst.
    subst st'. cbn [fold_left]. destruct (IH (feed g extra r st (x, e)) Hnd') as (H1 & H2 & H3 & H4 & H5 & H6 & H7).
    assert (F1 : f_saturated (feed g extra r st (x, e)) = f_saturated st) by reflexivity.
    assert (F2 : f_marked (feed g extra r st (x, e)) = f_marked st) by reflexivity.
    assert (F3 : f_root_feeding (feed g extra r st (x, e)) = f_root_feeding st) by reflexivity.
    assert (F4 : f_time (feed g extra r st (x, e)) = f_time st) by reflexivity.
    assert (F5 : f_feeding (feed g extra r st (x, e)) = upd (f_feeding st) x (bunion (f_feeding st x) extra)) by reflexivity.
    assert (F6 : f_rates (feed g extra r st (x, e)) = upd (f_rates st) x (wrap (f_rates st x + r))) by reflexivity.
    assert (F7 : f_heap (feed g extra r st (x, e)) =
                 if (f_rates st x =? 0)%N
                 then heap_push e (f_time st + Q_of (weight g e) / Q_of (wrap (f_rates st x + r)))%Q (f_heap st)
                 else heap_change e (fun q => f_time st + (q - f_time st) * (Q_of (f_rates st x) / Q_of (wrap (f_rates st x + r))))%Q (f_heap st)) by reflexivity.
    rewrite F1 in H1. rewrite F2 in H2. rewrite F3 in H3. rewrite F4 in H4. rewrite F5 in H5. rewrite F6 in H6, H7. rewrite F7 in H7.
    split; [exact H1 |]. split; [exact H2 |]. split; [exact H3 |]. split; [exact H4 |].
    assert (Hmx : mem x (map fst ys) = false) by (apply mem_not_In; exact Hx).
    split; [| split].
    + intro y. rewrite H5. cbn [map fst]. unfold mem at 2. cbn [existsb]. fold (mem y (map fst ys)). unfold upd.
      destruct (y =? x) eqn:Ey; [| reflexivity]. apply Nat.eqb_eq in Ey. subst y. rewrite Hmx. reflexivity.
    + intro y. rewrite H6. cbn [map fst]. unfold mem at 2. cbn [existsb]. fold (mem y (map fst ys)). unfold upd.
      destruct (y =? x) eqn:Ey; [| reflexivity]. apply Nat.eqb_eq in Ey. subst y. rewrite Hmx. reflexivity.
    + intro e'. rewrite H7.
      assert (Hk : In e' (keys (if (f_rates st x =? 0)%N
                 then heap_push e (f_time st + Q_of (weight g e) / Q_of (wrap (f_rates st x + r)))%Q (f_heap st)
                 else heap_change e (fun q => f_time st + (q - f_time st) * (Q_of (f_rates st x) / Q_of (wrap (f_rates st x + r))))%Q (f_heap st)))
                 <-> In e' (keys (f_heap st)) \/ (e' = e /\ f_rates st x = 0%N)).
      { destruct (f_rates st x =? 0)%N eqn:Er.
        - apply N.eqb_eq in Er. rewrite keys_push, Er. tauto.
        - apply N.eqb_neq in Er. rewrite keys_change. tauto. }
      rewrite Hk. cbn [In]. split.
      * intros [[H | [-> H]] | (y & Hy & Hr)]; [left; exact H | right; exists x; split; [left; reflexivity | exact H] |].
        right. exists y. split; [right; exact Hy |]. unfold upd in Hr. destruct (y =? x) eqn:Ey; [| exact Hr].
        apply Nat.eqb_eq in Ey. subst y. exfalso. apply Hx. apply (in_map fst) in Hy. exact Hy.
      * intros [H | (y & [E | Hy] & Hr)]; [left; left; exact H | injection E as -> ->; left; right; split; [reflexivity | exact Hr] |].
        right. exists y. split; [exact Hy |]. unfold upd. destruct (y =? x) eqn:Ey; [| exact Hr].
        apply Nat.eqb_eq in Ey. subst y. exfalso. apply Hx. apply (in_map fst) in Hy. exact Hy.
Qed.

Definition open (st : flac) (x : nat) : bool := match next g st x with Some _ => true | None => false end.
Lemma next_edges_fst : forall st xs, map fst (next_edges g (f_marked st) xs) = filter (open st) xs.
Proof.
  intros st xs. unfold next_edges, open. induction xs as [| x xs IH]; [reflexivity |].
  cbn [flat_map filter]. rewrite map_app, IH. destruct (next g st x); reflexivity.
Qed.
Lemma next_edges_In : forall st xs x e, In (x, e) (next_edges g (f_marked st) xs) <-> In x xs /\ next g st x = Some e.
Proof.
  intros st xs x e. unfold next_edges. rewrite in_flat_map. split.
  - intros (y & Hy & Hin). destruct (next g st y) as [e' |] eqn:E; [| destruct Hin].
    destruct Hin as [Eq | []]. injection Eq as -> ->. split; assumption.
  - intros [Hx Hn]. exists x. split; [exact Hx |]. rewrite Hn. left. reflexivity.
Qed.

(** ** Saturating an edge *)
Definition saturate (st : flac) (e : nat) : flac :=
  {| f_saturated := insert e (f_saturated st); f_marked := f_marked st; f_root_feeding := f_root_feeding st;
     f_feeding := f_feeding st; f_rates := f_rates st; f_time := f_time st; f_heap := f_heap st |}.
Definition fed (st : flac) (e : nat) : flac :=
  fold_left (feed g (f_feeding st (dst g e)) (f_rates st (dst g e)))
            (next_edges g (f_marked st) (above g (f_saturated st) (S (List.length g)) (src g e))) (saturate st e).

Section Saturate.
Variables (tr : tree) (st : flac) (e : nat).
Hypothesis B : Inv (eq (dst g e)) tr st.
Hypothesis Hgood : good st (dst g e).
Hypothesis Hrate : (0 < f_rates st (dst g e))%N.
Hypothesis Hlen : e < List.length g.
Hypothesis Hmarked : In e (f_marked st).
Hypothesis Hu : ~ In (src g e) (t_nodes tr).
Hypothesis Hv : ~ In (dst g e) (t_nodes tr).
Hypothesis Hdeg : existsb (fun x => negb (bdisjoint (f_feeding st (dst g e)) (f_feeding st x)))
                          (above g (f_saturated st) (S (List.length g)) (src g e)) = false.
Let u := src g e.
Let v := dst g e.
Let P := fun e' => In e' (f_saturated st).
Let P' := fun e' => In e' (insert e (f_saturated st)).

Lemma above_iff : forall x, In x (above g (f_saturated st) (S (List.length g)) u) <-> exists p, path g P x p u.
Proof.
  intro x. rewrite above_In. split; [intros (p & Hp & _); exists p; exact Hp |].
  intros (p & Hp). exists p. split; [exact Hp |]. assert (H := path_length _ _ (i_acyclic _ _ _ B) _ _ _ Hp). lia.
Qed.
Lemma disjoint_above : forall x p, path g P x p u -> forall ix, bget (f_feeding st v) ix = true -> bget (f_feeding st x) ix = true -> False.
Proof.
  intros x p Hp. apply bdisjoint_spec. destruct (bdisjoint (f_feeding st v) (f_feeding st x)) eqn:E; [reflexivity |].
  exfalso. assert (Ht : existsb (fun x => negb (bdisjoint (f_feeding st (dst g e)) (f_feeding st x)))
                          (above g (f_saturated st) (S (List.length g)) (src g e)) = true); [| rewrite Hdeg in Ht; discriminate].
  apply existsb_exists. exists x. split; [apply above_iff; exists p; exact Hp |]. fold v. rewrite E. reflexivity.
Qed.
Lemma v_feeds : exists ix, bget (f_feeding st v) ix = true.
Proof.
  destruct Hgood as (_ & _ & Hr & _). apply Hr in Hrate. fold v in Hrate.
  destruct (count (f_feeding st v)) eqn:E; [lia |].
  destruct (bzeroes (map negb (f_feeding st v))) as [| ix l] eqn:Ez.
  - exfalso. apply bzeroes_nil in Ez. assert (Hz : count (f_feeding st v) = 0).
    { apply count_zero. intro i. destruct (bget (f_feeding st v) i) eqn:Ei; [| reflexivity].
      assert (Hi := bget_length _ _ Ei). rewrite bfull_spec in Ez. specialize (Ez i). rewrite map_length in Ez. specialize (Ez Hi).
      unfold bget in Ez, Ei. rewrite (nth_indep _ false (negb false)) in Ez by (rewrite map_length; exact Hi).
      rewrite map_nth, Ei in Ez. discriminate. }
    lia.
  - assert (Hin : In ix (bzeroes (map negb (f_feeding st v)))) by (rewrite Ez; left; reflexivity).
    apply bzeroes_In in Hin as [Hl Hf]. rewrite map_length in Hl. exists ix.
    unfold bget in *. rewrite (nth_indep _ false (negb false)) in Hf by (rewrite map_length; exact Hl).
    rewrite map_nth in Hf. apply negb_false_iff in Hf. exact Hf.
Qed.
Lemma v_reaches : exists ix t p, bget (f_feeding st v) ix = true /\ act ix t /\ path g P v p t.
Proof.
  destruct v_feeds as (ix & Hix). destruct (proj1 (proj1 Hgood ix) Hix) as (t & p & Ha & Hp).
  exists ix, t, p. split; [exact Hix | split; [exact Ha | exact Hp]].
Qed.
Lemma no_back : forall p, ~ path g P v p u.
Proof. intros p Hp. destruct v_feeds as (ix & Hix). apply (disjoint_above v p Hp ix Hix Hix). Qed.

Lemma first_use : forall p x y, path g P' x p y ->
  path g P x p y \/ exists p1 p2, p = p1 ++ e :: p2 /\ path g P x p1 u /\ path g P' v p2 y.
Proof.
  induction p as [| e' p IH]; intros x y H.
  - apply path_inv in H as ->. left. constructor.
  - apply path_inv in H as (Hl & He' & -> & H). unfold P' in He'. apply insert_In in He' as [-> | He'].
    + right. exists [], p. split; [reflexivity |]. split; [constructor | exact H].
    + destruct (IH _ _ H) as [H' | (p1 & p2 & -> & H1 & H2)].
      * left. apply path_cons'; assumption.
      * right. exists (e' :: p1), p2. split; [reflexivity |]. split; [apply path_cons'; assumption | exact H2].
Qed.
Lemma weaken : forall x p y, path g P x p y -> path g P' x p y.
Proof. intros x p y. apply path_weaken. intros e' _ H. apply insert_In. right. exact H. Qed.
Lemma from_v : forall p y, path g P' v p y -> path g P v p y.
Proof.
  intros p y H. destruct (first_use _ _ _ H) as [H' | (p1 & p2 & -> & H1 & _)]; [exact H' |].
  exfalso. apply (no_back p1 H1).
Qed.
Lemma uses : forall p x y, path g P' x p y <->
  (path g P x p y \/ exists p1 p2, p = p1 ++ e :: p2 /\ path g P x p1 u /\ path g P v p2 y).
Proof.
  intros p x y. split.
  - intro H. destruct (first_use _ _ _ H) as [H' | (p1 & p2 & E & H1 & H2)]; [left; exact H' |].
    right. exists p1, p2. split; [exact E |]. split; [exact H1 | apply from_v; exact H2].
  - intros [H | (p1 & p2 & -> & H1 & H2)]; [apply weaken; exact H |].
    eapply path_app; [apply weaken; exact H1 |]. apply path_cons'; [exact Hlen | apply insert_In; left; reflexivity | apply weaken; exact H2].
Qed.
Lemma acyclic' : acyclic g P'.
Proof.
  intros x p H. destruct (proj1 (uses _ _ _) H) as [H' | (p1 & p2 & -> & H1 & H2)].
  - apply (i_acyclic _ _ _ B _ _ H').
  - exfalso. apply (no_back (p2 ++ p1)). eapply path_app; eassumption.
Qed.

Lemma fed_ys : NoDup (map fst (next_edges g (f_marked st) (above g (f_saturated st) (S (List.length g)) (src g e)))).
Proof.
  rewrite next_edges_fst. apply above_NoDup. intros x p q y Hx Hp Hq.
  assert (Hn : next g st x <> None) by (unfold open in Hx; destruct (next g st x); [discriminate | discriminate]).
  apply (proj1 (proj2 (i_good _ _ _ B x Hn)) p q y Hp Hq).
Qed.
Lemma fed_in : forall x, mem x (map fst (next_edges g (f_marked st) (above g (f_saturated st) (S (List.length g)) (src g e)))) = true
  <-> (exists p, path g P x p u) /\ next g st x <> None.
Proof.
  intro x. rewrite next_edges_fst, mem_In, filter_In. fold u. rewrite above_iff. unfold open.
  destruct (next g st x); split; intros [H1 H2]; (split; [exact H1 | try discriminate; try contradiction; try reflexivity]).
Qed.
Lemma fed_out : forall x, mem x (map fst (next_edges g (f_marked st) (above g (f_saturated st) (S (List.length g)) (src g e)))) = false
  -> next g st x <> None -> forall p, ~ path g P x p u.
Proof.
  intros x Hm Hn p Hp. assert (Ht := proj2 (fed_in x) (conj (ex_intro _ p Hp) Hn)). rewrite Hm in Ht. discriminate.
Qed.

Lemma fed_facts :
  f_saturated (fed st e) = insert e (f_saturated st) /\ f_marked (fed st e) = f_marked st /\
  f_root_feeding (fed st e) = f_root_feeding st /\
  (forall x, (exists p, path g P x p u) -> next g st x <> None ->
     f_feeding (fed st e) x = bunion (f_feeding st x) (f_feeding st v) /\ f_rates (fed st e) x = (f_rates st x + f_rates st v)%N) /\
  (forall x, ~ ((exists p, path g P x p u) /\ next g st x <> None) ->
     f_feeding (fed st e) x = f_feeding st x /\ f_rates (fed st e) x = f_rates st x) /\
  (forall e', In e' (keys (f_heap (fed st e))) <->
     In e' (keys (f_heap st)) \/ exists x, (exists p, path g P x p u) /\ next g st x = Some e' /\ f_rates st x = 0%N).
Proof.
  destruct (feed_fold (f_feeding st (dst g e)) (f_rates st (dst g e)) _ (saturate st e) fed_ys) as (H1 & H2 & H3 & _ & H5 & H6 & H7).
  unfold fed. split; [exact H1 |]. split; [exact H2 |]. split; [exact H3 |]. split; [| split].
  - intros x Hx Hn. rewrite H5, H6. rewrite (proj2 (fed_in x) (conj Hx Hn)).
    split; [reflexivity |]. cbn [saturate f_rates]. unfold wrap. apply N.mod_small. fold v.
    destruct Hx as (p & Hp). destruct (i_good _ _ _ B x Hn) as (_ & _ & _ & Hrx). destruct Hgood as (_ & _ & _ & Hrv). fold v in Hrv.
    assert (Hc : count (bunion (f_feeding st x) (f_feeding st v)) = count (f_feeding st x) + count (f_feeding st v)).
    { apply count_bunion_disjoint. intros i Hi Hj. apply (disjoint_above x p Hp i Hj Hi). }
    assert (Hl := count_le (bunion (f_feeding st x) (f_feeding st v))). rewrite length_bunion, Hc in Hl.
    assert (Hl1 := i_len _ _ _ B x). assert (Hl2 := i_len _ _ _ B v). fold n in Hl1, Hl2. lia.
  - intros x Hx. rewrite H5, H6.
    destruct (mem x (map fst (next_edges g (f_marked st) (above g (f_saturated st) (S (List.length g)) (src g e))))) eqn:E.
    + exfalso. apply Hx. apply fed_in. exact E.
    + split; reflexivity.
  - intro e'. rewrite H7. cbn [saturate f_heap f_rates]. split.
    + intros [H | (x & Hx & Hr)]; [left; exact H |]. apply next_edges_In in Hx as [Hx Hn]. right. exists x.
      split; [apply above_iff; exact Hx | split; [exact Hn | exact Hr]].
    + intros [H | (x & Hx & Hn & Hr)]; [left; exact H |]. right. exists x. split; [| exact Hr].
      apply next_edges_In. split; [apply above_iff; exact Hx | exact Hn].
Qed.

Lemma x_not_v : forall x p, path g P x p u -> x <> v.
Proof. intros x p Hp ->. apply (no_back p Hp). Qed.
Lemma fed_v : f_feeding (fed st e) v = f_feeding st v /\ f_rates (fed st e) v = f_rates st v.
Proof. destruct fed_facts as (_ & _ & _ & _ & H & _). apply H. intros [(p & Hp) _]. apply (no_back p Hp). Qed.

(** Nothing below [v] is already below a node that gets water from it. *)
Lemma apart : forall x p, path g P x p u -> next g st x <> None -> forall q y r, path g P x q y -> path g P v r y -> False.
Proof.
  intros x p Hp Hn q y r Hq Hr.
  assert (Hy : exists ix t s, act ix t /\ path g P y s t).
  { destruct r as [| e' r _] using rev_ind.
    - apply path_inv in Hr as <-. destruct v_reaches as (ix & t & s & _ & Ha & Hs). exists ix, t, s. split; assumption.
    - apply path_last in Hr as (_ & He' & _ & ->). apply (i_useful _ _ _ B e' He'). }
  destruct Hy as (ix & t & s & Ha & Hs).
  apply (disjoint_above x p Hp ix).
  - apply (proj1 Hgood). exists t, (r ++ s). split; [exact Ha | eapply path_app; eassumption].
  - apply (proj1 (i_good _ _ _ B x Hn)). exists t, (q ++ s). split; [exact Ha | eapply path_app; eassumption].
Qed.

Lemma fed_good : forall x, next g st x <> None \/ x = v -> good (fed st e) x.
Proof.
  intros x Hx. destruct fed_facts as (F1 & F2 & F3 & F4 & F5 & F6).
  assert (Hgx : good st x) by (destruct Hx as [Hx | ->]; [apply (i_good _ _ _ B x Hx) | exact Hgood]).
  destruct Hgx as (G1 & G2 & G3 & G4).
  assert (Hcase : (exists p, path g P x p u) \/ forall p, ~ path g P x p u).
  { destruct (in_dec Nat.eq_dec x (above g (f_saturated st) (S (List.length g)) u)) as [H | H].
    - left. apply above_iff. exact H.
    - right. intros p Hp. apply H. apply above_iff. exists p. exact Hp. }
  unfold good. rewrite F1. fold P'. destruct Hcase as [Hup | Hno].
  - assert (Hn : next g st x <> None) by (destruct Hx as [Hx | ->]; [exact Hx | destruct Hup as (p & Hp); exfalso; apply (no_back p Hp)]).
    destruct (F4 x Hup Hn) as [-> ->]. destruct Hup as (p0 & Hp0). split; [| split; [| split]].
    + intro ix. rewrite bget_bunion, orb_true_iff, (G1 ix). pose proof (proj1 Hgood ix) as Gv. fold v in Gv. rewrite Gv. split.
      * intros [(t & p & Ha & Hp) | (t & p & Ha & Hp)].
        -- exists t, p. split; [exact Ha | apply weaken; exact Hp].
        -- exists t, (p0 ++ e :: p). split; [exact Ha |]. apply uses. right. exists p0, p. split; [reflexivity | split; assumption].
      * intros (t & p & Ha & Hp). apply uses in Hp as [Hp | (p1 & p2 & _ & _ & Hp)].
        -- left. exists t, p. split; assumption.
        -- right. exists t, p2. split; assumption.
    + intros p q y Hp Hq. apply uses in Hp as [Hp | (p1 & p2 & -> & Hp1 & Hp2)]; apply uses in Hq as [Hq | (q1 & q2 & -> & Hq1 & Hq2)].
      * apply (G2 p q y Hp Hq).
      * exfalso. apply (apart x q1 Hq1 Hn p y q2 Hp Hq2).
      * exfalso. apply (apart x p1 Hp1 Hn q y p2 Hq Hp2).
      * rewrite (G2 p1 q1 u Hp1 Hq1). destruct Hgood as (_ & Gu & _). rewrite (Gu p2 q2 y Hp2 Hq2). reflexivity.
    + rewrite count_bunion_disjoint by (intros i Hi Hj; apply (disjoint_above x p0 Hp0 i Hj Hi)).
      destruct Hgood as (_ & _ & G3' & _). fold v in G3'. fold v in Hrate. apply G3' in Hrate as Hc. split; intros _; lia.
    + rewrite count_bunion_disjoint by (intros i Hi Hj; apply (disjoint_above x p0 Hp0 i Hj Hi)).
      destruct Hgood as (_ & _ & _ & G4'). fold v in G4'. lia.
  - destruct (F5 x) as [-> ->]; [intros [(p & Hp) _]; apply (Hno p Hp) |].
    assert (Hsame : forall p y, path g P' x p y <-> path g P x p y).
    { intros p y. rewrite uses. split; [| intro H; left; exact H]. intros [H | (p1 & p2 & _ & H & _)]; [exact H |].
      exfalso. apply (Hno p1 H). }
    split; [| split; [| split; assumption]].
    + intro ix. rewrite (G1 ix). split; intros (t & p & Ha & Hp); exists t, p; (split; [exact Ha | apply Hsame; exact Hp]).
    + intros p q y Hp Hq. apply (G2 p q y); apply Hsame; assumption.
Qed.

Lemma fed_inv : Inv (eq (dst g e)) tr (fed st e) /\ (0 < f_rates (fed st e) (dst g e))%N.
Proof.
  destruct fed_facts as (F1 & F2 & F3 & F4 & F5 & F6).
  split; [| fold v; rewrite (proj2 fed_v); exact Hrate].
  assert (Hcase : forall x, (exists p, path g P x p u) \/ forall p, ~ path g P x p u).
  { intro x. destruct (in_dec Nat.eq_dec x (above g (f_saturated st) (S (List.length g)) u)) as [H | H].
    - left. apply above_iff. exact H.
    - right. intros p Hp. apply H. apply above_iff. exists p. exact Hp. }
  assert (Hopen : forall x, (next g st x <> None) \/ next g st x = None) by (intro x; destruct (next g st x); [left; discriminate | right; reflexivity]).
  constructor; rewrite ?F1, ?F2, ?F3.
  - intros e' He'. apply insert_In in He' as [-> | He']; [exact Hmarked | apply (i_sat_marked _ _ _ B); exact He'].
  - apply (i_marked _ _ _ B).
  - intros e' He'. apply F6 in He' as [He' | (x & Hx & Hn & Hr)].
    + destruct (i_heap _ _ _ B e' He') as [H1 H2]. split; [exact H1 |].
      destruct (Hcase (dst g e')) as [Hp | Hno].
      * assert (Hno : next g st (dst g e') <> None) by (rewrite H1; discriminate).
        rewrite (proj2 (F4 _ Hp Hno)). lia.
      * rewrite (proj2 (F5 (dst g e') (fun H => match H with conj (ex_intro _ p Hp) _ => Hno p Hp end))). exact H2.
    + destruct (find_next_some _ _ _ _ Hn) as (_ & Hd & _). rewrite Hd. split; [exact Hn |].
      assert (Hno : next g st x <> None) by (rewrite Hn; discriminate). rewrite (proj2 (F4 _ Hx Hno)). fold v in Hrate. lia.
  - intros x e' Hxv Hn Hr Ht. apply F6. destruct (Hcase x) as [Hp | Hno].
    + destruct (N.eq_dec (f_rates st x) 0) as [H0 | H0].
      * right. exists x. split; [exact Hp | split; [exact Hn | exact H0]].
      * left. apply (i_flow _ _ _ B x e' Hxv Hn); [lia | exact Ht].
    + left. apply (i_flow _ _ _ B x e' Hxv Hn); [| exact Ht].
      rewrite (proj2 (F5 x (fun H => match H with conj (ex_intro _ p Hp) _ => Hno p Hp end))) in Hr. exact Hr.
  - intros x Hx. apply fed_good. left. exact Hx.
  - intros x ix Hix. fold P'.
    destruct (Hcase x) as [Hp | Hno]; [destruct (Hopen x) as [Hn | Hn] |].
    + destruct (fed_good x (or_introl Hn)) as (G & _). apply G in Hix. rewrite F1 in Hix. exact Hix.
    + assert (Hq : ~ ((exists p, path g P x p u) /\ next g st x <> None)) by (intros [_ H]; contradiction).
      rewrite (proj1 (F5 x Hq)) in Hix. destruct (i_sound _ _ _ B x ix Hix) as (t & p & Ha & Hpt).
      exists t, p. split; [exact Ha | apply weaken; exact Hpt].
    + rewrite (proj1 (F5 x (fun H => match H with conj (ex_intro _ p Hp) _ => Hno p Hp end))) in Hix.
      destruct (i_sound _ _ _ B x ix Hix) as (t & p & Ha & Hpt). exists t, p. split; [exact Ha | apply weaken; exact Hpt].
  - intros e' He'. fold P'. apply insert_In in He' as [-> | He'].
    + destruct v_reaches as (ix & t & p & _ & Ha & Hp). exists ix, t, p. split; [exact Ha | apply weaken; exact Hp].
    + destruct (i_useful _ _ _ B e' He') as (ix & t & p & Ha & Hp). exists ix, t, p. split; [exact Ha | apply weaken; exact Hp].
  - exact acyclic'.
  - intros e' He' Hs. apply insert_In in He' as [-> | He']; [contradiction | apply (i_closed _ _ _ B e' He' Hs)].
  - intros e' ix t p He' Hd Ha Hp. fold P' in Hp. apply insert_In in He' as [-> | He']; [contradiction |].
    apply uses in Hp as [Hp | (p1 & p2 & _ & Hp1 & _)]; [apply (i_rooted _ _ _ B e' ix t p He' Hd Ha Hp) |].
    exfalso. apply Hu. fold u. revert Hd. apply (path_closed g P (fun z => In z (t_nodes tr))) with (p := p1); [| exact Hp1].
    intros e'' _ H H'. apply (i_closed _ _ _ B e'' H H').
  - intro x. destruct (Hcase x) as [Hp | Hno]; [destruct (Hopen x) as [Hn | Hn] |].
    + rewrite (proj1 (F4 x Hp Hn)), length_bunion. assert (H1 := i_len _ _ _ B x). assert (H2 := i_len _ _ _ B v). lia.
    + assert (Hq : ~ ((exists p, path g P x p u) /\ next g st x <> None)) by (intros [_ H]; contradiction).
      rewrite (proj1 (F5 x Hq)). apply (i_len _ _ _ B).
    + rewrite (proj1 (F5 x (fun H => match H with conj (ex_intro _ p Hp) _ => Hno p Hp end))). apply (i_len _ _ _ B).
  - apply (i_root_len _ _ _ B).
  - apply (i_covered _ _ _ B).
  - intros e' He'. apply insert_In in He' as [-> | He']; [| apply (i_new _ _ _ B e' He')].
    intro H. apply Hv. apply (i_tree0 _ _ _ B). exact H.
  - apply (i_tree0 _ _ _ B).
Qed.
End Saturate.
End Invariant.
