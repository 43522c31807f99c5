From Coq Require Import List Arith Bool Lia.
From Verif.Subscription Require Import Model Spec.
Import ListNotations.

Section Proofs.
Variable R : Type.
Variable total : nat.
Notation state := (state R).
Notation event := (event R).

(** The queue holds the events taken and not sent, in order. *)
Record inv (s : state) : Prop :=
  { i_gone : s_phase R s <> Gone -> sent (s_log R s) ++ map fst (s_queue R s) = seq 0 (s_next R s);
    i_prefix : exists more, sent (s_log R s) ++ more ++ map fst (s_queue R s) = seq 0 (s_next R s) /\ length more <= 1;
    i_total : s_next R s <= total;
    i_bound : length (s_queue R s) <= 3;
    i_drain : s_phase R s = Drain \/ s_phase R s = Done -> s_next R s = total;
    i_done : s_phase R s = Done -> s_queue R s = [];
    i_taken : forall k, In (Taken k) (s_log R s) <-> k < s_next R s;
    i_some : forall k r, In (k, Some r) (s_queue R s) -> In (Ended k r) (s_log R s);
    i_none : forall k, In (k, None) (s_queue R s) -> forall r, ~ In (Ended k r) (s_log R s);
    i_ended : forall k r, In (Ended k r) (s_log R s) -> k < s_next R s;
    i_open : forall k, k < s_next R s -> (forall r, ~ In (Ended k r) (s_log R s)) -> In (k, None) (s_queue R s);
    i_genuine : genuine (s_log R s);
    i_exec : executed (s_log R s) }.
Lemma snoc_split : forall (A : Type) (l : list A) x a e b, l ++ [x] = a ++ e :: b -> (b = [] /\ a = l /\ e = x) \/ exists b', b = b' ++ [x] /\ l = a ++ e :: b'.
Proof.
  intros A l x a e b H. destruct (exists_last (l := e :: b)) as (u & y & E); [discriminate|]. rewrite E, app_assoc in H. apply app_inj_tail in H. destruct H as [H ->].
  destruct u as [|z u]; cbn [app] in E.
  - injection E as -> ->. left. rewrite app_nil_r in H. auto.
  - injection E as -> ->. right. exists u. auto.
Qed.
Lemma sent_snoc : forall (log : list event) e, sent (log ++ [e]) = sent log ++ match e with Sent k _ => [k] | _ => [] end.
Proof. intros log e. unfold sent. rewrite flat_map_app. cbn [flat_map]. rewrite app_nil_r. reflexivity. Qed.
Lemma in_snoc : forall (A : Type) (l : list A) x y, In x (l ++ [y]) <-> In x l \/ x = y.
Proof. intros A l x y. rewrite in_app_iff. cbn [In]. intuition congruence. Qed.

Lemma finish_some : forall k r q q', finish R k r q = Some q' -> NoDup (map fst q) -> map fst q' = map fst q /\ In (k, None) q /\
  (forall j v, In (j, v) q' <-> (j = k /\ v = Some r) \/ (j <> k /\ In (j, v) q)).
Proof.
  intros k r q. induction q as [|[j v] q IH]; intros q' H N; [discriminate H|]. cbn [finish] in H. cbn [map fst] in N. inversion N as [|? ? Nj Nq]; subst. destruct (j =? k) eqn:E.
  - apply Nat.eqb_eq in E. subst j. destruct v; [discriminate H|]. injection H as <-. split; [reflexivity|]. split; [left; reflexivity|]. intros j v. cbn [In]. split.
    + intros [K|K]; [injection K as <- <-; auto|]. right. split; [|auto]. intros ->. apply Nj. apply (in_map fst) in K. exact K.
    + intros [[-> ->]|[Nk [K|K]]]; [auto|congruence|auto].
  - apply Nat.eqb_neq in E. destruct (finish R k r q) as [q''|]; [|discriminate H]. injection H as <-. destruct (IH q'' eq_refl Nq) as (A & B & C). cbn [map fst]. split; [f_equal; exact A|].
    split; [right; exact B|]. intros i w. cbn [In]. rewrite C. split.
    + intros [K|[K|[K1 K2]]]; [injection K as <- <-; auto|auto|auto].
    + intros [K|[K1 [K|K]]]; auto.
Qed.
Lemma finish_nth : forall k r q, In (k, None) q -> NoDup (map fst q) -> exists q', finish R k r q = Some q'.
Proof.
  intros k r q. induction q as [|[j v] q IH]; intros I N; [destruct I|]. cbn [finish]. cbn [map fst] in N. inversion N as [|? ? Nj Nq]; subst. destruct (j =? k) eqn:E.
  - apply Nat.eqb_eq in E. subst j. destruct I as [I|I]; [injection I as ->; eauto|]. exfalso. apply Nj. apply (in_map fst) in I. exact I.
  - destruct I as [I|I]; [injection I as -> ->; rewrite Nat.eqb_refl in E; discriminate E|]. destruct (IH I Nq) as (q' & ->). eauto.
Qed.
Lemma queue_nodup : forall s, inv s -> NoDup (map fst (s_queue R s)).
Proof.
  intros s I. destruct (i_prefix s I) as (more & E & _). pose proof (seq_NoDup (s_next R s) 0) as N. rewrite <- E, app_assoc in N.
  induction (sent (s_log R s) ++ more) as [|x l IH]; [exact N|]. apply IH. inversion N; assumption.
Qed.
Lemma queue_lt : forall s k v, inv s -> In (k, v) (s_queue R s) -> k < s_next R s.
Proof.
  intros s k v I J. destruct (i_prefix s I) as (more & E & _). assert (K : In k (seq 0 (s_next R s))).
  { rewrite <- E. rewrite !in_app_iff. right. right. apply (in_map fst) in J. exact J. }
  apply in_seq in K. lia.
Qed.
Lemma finish_inv : forall s k r, inv s -> inv (step R total s (Finish k r)).
Proof.
  intros s k r I. cbn [step]. destruct (finish R k r (s_queue R s)) as [q|] eqn:F; [|exact I].
  destruct (finish_some k r _ q F (queue_nodup s I)) as (Em & Ik & Iq). pose proof (queue_nodup s I) as Nq. pose proof (queue_lt s k None I Ik) as Lk.
  pose proof I as I0. destruct I as [I1 I2 I3 I4 I5 I6 I7 I8 I9 I10 I11 I12 I13].
  constructor; cbn [s_phase s_next s_queue s_log]; try rewrite Em; try rewrite sent_snoc, ?app_nil_r; auto.
  - rewrite <- (map_length fst), Em, map_length. exact I4.
  - intros Hd. rewrite (I6 Hd) in Ik. destruct Ik.
  - intros j. rewrite in_snoc, I7. split; [intros [K|K]; [exact K|discriminate K]|auto].
  - intros j r' J. rewrite in_snoc. apply Iq in J. destruct J as [[-> E]|[N J]]; [right; congruence|left; apply I8; exact J].
  - intros j J r'. rewrite in_snoc. apply Iq in J. destruct J as [[-> E]|[N J]]; [discriminate E|]. intros [K|K]; [exact (I9 j J r' K)|congruence].
  - intros j r' J. rewrite in_snoc in J. destruct J as [J|J]; [apply (I10 j r' J)|injection J as -> ->; exact Lk].
  - intros j L H. assert (N : j <> k) by (intros ->; apply (H r); rewrite in_snoc; auto). apply Iq. right. split; [exact N|]. apply I11; [exact L|]. intros r' K. apply (H r'). rewrite in_snoc. auto.
  - intros b j r' a E. apply snoc_split in E. destruct E as [(_ & _ & E)|(a' & _ & E)]; [discriminate E|]. eapply I12; exact E.
  - intros b j r' a E. apply snoc_split in E. destruct E as [(_ & -> & E)|(a' & _ & E)]; [|eapply I13; exact E]. injection E as -> ->. split; [apply I7; exact Lk|]. intros r'. apply I9. exact Ik.
Qed.
Lemma take_inv : forall s, inv s -> s_phase R s = Loop -> length (s_queue R s) < 3 -> inv (take R total s).
Proof.
  intros s I Hp L. unfold take. pose proof (queue_lt s) as Ql. pose proof I as I0. destruct I as [I1 I2 I3 I4 I5 I6 I7 I8 I9 I10 I11 I12 I13]. destruct (s_next R s <? total) eqn:E.
  - apply Nat.ltb_lt in E. assert (Ne : s_phase R s <> Gone) by (rewrite Hp; discriminate).
    assert (Eq : sent (s_log R s) ++ map fst (s_queue R s ++ [(s_next R s, None)]) = seq 0 (s_next R s + 1)).
    { rewrite map_app, app_assoc, (I1 Ne). rewrite seq_app. reflexivity. }
    constructor; cbn [s_phase s_next s_queue s_log]; try rewrite sent_snoc, app_nil_r; auto.
    + exists []. split; [exact Eq|cbn; lia].
    + lia.
    + rewrite app_length. cbn [length]. lia.
    + intros [K|K]; rewrite Hp in K; discriminate K.
    + intros K. rewrite Hp in K. discriminate K.
    + intros k. rewrite in_snoc, I7. split; [intros [K|K]; [lia|injection K as ->; lia]|]. intros K. destruct (Nat.eq_dec k (s_next R s)) as [->|]; [auto|left; lia].
    + intros k r J. rewrite in_snoc in J. destruct J as [J|J]; [|discriminate J]. rewrite in_snoc. left. apply I8. exact J.
    + intros k J r. rewrite in_snoc in J. rewrite in_snoc. intros [K|K]; [|discriminate K]. destruct J as [J|J]; [exact (I9 k J r K)|]. injection J as ->. apply I10 in K. lia.
    + intros k r J. rewrite in_snoc in J. destruct J as [J|J]; [|discriminate J]. apply I10 in J. lia.
    + intros k K H. rewrite in_snoc. destruct (Nat.eq_dec k (s_next R s)) as [->|]; [auto|]. left. apply I11; [lia|]. intros r J. apply (H r). rewrite in_snoc. auto.
    + intros b k r a H. apply snoc_split in H. destruct H as [(_ & _ & H)|(a' & _ & H)]; [discriminate H|]. eapply I12; exact H.
    + intros b k r a H. apply snoc_split in H. destruct H as [(_ & _ & H)|(a' & _ & H)]; [discriminate H|]. eapply I13; exact H.
  - apply Nat.ltb_ge in E. constructor; cbn [s_phase s_next s_queue s_log]; auto.
    + intros _. apply I1. rewrite Hp. discriminate.
    + intros _. lia.
    + discriminate.
Qed.
Lemma deliver_inv : forall accepted s s', inv s -> s_phase R s = Loop \/ s_phase R s = Drain -> deliver R accepted s = Some s' -> inv s'.
Proof.
  intros accepted s s' I Hp D. unfold deliver in D. destruct (s_queue R s) as [|[k [r|]] q] eqn:Eq; [discriminate D| |discriminate D]. pose proof (queue_nodup s I) as Nq.
  assert (Ne : s_phase R s <> Gone) by (destruct Hp as [->| ->]; discriminate). assert (Nd : s_phase R s <> Done) by (destruct Hp as [->| ->]; discriminate).
  rewrite Eq in Nq. pose proof (i_some s I k r) as Ks. rewrite Eq in Ks. specialize (Ks (or_introl eq_refl)).
  destruct I as [I1 I2 I3 I4 I5 I6 I7 I8 I9 I10 I11 I12 I13]. rewrite Eq in *. cbn [map fst length] in *.
  assert (I8' : forall j r', In (j, Some r') q -> In (Ended j r') (s_log R s)) by (intros j r' J; apply I8; right; exact J).
  assert (I9' : forall j, In (j, None) q -> forall r', ~ In (Ended j r') (s_log R s)) by (intros j J; apply I9; right; exact J).
  assert (I11' : forall j, j < s_next R s -> (forall r', ~ In (Ended j r') (s_log R s)) -> In (j, None) q).
  { intros j L H. destruct (I11 j L H) as [K|K]; [discriminate K|exact K]. }
  destruct accepted; injection D as <-.
  - constructor; cbn [s_phase s_next s_queue s_log]; try rewrite sent_snoc; auto.
    + intros _. rewrite <- app_assoc. cbn [app]. apply I1. exact Ne.
    + exists []. split; [|cbn; lia]. rewrite <- app_assoc. cbn [app]. apply I1. exact Ne.
    + lia.
    + intros K. contradiction.
    + intros j. rewrite in_snoc, I7. split; [intros [K|K]; [exact K|discriminate K]|auto].
    + intros j r' J. rewrite in_snoc. left. apply I8'. exact J.
    + intros j J r'. rewrite in_snoc. intros [K|K]; [exact (I9' j J r' K)|discriminate K].
    + intros j r' J. rewrite in_snoc in J. destruct J as [J|J]; [apply (I10 j r' J)|discriminate J].
    + intros j L H. apply I11'; [exact L|]. intros r' K. apply (H r'). rewrite in_snoc. auto.
    + intros b j r' a H. apply snoc_split in H. destruct H as [(_ & -> & H)|(a' & _ & H)]; [injection H as -> ->; exact Ks|eapply I12; exact H].
    + intros b j r' a H. apply snoc_split in H. destruct H as [(_ & _ & H)|(a' & _ & H)]; [discriminate H|eapply I13; exact H].
  - constructor; cbn [s_phase s_next s_queue s_log]; auto.
    + intros K. congruence.
    + exists [k]. split; [apply I1; exact Ne|cbn; lia].
    + lia.
    + intros [K|K]; discriminate K.
    + discriminate.
Qed.
Lemma step_inv : forall s o, inv s -> inv (step R total s o).
Proof.
  intros s [k r|ready accepted] I; [apply finish_inv; exact I|]. cbn [step]. destruct (s_phase R s) eqn:Hp; [| |exact I|exact I].
  - destruct (length (s_queue R s) =? 0) eqn:E0.
    + apply Nat.eqb_eq in E0. destruct ready; [apply take_inv; [exact I|exact Hp|lia]|exact I].
    + destruct (length (s_queue R s) <? 3) eqn:E3.
      * apply Nat.ltb_lt in E3. destruct (deliver R accepted s) as [s'|] eqn:D; [eapply deliver_inv; [exact I|left; exact Hp|exact D]|]. destruct ready; [apply take_inv; assumption|exact I].
      * destruct (deliver R accepted s) as [s'|] eqn:D; [eapply deliver_inv; [exact I|left; exact Hp|exact D]|exact I].
  - destruct (length (s_queue R s) =? 0) eqn:E0.
    + apply Nat.eqb_eq in E0. apply length_zero_iff_nil in E0. pose proof (i_drain s I (or_introl Hp)) as Id. destruct I as [I1 I2 I3 I4 I5 I6 I7 I8 I9 I10 I11 I12 I13].
      constructor; cbn [s_phase s_next s_queue s_log]; auto. intros _. apply I1. rewrite Hp. discriminate.
    + destruct (deliver R accepted s) as [s'|] eqn:D; [eapply deliver_inv; [exact I|right; exact Hp|exact D]|exact I].
Qed.
Lemma init_inv : inv (init R).
Proof.
  constructor; cbn [init s_phase s_next s_queue s_log map sent flat_map app seq length].
  - reflexivity.
  - exists []. split; [reflexivity|cbn; lia].
  - lia.
  - lia.
  - intros [K|K]; discriminate K.
  - reflexivity.
  - intros k. split; [intros []|lia].
  - intros k r [].
  - intros k [].
  - intros k r [].
  - intros k L. lia.
  - intros b k r a H. destruct b; discriminate H.
  - intros b k r a H. destruct b; discriminate H.
Qed.
Lemma run_inv : forall ops, inv (run R total ops).
Proof.
  intros ops. unfold run. assert (G : forall ops s, inv s -> inv (fold_left (step R total) ops s)).
  { intros l. induction l as [|o l IH]; intros s I; [exact I|]. cbn [fold_left]. apply IH. apply step_inv. exact I. }
  apply G. apply init_inv.
Qed.
Lemma run_snoc : forall ops o, run R total (ops ++ [o]) = step R total (run R total ops) o.
Proof. intros ops o. unfold run. rewrite fold_left_app. reflexivity. Qed.
End Proofs.
