(** What holds after any interleaving. *)
From Coq Require Import List Bool PeanoNat Lia.
From Verif.Dedup Require Import Model Spec.
Import ListNotations.

Section Invariant.
  Variables A K X : Type.
  Variable same_key : K -> K -> bool.
  Variable cap : nat.
  Hypothesis same_key_spec : forall a b, same_key a b = true <-> a = b.

  Arguments gave {A K X}. Arguments sends {A K X}. Arguments clients {A K X}. Arguments client {A K X}.
  Arguments reads {A}.
  Arguments Starting {A}. Arguments Idle {A}. Arguments Sending {A}. Arguments Removing {A}. Arguments Failing {A}.
  Arguments Ending {A}. Arguments Finished {A}.
  Arguments c_key {A K X}. Arguments c_ext {A K X}. Arguments c_phase {A K X}. Arguments c_closed {A K X}. Arguments c_sent {A K X}.
  Arguments r_chan {A}. Arguments r_next {A}. Arguments r_got {A}. Arguments r_status {A}.
  Arguments entries {A K X}. Arguments channels {A K X}. Arguments receivers {A K X}.
  Arguments Subscribe {A K X}. Arguments Next {A K X}. Arguments Send {A K X}. Arguments Remove {A K X}.
  Arguments GuestEnds {A K X}. Arguments GuestFails {A K X}. Arguments SendError {A K X}. Arguments Finish {A K X}.
  Arguments Receive {A K X}. Arguments Leave {A K X}. Arguments Started {A K X}.
  Arguments heard {A K X}. Arguments update {B}.

  Notation event := (event A K X).
  Notation state := (state A K X).
  Notation channel := (channel A K X).
  Notation receiver := (receiver A).
  Notation step := (step A K X same_key cap).
  Notation run := (run A K X).
  Notation start := (start A K X).

  Definition pending (p : phase A) : list A :=
    match p with Sending l | Removing l => l | Failing e => [e] | _ => [] end.

  Definition live (c : channel) : Prop := c_closed c = false /\ c_phase c <> Finished.

  Record chan_ok (es : list event) (s : state) (i : nat) (c : channel) : Prop := {
    k_le : sends i es <= length (gave i es);
    k_pending : c_phase c <> Finished -> skipn (sends i es) (gave i es) = pending (c_phase c);
    k_all : c_phase c = Finished -> heard i s = false \/ sends i es = length (gave i es);
    k_removing : forall l, c_phase c = Removing l -> c_closed c = false;
    k_closed : c_closed c = true -> In (Remove i) es;
    k_finish : c_phase c = Finished -> In (Finish i) es \/ c_closed c = true;
    k_finished : In (Finish i) es -> c_phase c = Finished;
    k_new : exists before x later, es = before ++ Subscribe x (c_key c) :: later /\ c_ext c = x
  }.

  Record rec_ok (es : list event) (s : state) (j : nat) (r : receiver) (before : list event) (x : X) (k : K)
    (c : channel) (q : nat) : Prop := {
    o_client : client j before x k es;
    o_chan : nth_error (channels s) (r_chan r) = Some c;
    o_key : c_key c = k;
    o_reads : reads cap (skipn (sends (r_chan r) before) (gave (r_chan r) es)) 0 (r_got r) q;
    o_before : sends (r_chan r) before <= length (gave (r_chan r) before);
    o_open : r_status r = Open -> exists base,
        r_next r = base + q /\ base <= length (c_sent c) /\ sends (r_chan r) before + q <= sends (r_chan r) es
        /\ skipn base (c_sent c)
           = firstn (sends (r_chan r) es - sends (r_chan r) before) (skipn (sends (r_chan r) before) (gave (r_chan r) es));
    o_over : r_status r = Over -> c_phase c = Finished /\ sends (r_chan r) before + q = length (gave (r_chan r) es)
  }.

  Record inv (es : list event) (s : state) : Prop := {
    i_clients : length (receivers s) = clients es;
    i_keys : NoDup (map fst (entries s));
    i_entries : forall k i, In (k, i) (entries s) <-> exists c, nth_error (channels s) i = Some c /\ c_key c = k /\ live c;
    i_chan : forall i c, nth_error (channels s) i = Some c -> chan_ok es s i c;
    i_none : forall i, nth_error (channels s) i = None -> gave i es = [] /\ sends i es = 0 /\ ~ In (Finish i) es;
    i_rec : forall j r, nth_error (receivers s) j = Some r -> exists before x k c q, rec_ok es s j r before x k c q
  }.

  (** ** Lists *)

  Lemma update_length {B} (f : B -> B) : forall l i, length (update i f l) = length l.
  Proof. induction l; intros [|i]; cbn; auto. Qed.

  Lemma nth_update_same {B} (f : B -> B) : forall l i x, nth_error l i = Some x -> nth_error (update i f l) i = Some (f x).
  Proof. induction l; intros [|i] x E; cbn in *; try discriminate; [congruence|auto]. Qed.

  Lemma nth_update_other {B} (f : B -> B) : forall l i i', i <> i' -> nth_error (update i f l) i' = nth_error l i'.
  Proof. induction l; intros [|i] [|i'] E; cbn; auto; congruence. Qed.

  Lemma skipn_cons {B} : forall n (l : list B) a t, skipn n l = a :: t -> skipn (S n) l = t /\ nth_error l n = Some a /\ n < length l.
  Proof.
    induction n; intros l a t E.
    - cbn in E. subst. cbn. split; [reflexivity|]. split; [reflexivity|lia].
    - destruct l as [|b l]; [discriminate|]. cbn [skipn] in *. destruct (IHn _ _ _ E) as [E1 [E2 E3]].
      split; [exact E1|]. split; [exact E2|]. cbn. lia.
  Qed.

  Lemma skipn_app_le {B} : forall n (l m : list B), n <= length l -> skipn n (l ++ m) = skipn n l ++ m.
  Proof. intros. rewrite skipn_app. replace (n - length l) with 0 by lia. reflexivity. Qed.

  Lemma firstn_snoc {B} : forall n (l : list B) a, nth_error l n = Some a -> firstn (S n) l = firstn n l ++ [a].
  Proof.
    induction n; intros [|b l] a E; cbn in E; try discriminate; [injection E as ->; reflexivity|].
    change (b :: firstn (S n) l = b :: (firstn n l ++ [a])). rewrite (IHn l a E). reflexivity.
  Qed.

  Lemma nth_skipn {B} : forall n m (l : list B), nth_error (skipn n l) m = nth_error l (n + m).
  Proof. induction n; intros m l; [reflexivity|]. destruct l; [destruct m; reflexivity|]. cbn. apply IHn. Qed.

  Lemma nth_firstn {B} : forall n m (l : list B), m < n -> nth_error (firstn n l) m = nth_error l m.
  Proof. induction n; intros m l E; [lia|]. destruct l; [destruct m; reflexivity|]. destruct m; [reflexivity|]. cbn. apply IHn. lia. Qed.

  Lemma reads_app : forall (l m : list A) p got q, reads cap l p got q -> reads cap (l ++ m) p got q.
  Proof.
    intros l m p got q H. induction H.
    - constructor.
    - constructor; [|exact IHreads]. rewrite nth_error_app1; [exact H|]. apply nth_error_Some. congruence.
    - econstructor 3; [exact H| |exact IHreads]. rewrite app_length. lia.
  Qed.

  Lemma reads_snoc : forall (l : list A) p got q a, reads cap l p got q -> nth_error l q = Some a -> reads cap l p (got ++ [Some a]) (S q).
  Proof.
    intros l p got q a H E. induction H; cbn [app].
    - constructor; [exact E|constructor].
    - constructor; [exact H|auto].
    - econstructor 3; [exact H|exact H0|auto].
  Qed.

  Lemma reads_snoc_lag : forall (l : list A) p got q q', reads cap l p got q -> q < q' -> q' + cap <= length l ->
    reads cap l p (got ++ [None]) q'.
  Proof.
    intros l p got q q' H E F. induction H; cbn [app].
    - econstructor 3; [exact E|exact F|constructor].
    - constructor; [exact H|auto].
    - econstructor 3; [exact H|exact H0|auto].
  Qed.

  Lemma reads_le : forall (l : list A) p got q, p <= length l -> reads cap l p got q -> p <= q /\ q <= length l.
  Proof.
    intros l p got q L H. induction H.
    - lia.
    - assert (p < length l) by (apply nth_error_Some; congruence). destruct IHreads; lia.
    - destruct IHreads; lia.
  Qed.

  Lemma gave_app : forall i (es es' : list event), gave i (es ++ es') = gave i es ++ gave i es'.
  Proof.
    intros i es es'. induction es as [|e es IH]; [reflexivity|].
    destruct e; cbn [app gave]; rewrite ?IH; try reflexivity; destruct (Nat.eqb _ _); rewrite ?app_assoc; reflexivity.
  Qed.

  Lemma sends_app : forall i (es es' : list event), sends i (es ++ es') = sends i es + sends i es'.
  Proof.
    intros i es es'. induction es as [|e es IH]; [reflexivity|].
    destruct e; cbn [app sends]; rewrite ?IH; try reflexivity; destruct (Nat.eqb _ _); reflexivity.
  Qed.

  Lemma clients_app : forall (es es' : list event), clients (es ++ es') = clients es + clients es'.
  Proof.
    intros es es'. induction es as [|e es IH]; [reflexivity|].
    destruct e; cbn [app clients]; rewrite ?IH; reflexivity.
  Qed.

  Lemma heard_iff : forall i (s : state), heard i s = true <-> exists j r, nth_error (receivers s) j = Some r /\ r_chan r = i /\ r_status r = Open.
  Proof.
    intros i s. unfold heard, listens. rewrite existsb_exists. split.
    - intros [r [H E]]. apply In_nth_error in H. destruct H as [j H]. exists j, r. split; [exact H|].
      apply andb_prop in E. destruct E as [E1 E2]. apply Nat.eqb_eq in E1. split; [exact E1|]. destruct (r_status r); congruence.
    - intros [j [r [H [E1 E2]]]]. exists r. split; [eapply nth_error_In; exact H|]. rewrite E1, E2, Nat.eqb_refl. reflexivity.
  Qed.

  Lemma client_snoc : forall j before x k (es : list event) e, client j before x k es -> client j before x k (es ++ [e]).
  Proof.
    intros j before x k es e [later [E H]]. exists (later ++ [e]). rewrite E, <- ?app_assoc. split; [reflexivity|exact H].
  Qed.

  Lemma client_sends : forall i j before x k (es : list event), client j before x k es -> sends i before <= sends i es /\ exists l, gave i es = gave i before ++ l.
  Proof.
    intros i j before x k es [later [E _]]. subst es. rewrite sends_app, gave_app. split; [lia|]. eexists. reflexivity.
  Qed.

  Lemma entry_some : forall k s i, entry A K X same_key k s = Some i -> In (k, i) (entries s).
  Proof.
    intros k s i. unfold entry. destruct (find _ (entries s)) as [[k' i']|] eqn:F; [|discriminate].
    intros E. cbn in E. injection E as ->. apply find_some in F. destruct F as [F E]. cbn in E. apply same_key_spec in E. subst. exact F.
  Qed.

  Lemma entry_none : forall k s i, entry A K X same_key k s = None -> ~ In (k, i) (entries s).
  Proof.
    intros k s i. unfold entry. destruct (find _ (entries s)) as [[k' i']|] eqn:F; [discriminate|].
    intros _ H. apply (find_none _ _ F) in H. cbn in H. assert (E : same_key k k = true) by (apply same_key_spec; reflexivity). congruence.
  Qed.

  Lemma without_in : forall k es k' (i : nat), In (k', i) (without K same_key k es) <-> In (k', i) es /\ k' <> k.
  Proof.
    intros k es k' i. unfold without. rewrite filter_In. cbn [fst]. split; intros [H E]; (split; [exact H|]).
    - intros F. apply same_key_spec in F. rewrite F in E. discriminate.
    - destruct (same_key k' k) eqn:F; [|reflexivity]. apply same_key_spec in F. contradiction.
  Qed.

  Lemma without_nodup : forall k es, NoDup (map fst es) -> NoDup (map fst (without K same_key k es)).
  Proof.
    intros k es. unfold without. induction es as [|[k' i] es IH]; cbn [map filter fst]; intros D; [constructor|].
    inversion D; subst. destruct (same_key k' k); cbn [negb map fst]; [auto|]. constructor; [|auto].
    intros H. apply H1. apply in_map_iff in H. destruct H as [[k2 i2] [E H]]. cbn in E. subst.
    apply filter_In in H. destruct H as [H _]. apply in_map_iff. exists (k', i2). auto.
  Qed.

  Lemma nodup_fst : forall (es : list (K * nat)) k i i', NoDup (map fst es) -> In (k, i) es -> In (k, i') es -> i = i'.
  Proof.
    induction es as [|[k0 i0] es IH]; cbn [map fst]; intros k i i' D H H'; [destruct H|].
    inversion D; subst. destruct H as [H|H], H' as [H'|H'].
    - congruence.
    - injection H as -> ->. exfalso. apply H2. apply in_map_iff. exists (k, i'). auto.
    - injection H' as -> ->. exfalso. apply H2. apply in_map_iff. exists (k, i). auto.
    - eapply IH; eauto.
  Qed.

  (** ** An action of a task *)

  Lemma task_ok : forall es s e i c c' entries',
    inv es s -> nth_error (channels s) i = Some c -> c_phase c <> Finished ->
    c_key c' = c_key c -> clients [e] = 0 ->
    (forall i', i' <> i -> gave i' [e] = [] /\ sends i' [e] = 0 /\ e <> Finish i') ->
    (forall s', receivers s' = receivers s -> chan_ok (es ++ [e]) s' i c') ->
    ((sends i [e] = 0 /\ c_sent c' = c_sent c)
     \/ sends i [e] = 1 /\ (exists a, c_sent c' = c_sent c ++ [a] /\ nth_error (gave i es) (sends i es) = Some a)
     \/ sends i [e] = 1 /\ c_sent c' = c_sent c /\ heard i s = false) ->
    (entries' = entries s /\ (live c <-> live c') \/ entries' = without K same_key (c_key c) (entries s) /\ live c /\ ~ live c') ->
    inv (es ++ [e]) {| Model.entries := entries'; Model.channels := update i (fun _ => c') (channels s); Model.receivers := receivers s |}.
  Proof.
    intros es s e i c c' entries' H E NF EK EC EO HC HS HE.
    set (s' := {| Model.entries := entries'; Model.channels := update i (fun _ => c') (channels s); Model.receivers := receivers s |}).
    assert (HH : forall i', heard i' s' = heard i' s) by reflexivity.
    assert (NS : nth_error (channels s') i = Some c') by (apply (nth_update_same (fun _ => c') _ _ _ E)).
    assert (NO : forall i', i' <> i -> nth_error (channels s') i' = nth_error (channels s) i')
      by (intros i' N0; apply nth_update_other; congruence).
    constructor.
    - cbn [receivers s']. rewrite clients_app, EC, Nat.add_0_r. apply (i_clients _ _ H).
    - cbn [entries s']. destruct HE as [[-> _]|[-> _]]; [apply (i_keys _ _ H)|apply without_nodup; apply (i_keys _ _ H)].
    - intros k i'. change (entries s') with entries'.
      assert (X1 : In (k, i') (entries s) <-> exists c0, nth_error (channels s) i' = Some c0 /\ c_key c0 = k /\ live c0) by apply (i_entries _ _ H).
      destruct (Nat.eq_dec i' i) as [->|NI].
      + rewrite NS. rewrite E in X1. destruct HE as [[-> HL]|[-> [HL HL']]].
        * rewrite X1. split; intros [c0 [E0 [E1 E2]]]; injection E0 as <-.
          -- exists c'. split; [reflexivity|]. split; [congruence|]. apply HL. exact E2.
          -- exists c. split; [reflexivity|]. split; [congruence|]. apply HL. exact E2.
        * rewrite without_in. split.
          -- intros [E1 E2]. apply X1 in E1. destruct E1 as [c0 [E0 [E1 _]]]. injection E0 as <-. congruence.
          -- intros [c0 [E0 [E1 E2]]]. injection E0 as <-. contradiction.
      + rewrite (NO i' NI). destruct HE as [[-> HL]|[-> [HL HL']]]; [exact X1|].
        rewrite without_in, X1. split; [tauto|]. intros E1. split; [exact E1|]. intros ->.
        apply X1 in E1. assert (E2 : In (c_key c, i) (entries s)) by (apply (i_entries _ _ H); exists c; auto).
        apply NI. eapply nodup_fst; [apply (i_keys _ _ H)|exact E1|exact E2].
    - intros i' c0 N0. destruct (Nat.eq_dec i' i) as [->|NI].
      + rewrite NS in N0. injection N0 as <-. apply HC. reflexivity.
      + rewrite (NO i' NI) in N0. destruct (EO i' NI) as [G0 [S0 F0]]. destruct (i_chan _ _ H i' c0 N0) as [x1 x2 x3 x4 x5 x6 x7 x8].
        constructor; rewrite ?gave_app, ?sends_app, ?G0, ?S0, ?app_nil_r, ?Nat.add_0_r; auto.
        * intros Q. apply in_or_app. left. auto.
        * intros Q. destruct (x6 Q); [left; apply in_or_app; auto|right; auto].
        * intros Q. apply in_app_or in Q. destruct Q as [Q|[Q|[]]]; [auto|]. contradiction.
        * destruct x8 as [b [x [l [-> Q]]]]. exists b, x, (l ++ [e]). rewrite <- ?app_assoc. auto.
    - intros i' N0. destruct (Nat.eq_dec i' i) as [->|NI]; [congruence|]. rewrite (NO i' NI) in N0. destruct (EO i' NI) as [G0 [S0 F0]].
      destruct (i_none _ _ H i' N0) as [x1 [x2 x3]]. rewrite gave_app, sends_app, G0, S0, x1, x2. split; [reflexivity|]. split; [reflexivity|].
      intros Q. apply in_app_or in Q. destruct Q as [Q|[Q|[]]]; [auto|]. contradiction.
    - intros j r N0. change (receivers s') with (receivers s) in N0. destruct (i_rec _ _ H j r N0) as [before [x [k [c0 [q R]]]]].
      destruct R as [x1 x2 x3 x4 x5 x6 x7].
      destruct (client_sends (r_chan r) _ _ _ _ _ x1) as [y1 [l0 y2]].
      assert (Y : sends (r_chan r) before <= length (gave (r_chan r) es)) by (rewrite y2, app_length; lia).
      destruct (Nat.eq_dec (r_chan r) i) as [EI|NI].
      + rewrite EI in *. rewrite E in x2. injection x2 as <-.
        exists before, x, k, c', q. constructor; rewrite ?EI.
        * apply client_snoc. exact x1.
        * exact NS.
        * congruence.
        * rewrite gave_app, skipn_app_le by exact Y. apply reads_app. exact x4.
        * exact x5.
        * intros O. destruct (x6 O) as [base [z1 [LB [z2 z3]]]]. exists base. split; [exact z1|].
          split; [destruct HS as [[_ ->]|[[_ [a [-> _]]]|[_ [-> _]]]]; rewrite ?app_length; lia|].
          rewrite sends_app. split; [lia|]. rewrite gave_app, skipn_app_le by exact Y.
          pose proof (k_le _ _ _ _ (i_chan _ _ H i c E)) as KL.
          assert (LL : sends i es - sends i before <= length (skipn (sends i before) (gave i es))) by (rewrite skipn_length; lia).
          destruct HS as [[S0 ->]|[[S0 [a [-> Sn]]]|[S0 [-> Hh]]]]; rewrite S0.
          -- rewrite Nat.add_0_r, z3, firstn_app. replace (_ - _ - length _) with 0 by lia. cbn [firstn]. rewrite app_nil_r. reflexivity.
          -- replace (sends i es + 1 - sends i before) with (S (sends i es - sends i before)) by lia.
             rewrite skipn_app_le by exact LB. rewrite z3. symmetry.
             assert (Q : nth_error (skipn (sends i before) (gave i es)) (sends i es - sends i before) = Some a).
             { rewrite nth_skipn. replace (sends i before + (sends i es - sends i before)) with (sends i es) by lia. exact Sn. }
             assert (Q2 : sends i es - sends i before < length (skipn (sends i before) (gave i es))) by (apply nth_error_Some; congruence).
             rewrite firstn_app. replace (S _ - length _) with 0 by lia. cbn [firstn]. rewrite app_nil_r. apply firstn_snoc. exact Q.
          -- exfalso. assert (heard i s = true) by (apply heard_iff; exists j, r; auto). congruence.
        * intros O. destruct (x7 O) as [z1 z2]. contradiction.
      + destruct (EO _ NI) as [G0 [S0 F0]].
        exists before, x, k, c0, q. constructor; rewrite ?gave_app, ?sends_app, ?G0, ?S0, ?app_nil_r, ?Nat.add_0_r; auto.
        * apply client_snoc. exact x1.
        * rewrite (NO _ NI). exact x2.
  Qed.

  (** ** An action of a client *)

  Lemma client_ok : forall es s e j r r',
    inv es s -> nth_error (receivers s) j = Some r -> r_status r = Open -> r_chan r' = r_chan r ->
    clients [e] = 0 -> (forall i, gave i [e] = [] /\ sends i [e] = 0 /\ e <> Finish i) ->
    (forall before x k c q, rec_ok es s j r before x k c q -> exists q',
        reads cap (skipn (sends (r_chan r) before) (gave (r_chan r) es)) 0 (r_got r') q'
        /\ (r_status r' = Open -> r_next r' + q = r_next r + q' /\ q <= q' /\ sends (r_chan r) before + q' <= sends (r_chan r) es)
        /\ (r_status r' = Over -> c_phase c = Finished /\ sends (r_chan r) before + q' = length (gave (r_chan r) es))) ->
    inv (es ++ [e]) (set_receiver A K X j (fun _ => r') s).
  Proof.
    intros es s e j r r' H E EO ER EC EE HR.
    assert (G : forall i, gave i (es ++ [e]) = gave i es) by (intros i; destruct (EE i) as [x1 _]; rewrite gave_app, x1, app_nil_r; reflexivity).
    assert (G2 : forall i, sends i (es ++ [e]) = sends i es) by (intros i; destruct (EE i) as [_ [x1 _]]; rewrite sends_app, x1, Nat.add_0_r; reflexivity).
    assert (NF : forall i, In (Finish i) (es ++ [e]) -> In (Finish i) es).
    { intros i Q. apply in_app_or in Q. destruct Q as [Q|[Q|[]]]; [exact Q|]. destruct (EE i) as [_ [_ x1]]. contradiction. }
    set (s' := set_receiver A K X j (fun _ => r') s).
    assert (NS : nth_error (receivers s') j = Some r') by (apply (nth_update_same (fun _ => r') _ _ _ E)).
    assert (NO : forall j', j' <> j -> nth_error (receivers s') j' = nth_error (receivers s) j')
      by (intros j' N0; apply nth_update_other; congruence).
    assert (HH : forall i, heard i s' = true -> heard i s = true).
    { intros i Q. apply heard_iff in Q. destruct Q as [j' [r0 [Q1 [Q2 Q3]]]]. apply heard_iff.
      destruct (Nat.eq_dec j' j) as [->|NI].
      - rewrite NS in Q1. injection Q1 as <-. exists j, r. split; [exact E|]. split; [congruence|exact EO].
      - rewrite (NO j' NI) in Q1. exists j', r0. auto. }
    constructor.
    - cbn [receivers s' set_receiver]. rewrite update_length, clients_app, EC, Nat.add_0_r. apply (i_clients _ _ H).
    - apply (i_keys _ _ H).
    - apply (i_entries _ _ H).
    - intros i c N0. destruct (i_chan _ _ H i c N0) as [x1 x2 x3 x4 x5 x6 x7 x8].
      constructor; rewrite ?G, ?G2; auto.
      + intros Q. destruct (x3 Q) as [Q1|Q1]; [left|right; exact Q1]. destruct (heard i s') eqn:Q2; [|reflexivity]. apply HH in Q2. congruence.
      + intros Q. apply in_or_app. auto.
      + intros Q. destruct (x6 Q); [left; apply in_or_app; auto|auto].
      + destruct x8 as [b [x [l [-> Q]]]]. exists b, x, (l ++ [e]). rewrite <- ?app_assoc. auto.
    - intros i N0. destruct (i_none _ _ H i N0) as [x1 [x2 x3]]. rewrite G, G2. split; [exact x1|]. split; [exact x2|]. intros Q. apply NF in Q. contradiction.
    - intros j' r0 N0. destruct (Nat.eq_dec j' j) as [->|NI].
      + rewrite NS in N0. injection N0 as <-. destruct (i_rec _ _ H j r E) as [before [x [k [c [q R]]]]].
        destruct (HR _ _ _ _ _ R) as [q' [y1 [y2 y3]]]. destruct R as [x1 x2 x3 x4 x5 x6 x7].
        exists before, x, k, c, q'. constructor; rewrite ?ER, ?G, ?G2; auto.
        * apply client_snoc. exact x1.
        * intros O. destruct (x6 EO) as [base [z1 [z2 [z3 z4]]]]. destruct (y2 O) as [w1 [w2 w3]].
          exists base. split; [lia|]. split; [exact z2|]. split; [lia|exact z4].
      + rewrite (NO j' NI) in N0. destruct (i_rec _ _ H j' r0 N0) as [before [x [k [c [q R]]]]]. destruct R as [x1 x2 x3 x4 x5 x6 x7].
        exists before, x, k, c, q. constructor; rewrite ?G, ?G2; auto. apply client_snoc. exact x1.
  Qed.

  Lemma subscribe_ok : forall es s x k s', inv es s -> subscribe A K X same_key Idle x k s = Some s' -> inv (es ++ [Subscribe x k]) s'.
  Proof.
    intros es s x k s' H. unfold subscribe.
    set (e := Subscribe x k).
    assert (G : forall i, gave i (es ++ [e]) = gave i es) by (intros i; rewrite gave_app; apply app_nil_r).
    assert (G2 : forall i, sends i (es ++ [e]) = sends i es) by (intros i; rewrite sends_app; apply Nat.add_0_r).
    assert (NF : forall i, In (Finish i) (es ++ [e]) -> In (Finish i) es).
    { intros i Q. apply in_app_or in Q. destruct Q as [Q|[Q|[]]]; [exact Q|discriminate]. }
    assert (CC : forall s0, inv es s0 -> client (length (receivers s0)) es x k (es ++ [e])).
    { intros s0 H0. exists []. split; [reflexivity|]. symmetry. apply (i_clients _ _ H0). }
    destruct (entry A K X same_key k s) as [i|] eqn:En.
    - apply entry_some in En. apply (i_entries _ _ H) in En. destruct En as [c [E [EK EL]]]. rewrite E. cbn [option_map].
      intros Q. injection Q as <-.
      constructor.
      + cbn [receivers]. rewrite app_length, clients_app. cbn. rewrite (i_clients _ _ H). reflexivity.
      + apply (i_keys _ _ H).
      + apply (i_entries _ _ H).
      + intros i' c0 N0. destruct (i_chan _ _ H i' c0 N0) as [x1 x2 x3 x4 x5 x6 x7 x8].
        constructor; rewrite ?G, ?G2; auto.
        * intros Q. destruct (x3 Q) as [Q1|Q1]; [left|right; exact Q1]. apply not_true_is_false; intros Q2.
          apply heard_iff in Q2. destruct Q2 as [j [r [Q2 [Q3 Q4]]]]. cbn [receivers] in Q2.
          destruct (Nat.lt_ge_cases j (length (receivers s))) as [L|L].
          -- rewrite nth_error_app1 in Q2 by exact L. assert (heard i' s = true) by (apply heard_iff; exists j, r; auto). congruence.
          -- rewrite nth_error_app2 in Q2 by exact L. destruct (j - length (receivers s)) as [|[|]]; cbn in Q2; try discriminate.
             injection Q2 as <-. cbn in Q3. subst i'. cbn [channels] in N0. rewrite E in N0. injection N0 as <-. destruct EL. contradiction.
        * intros Q. apply in_or_app. auto.
        * intros Q. destruct (x6 Q); [left; apply in_or_app; auto|auto].
        * destruct x8 as [b [x0 [l [-> Q]]]]. exists b, x0, (l ++ [e]). rewrite <- ?app_assoc. auto.
      + intros i' N0. destruct (i_none _ _ H i' N0) as [x1 [x2 x3]]. rewrite G, G2. split; [exact x1|]. split; [exact x2|]. intros Q. apply NF in Q. contradiction.
      + intros j r N0. cbn [receivers] in N0. destruct (Nat.lt_ge_cases j (length (receivers s))) as [L|L].
        * rewrite nth_error_app1 in N0 by exact L. destruct (i_rec _ _ H j r N0) as [before [x0 [k0 [c0 [q R]]]]]. destruct R as [x1 x2 x3 x4 x5 x6 x7].
          exists before, x0, k0, c0, q. constructor; rewrite ?G, ?G2; auto. apply client_snoc. exact x1.
        * rewrite nth_error_app2 in N0 by exact L. destruct (j - length (receivers s)) as [|[|]] eqn:D; cbn in N0; try discriminate.
          injection N0 as <-. exists es, x, k, c, 0. cbn [join r_chan r_got r_next r_status].
          assert (j = length (receivers s)) by lia. subst j.
          constructor; cbn [join r_chan r_got r_next r_status]; rewrite ?G, ?G2; auto.
          -- constructor.
          -- apply (k_le _ _ _ _ (i_chan _ _ H i c E)).
          -- intros _. exists (length (c_sent c)). split; [lia|]. split; [lia|]. split; [lia|].
             rewrite Nat.sub_diag. cbn [firstn]. apply skipn_all.
          -- discriminate.
    - intros Q. injection Q as <-. set (c := {| Model.c_key := k; Model.c_ext := x; Model.c_phase := Idle; Model.c_closed := false; Model.c_sent := [] |}).
      set (n := length (channels s)).
      assert (NN : nth_error (channels s) n = None) by (apply nth_error_None; unfold n; lia).
      destruct (i_none _ _ H n NN) as [n1 [n2 n3]].
      assert (NS : nth_error (channels s ++ [c]) n = Some c) by (rewrite nth_error_app2 by (unfold n; lia); unfold n; rewrite Nat.sub_diag; reflexivity).
      assert (NO : forall i, i <> n -> nth_error (channels s ++ [c]) i = nth_error (channels s) i).
      { intros i NI. destruct (Nat.lt_ge_cases i n) as [L|L]; [apply nth_error_app1; exact L|].
        rewrite (proj2 (nth_error_None (channels s) i)) by exact L. apply nth_error_None. rewrite app_length. unfold n in *. cbn. lia. }
      constructor; cbn [receivers entries channels].
      + rewrite app_length, clients_app. cbn. rewrite (i_clients _ _ H). reflexivity.
      + cbn [map fst]. constructor; [|apply (i_keys _ _ H)]. intros Q. apply in_map_iff in Q. destruct Q as [[k0 i0] [Q1 Q2]]. cbn in Q1. subst k0.
        exact (entry_none _ _ _ En Q2).
      + intros k0 i. destruct (Nat.eq_dec i n) as [->|NI].
        * rewrite NS. split.
          -- intros [Q|Q]; [|apply (i_entries _ _ H) in Q; destruct Q as [c0 [Q _]]; congruence]. injection Q as <-.
             exists c. split; [reflexivity|]. split; [reflexivity|]. split; [reflexivity|discriminate].
          -- intros [c0 [Q1 [Q2 Q3]]]. injection Q1 as <-. left. cbn in Q2. subst. reflexivity.
        * rewrite (NO i NI). rewrite <- (i_entries _ _ H). split; [|intros Q; right; exact Q]. intros [Q|Q]; [|exact Q]. injection Q as _ <-. contradiction.
      + intros i c0 N0. destruct (Nat.eq_dec i n) as [->|NI].
        * rewrite NS in N0. injection N0 as <-. constructor; rewrite ?G, ?G2, ?n1, ?n2; cbn [c_phase c_closed c_key c_ext c]; auto; try discriminate.
          -- intros Q. apply NF in Q. contradiction.
          -- exists es, x, []. auto.
        * rewrite (NO i NI) in N0. destruct (i_chan _ _ H i c0 N0) as [x1 x2 x3 x4 x5 x6 x7 x8].
          constructor; rewrite ?G, ?G2; auto.
          -- intros Q. destruct (x3 Q) as [Q1|Q1]; [left|right; exact Q1]. apply not_true_is_false; intros Q2.
             apply heard_iff in Q2. destruct Q2 as [j [r [Q2 [Q3 Q4]]]]. cbn [receivers] in Q2.
             destruct (Nat.lt_ge_cases j (length (receivers s))) as [L|L].
             ++ rewrite nth_error_app1 in Q2 by exact L. assert (heard i s = true) by (apply heard_iff; exists j, r; auto). congruence.
             ++ rewrite nth_error_app2 in Q2 by exact L. destruct (j - length (receivers s)) as [|[|]]; cbn in Q2; try discriminate.
                injection Q2 as <-. cbn in Q3. unfold n in NI. congruence.
          -- intros Q. apply in_or_app. auto.
          -- intros Q. destruct (x6 Q); [left; apply in_or_app; auto|auto].
          -- destruct x8 as [b [x0 [l [-> Q]]]]. exists b, x0, (l ++ [e]). rewrite <- ?app_assoc. auto.
      + intros i N0. destruct (Nat.eq_dec i n) as [->|NI]; [congruence|]. rewrite (NO i NI) in N0.
        destruct (i_none _ _ H i N0) as [x1 [x2 x3]]. rewrite G, G2. split; [exact x1|]. split; [exact x2|]. intros Q. apply NF in Q. contradiction.
      + intros j r N0. destruct (Nat.lt_ge_cases j (length (receivers s))) as [L|L].
        * rewrite nth_error_app1 in N0 by exact L. destruct (i_rec _ _ H j r N0) as [before [x0 [k0 [c0 [q R]]]]]. destruct R as [x1 x2 x3 x4 x5 x6 x7].
          exists before, x0, k0, c0, q. constructor; rewrite ?G, ?G2; auto; [apply client_snoc; exact x1|].
          cbn [channels]. rewrite NO; [exact x2|]. intros Q. rewrite Q in x2. congruence.
        * rewrite nth_error_app2 in N0 by exact L. destruct (j - length (receivers s)) as [|[|]] eqn:D; cbn in N0; try discriminate.
          injection N0 as <-. exists es, x, k, c, 0.
          assert (j = length (receivers s)) by lia. subst j. fold n.
          constructor; cbn [join r_chan r_got r_next r_status channels]; rewrite ?G, ?G2; auto.
          -- constructor.
          -- rewrite n1, n2. auto.
          -- intros _. exists 0. cbn. rewrite n2, n1. split; [reflexivity|]. split; [lia|]. split; [lia|]. reflexivity.
          -- discriminate.
  Qed.

  Lemma update_const {B} (f : B -> B) : forall l i x, nth_error l i = Some x -> update i f l = update i (fun _ => f x) l.
  Proof. induction l; intros [|i] x E; cbn in *; try discriminate; [congruence|]. rewrite (IHl _ _ E). reflexivity. Qed.

  Lemma pending_after : forall l, pending (after A l) = l.
  Proof. intros [|a l]; reflexivity. Qed.

  Lemma after_not : forall l, after A l <> Finished /\ forall m, after A l <> Removing m.
  Proof. intros [|a l]; split; discriminate. Qed.

  Lemma skipn_nil_le {B} : forall n (l : list B), n <= length l -> skipn n l = [] -> n = length l.
  Proof. intros n l L E. assert (W : length (skipn n l) = 0) by (rewrite E; reflexivity). rewrite skipn_length in W. lia. Qed.

  Ltac others := let i' := fresh in let NI := fresh in intros i' NI; cbn [gave sends];
    rewrite ?(proj2 (Nat.eqb_neq _ _) (not_eq_sym NI)); split; [reflexivity|]; split; [reflexivity|]; congruence.
  Lemma new_snoc : forall k (x0 : X) (es : list event) e,
    (exists before x later, es = before ++ Subscribe x k :: later /\ x0 = x) ->
    exists before x later, es ++ [e] = before ++ Subscribe x k :: later /\ x0 = x.
  Proof. intros k x0 es e [b [x [l [-> Q]]]]. exists b, x, (l ++ [e]). rewrite <- ?app_assoc. auto. Qed.

  Lemma in_snoc : forall (es : list event) e e', In e (es ++ [e']) -> e' <> e -> In e es.
  Proof. intros es e e' Q Q'. apply in_app_or in Q. destruct Q as [Q|[Q|[]]]; [exact Q|contradiction]. Qed.

  Theorem step_ok : forall es s e s', inv es s -> step s e = Some s' -> inv (es ++ [e]) s'.
  Proof.
    intros es s e s' H E. destruct e as [x k|i ok|i items|i|i|i|i a|i|i|j|j]; cbn [Model.step] in E.
    - eapply subscribe_ok; eauto.
    - discriminate.
    - unfold on_channel in E. destruct (nth_error (channels s) i) as [c|] eqn:N0; [|discriminate].
      destruct (c_phase c) eqn:P; try discriminate. injection E as <-. unfold set_channel. rewrite (update_const _ _ _ _ N0).
      destruct (i_chan _ _ H i c N0) as [x1 x2 x3 x4 x5 x6 x7 x8].
      assert (NF : c_phase c <> Finished) by congruence. specialize (x2 NF). rewrite P in x2. apply skipn_nil_le in x2; [|exact x1].
      eapply task_ok; eauto.
      + others.
      + intros s' _. destruct (after_not items) as [y1 y2]. constructor; cbn [with_phase Model.c_phase Model.c_closed Model.c_key Model.c_ext].
        * rewrite sends_app, gave_app, app_length. cbn [sends]. lia.
        * intros _. rewrite sends_app, gave_app, pending_after. cbn [sends gave]. rewrite Nat.eqb_refl, Nat.add_0_r, app_nil_r, x2.
          rewrite skipn_app, skipn_all, Nat.sub_diag. reflexivity.
        * intros Q. contradiction.
        * intros l Q. elim (y2 _ Q).
        * intros Q. apply in_or_app. auto.
        * intros Q. contradiction.
        * intros Q. apply in_snoc in Q; [|discriminate]. apply x7 in Q. congruence.
        * apply new_snoc; exact x8.
      + left. split; [reflexivity|]. destruct (after_not items) as [y1 y2].
        unfold live. cbn [with_phase Model.c_phase Model.c_closed]. split; intros [Q _]; (split; [exact Q|assumption]).
    - unfold on_channel in E. destruct (nth_error (channels s) i) as [c|] eqn:N0; [|discriminate].
      destruct (c_phase c) as [| |[|a items]| | | |] eqn:P; try discriminate.
      destruct (i_chan _ _ H i c N0) as [x1 x2 x3 x4 x5 x6 x7 x8].
      assert (NF : c_phase c <> Finished) by congruence. specialize (x2 NF). rewrite P in x2. cbn [pending] in x2.
      destruct (skipn_cons _ _ _ _ x2) as [w1 [w2 w3]].
      assert (W : forall p (cl : bool) sent, (p <> Finished -> p = after A items \/ p = Removing items) ->
                (p = Finished -> heard i s = false /\ cl = true) -> (cl = true -> c_closed c = true) -> ((exists m, p = Removing m) -> cl = false) ->
                forall s', receivers s' = receivers s ->
                chan_ok (es ++ [Send i]) s' i {| Model.c_key := c_key c; Model.c_ext := c_ext c; Model.c_phase := p; Model.c_closed := cl; Model.c_sent := sent |}).
      { intros p cl sent v1 v2 v3 v4 s2 ES. constructor; cbn [Model.c_phase Model.c_closed Model.c_key Model.c_ext].
        - rewrite sends_app, gave_app, app_length. cbn [sends gave]. rewrite Nat.eqb_refl. lia.
        - intros Q. rewrite sends_app, gave_app. cbn [sends gave]. rewrite Nat.eqb_refl, app_nil_r, Nat.add_1_r, w1.
          destruct (v1 Q) as [->| ->]; [rewrite pending_after|]; reflexivity.
        - intros Q. left. destruct (v2 Q) as [<- _]. unfold heard. rewrite ES. reflexivity.
        - intros l Q. apply v4. eexists. exact Q.
        - intros Q. apply in_or_app. auto.
        - intros Q. right. apply (v2 Q).
        - intros Q. apply in_snoc in Q; [|discriminate]. apply x7 in Q. congruence.
        - apply new_snoc; exact x8. }
      destruct (after_not items) as [y1 y2].
      destruct (heard i s) eqn:Hh; [|destruct (c_closed c) eqn:Cl]; injection E as <-; unfold set_channel; rewrite (update_const _ _ _ _ N0);
        unfold send; eapply task_ok; eauto; try others.
      + apply W; auto; try contradiction. intros [m Q]. elim (y2 _ Q).
      + right. left. cbn [sends]. rewrite Nat.eqb_refl. split; [reflexivity|]. exists a. split; [reflexivity|exact w2].
      + left. split; [reflexivity|]. unfold live. cbn [Model.c_phase Model.c_closed]. split; intros [Q _]; (split; [exact Q|assumption]).
      + apply W; auto; try contradiction. intros [m Q]. discriminate.
      + right. right. cbn [sends]. rewrite Nat.eqb_refl. auto.
      + left. split; [reflexivity|]. unfold live. cbn [Model.c_phase Model.c_closed]. split; intros [Q Q']; congruence.
      + apply W; auto; try discriminate; congruence.
      + right. right. cbn [sends]. rewrite Nat.eqb_refl. auto.
      + left. split; [reflexivity|]. unfold live. cbn [Model.c_phase Model.c_closed]. split; intros [Q Q']; (split; [congruence|]); [discriminate|assumption].
    - unfold on_channel in E. destruct (nth_error (channels s) i) as [c|] eqn:N0; [|discriminate].
      destruct (c_phase c) as [| | |items| | |] eqn:P; try discriminate. injection E as <-. unfold set_channel, remove_key. cbn [Model.entries Model.channels Model.receivers].
      rewrite (update_const _ _ _ _ N0).
      destruct (i_chan _ _ H i c N0) as [x1 x2 x3 x4 x5 x6 x7 x8].
      assert (NF : c_phase c <> Finished) by congruence. specialize (x2 NF). rewrite P in x2. cbn [pending] in x2.
      destruct (after_not items) as [y1 y2].
      eapply task_ok; eauto.
      + others.
      + intros s' _. constructor; cbn [close Model.c_phase Model.c_closed Model.c_key Model.c_ext].
        * rewrite sends_app, gave_app, app_length. cbn [sends]. lia.
        * intros _. rewrite sends_app, gave_app, pending_after. cbn [sends gave]. rewrite Nat.add_0_r, app_nil_r. exact x2.
        * intros Q. contradiction.
        * intros l Q. elim (y2 _ Q).
        * intros Q. apply in_or_app. right. left. reflexivity.
        * intros Q. contradiction.
        * intros Q. apply in_snoc in Q; [|discriminate]. apply x7 in Q. congruence.
        * apply new_snoc; exact x8.
      + right. split; [reflexivity|]. split; [split; [eapply x4; exact P|exact NF]|]. intros [Q _]. discriminate.
    - unfold on_channel in E. destruct (nth_error (channels s) i) as [c|] eqn:N0; [|discriminate].
      destruct (c_phase c) eqn:P; try discriminate. injection E as <-. unfold set_channel. rewrite (update_const _ _ _ _ N0).
      destruct (i_chan _ _ H i c N0) as [x1 x2 x3 x4 x5 x6 x7 x8].
      assert (NF : c_phase c <> Finished) by congruence. specialize (x2 NF). rewrite P in x2. cbn [pending] in x2.
      eapply task_ok; eauto.
      + others.
      + intros s' _. constructor; cbn [with_phase Model.c_phase Model.c_closed Model.c_key Model.c_ext]; try discriminate.
        * rewrite sends_app, gave_app, app_length. cbn [sends]. lia.
        * intros _. rewrite sends_app, gave_app. cbn [sends gave]. rewrite Nat.add_0_r, app_nil_r. exact x2.
        * intros Q. apply in_or_app. auto.
        * intros Q. apply in_snoc in Q; [|discriminate]. apply x7 in Q. congruence.
        * apply new_snoc; exact x8.
      + left. split; [reflexivity|]. unfold live. cbn [with_phase Model.c_phase Model.c_closed]. split; intros [Q _]; (split; [exact Q|congruence]).
    - unfold on_channel in E. destruct (nth_error (channels s) i) as [c|] eqn:N0; [|discriminate].
      destruct (c_phase c) eqn:P; try discriminate. injection E as <-. unfold set_channel. rewrite (update_const _ _ _ _ N0).
      destruct (i_chan _ _ H i c N0) as [x1 x2 x3 x4 x5 x6 x7 x8].
      assert (NF : c_phase c <> Finished) by congruence. specialize (x2 NF). rewrite P in x2. apply skipn_nil_le in x2; [|exact x1].
      eapply task_ok; eauto.
      + others.
      + intros s' _. constructor; cbn [with_phase Model.c_phase Model.c_closed Model.c_key Model.c_ext]; try discriminate.
        * rewrite sends_app, gave_app, app_length. cbn [sends]. lia.
        * intros _. rewrite sends_app, gave_app. cbn [sends gave]. rewrite Nat.eqb_refl, Nat.add_0_r, x2.
          rewrite skipn_app, skipn_all, Nat.sub_diag. reflexivity.
        * intros Q. apply in_or_app. auto.
        * intros Q. apply in_snoc in Q; [|discriminate]. apply x7 in Q. congruence.
        * apply new_snoc; exact x8.
      + left. split; [reflexivity|]. unfold live. cbn [with_phase Model.c_phase Model.c_closed]. split; intros [Q _]; (split; [exact Q|congruence]).
    - unfold on_channel in E. destruct (nth_error (channels s) i) as [c|] eqn:N0; [|discriminate].
      destruct (c_phase c) as [| | | |a| |] eqn:P; try discriminate. injection E as <-. unfold set_channel. rewrite (update_const _ _ _ _ N0).
      destruct (i_chan _ _ H i c N0) as [x1 x2 x3 x4 x5 x6 x7 x8].
      assert (NF : c_phase c <> Finished) by congruence. specialize (x2 NF). rewrite P in x2. cbn [pending] in x2.
      destruct (skipn_cons _ _ _ _ x2) as [w1 [w2 w3]].
      eapply task_ok; eauto.
      + others.
      + intros s' _. constructor; cbn [send Model.c_phase Model.c_closed Model.c_key Model.c_ext]; try discriminate.
        * rewrite sends_app, gave_app, app_length. cbn [sends]. rewrite Nat.eqb_refl. lia.
        * intros _. rewrite sends_app, gave_app. cbn [sends gave]. rewrite Nat.eqb_refl, Nat.add_1_r, app_nil_r. exact w1.
        * intros Q. apply in_or_app. auto.
        * intros Q. apply in_snoc in Q; [|discriminate]. apply x7 in Q. congruence.
        * apply new_snoc; exact x8.
      + cbn [sends]. rewrite Nat.eqb_refl. right. unfold send. cbn [Model.c_sent]. destruct (heard i s); [left|right]; (split; [reflexivity|]).
        * exists a. auto.
        * auto.
      + left. split; [reflexivity|]. unfold live. cbn [send Model.c_phase Model.c_closed]. split; intros [Q _]; (split; [exact Q|congruence]).
    - unfold on_channel in E. destruct (nth_error (channels s) i) as [c|] eqn:N0; [|discriminate].
      destruct (c_phase c) eqn:P; try discriminate.
      destruct (i_chan _ _ H i c N0) as [x1 x2 x3 x4 x5 x6 x7 x8].
      assert (NF : c_phase c <> Finished) by congruence. specialize (x2 NF). rewrite P in x2. apply skipn_nil_le in x2; [|exact x1].
      assert (W : forall s', receivers s' = receivers s -> chan_ok (es ++ [Finish i]) s' i (with_phase A K X Finished c)).
      { intros s2 _. constructor; cbn [with_phase Model.c_phase Model.c_closed Model.c_key Model.c_ext]; try discriminate.
        - rewrite sends_app, gave_app, app_length. cbn [sends]. lia.
        - intros Q. congruence.
        - intros _. right. rewrite sends_app, gave_app, app_length. cbn [sends gave]. cbn [length]. lia.
        - intros Q. apply in_or_app. auto.
        - intros _. left. apply in_or_app. right. left. reflexivity.
        - reflexivity.
        - apply new_snoc; exact x8. }
      destruct (c_closed c) eqn:Cl; injection E as <-; unfold set_channel, remove_key; cbn [Model.entries Model.channels Model.receivers];
        rewrite (update_const _ _ _ _ N0); eapply task_ok; eauto; try others.
      + left. split; [reflexivity|]. unfold live. cbn [with_phase Model.c_phase Model.c_closed]. split; intros [Q Q']; congruence.
      + right. split; [reflexivity|]. split; [split; assumption|]. intros [_ Q]. apply Q. reflexivity.
    - unfold receive in E. destruct (nth_error (receivers s) j) as [r|] eqn:N0; [|discriminate].
      destruct (r_status r) eqn:St; try discriminate. destruct (nth_error (channels s) (r_chan r)) as [c|] eqn:N1; [|discriminate].
      assert (EE : forall i, gave i [Receive j : event] = [] /\ sends i [Receive j : event] = 0 /\ (Receive j : event) <> Finish i)
        by (intros i; split; [reflexivity|]; split; [reflexivity|discriminate]).
      pose proof (k_le _ _ _ _ (i_chan _ _ H _ c N1)) as KL.
      assert (RR : forall before x k c0 q, rec_ok es s j r before x k c0 q -> exists base,
         c0 = c /\ r_next r = base + q /\ base + (sends (r_chan r) es - sends (r_chan r) before) = length (c_sent c)
         /\ sends (r_chan r) before + q <= sends (r_chan r) es
         /\ sends (r_chan r) before <= sends (r_chan r) es
         /\ forall p, p < sends (r_chan r) es - sends (r_chan r) before ->
              nth_error (c_sent c) (base + p) = nth_error (skipn (sends (r_chan r) before) (gave (r_chan r) es)) p).
      { intros before x k c0 q R. destruct R as [x1 x2 x3 x4 x5 x6 x7]. destruct (x6 St) as [base [z1 [z2 [z3 z4]]]].
        assert (c0 = c) by congruence. subst c0. exists base. split; [reflexivity|]. split; [exact z1|].
        destruct (client_sends (r_chan r) _ _ _ _ _ x1) as [y1 _].
        assert (W : length (skipn base (c_sent c)) = sends (r_chan r) es - sends (r_chan r) before).
        { rewrite z4, firstn_length, skipn_length. lia. }
        rewrite skipn_length in W. split; [lia|]. split; [exact z3|]. split; [exact y1|].
        intros p Lp. rewrite <- (nth_firstn _ _ _ Lp), <- z4, nth_skipn. reflexivity. }
      destruct (Nat.ltb (r_next r + cap) (length (c_sent c))) eqn:Lt; [apply Nat.ltb_lt in Lt|apply Nat.ltb_ge in Lt; destruct (nth_error (c_sent c) (r_next r)) as [a|] eqn:Na].
      + injection E as <-. unfold set_receiver. rewrite (update_const _ _ _ _ N0).
        apply (client_ok es s _ j r _ H N0 St); auto. intros before x k c0 q R.
        destruct (RR _ _ _ _ _ R) as [base [-> [z1 [z2 [z3 [z4 z5]]]]]]. destruct R as [x1 x2 x3 x4 x5 x6 x7].
        exists (length (c_sent c) - cap - base). cbn [given Model.r_got Model.r_status Model.r_next]. split.
        * eapply reads_snoc_lag; [exact x4|lia|]. rewrite skipn_length. lia.
        * split; [|discriminate]. intros _. split; [lia|]. split; lia.
      + injection E as <-. unfold set_receiver. rewrite (update_const _ _ _ _ N0).
        apply (client_ok es s _ j r _ H N0 St); auto. intros before x k c0 q R.
        destruct (RR _ _ _ _ _ R) as [base [-> [z1 [z2 [z3 [z4 z5]]]]]]. destruct R as [x1 x2 x3 x4 x5 x6 x7].
        assert (Lq : r_next r < length (c_sent c)) by (apply nth_error_Some; congruence).
        exists (S q). cbn [given Model.r_got Model.r_status Model.r_next]. split.
        * apply reads_snoc; [exact x4|]. rewrite <- z5 by lia. rewrite <- z1. exact Na.
        * split; [|discriminate]. intros _. split; [lia|]. split; lia.
      + destruct (disconnected A K X (r_chan r) c s) eqn:D; [|discriminate]. injection E as <-. unfold set_receiver. rewrite (update_const _ _ _ _ N0).
        apply (client_ok es s _ j r _ H N0 St); auto. intros before x k c0 q R.
        destruct (RR _ _ _ _ _ R) as [base [-> [z1 [z2 [z3 [z4 z5]]]]]]. destruct R as [x1 x2 x3 x4 x5 x6 x7].
        exists q. cbn [given Model.r_got Model.r_status Model.r_next]. split; [exact x4|]. split; [discriminate|]. intros _.
        unfold disconnected, finished in D. apply andb_prop in D. destruct D as [D _].
        assert (PF : c_phase c = Finished) by (destruct (c_phase c); congruence). split; [exact PF|].
        apply nth_error_None in Na. destruct (k_all _ _ _ _ (i_chan _ _ H _ c N1) PF) as [Q|Q]; [|lia].
        assert (heard (r_chan r) s = true) by (apply heard_iff; exists j, r; auto). congruence.
    - destruct (nth_error (receivers s) j) as [r|] eqn:N0; [|discriminate].
      destruct (r_status r) eqn:St; try discriminate. injection E as <-. unfold set_receiver. rewrite (update_const _ _ _ _ N0).
      apply (client_ok es s _ j r _ H N0 St); auto.
      + intros i. split; [reflexivity|]. split; [reflexivity|discriminate].
      + intros before x k c q R. exists q. cbn [leave Model.r_got Model.r_status]. split; [apply (o_reads _ _ _ _ _ _ _ _ _ R)|]. split; discriminate.
  Qed.

  Lemma start_ok : inv [] start.
  Proof.
    constructor; cbn; auto.
    - constructor.
    - intros k i. split; [intros []|]. intros [c [Q _]]. destruct i; discriminate.
    - intros [|i] c Q; discriminate.
    - intros [|j] r Q; discriminate.
  Qed.

  Theorem run_ok : forall es s, run step es start = Some s -> inv es s.
  Proof.
    assert (G : forall es es0 s0 s, inv es0 s0 -> run step es s0 = Some s -> inv (es0 ++ es) s).
    { induction es as [|e es IH]; cbn [Model.run]; intros es0 s0 s H E.
      - injection E as <-. rewrite app_nil_r. exact H.
      - destruct (step s0 e) as [s1|] eqn:E1; [|discriminate]. replace (es0 ++ e :: es) with ((es0 ++ [e]) ++ es) by (rewrite <- app_assoc; reflexivity).
        eapply IH; [eapply step_ok; eauto|exact E]. }
    intros es s E. apply (G es [] start s start_ok E).
  Qed.
End Invariant.
