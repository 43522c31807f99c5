(** What clients that share a subscription get. *)
From Coq Require Import List Bool PeanoNat Lia.
From Verif.Dedup Require Import Model Spec Invariant.
Import ListNotations.

Section Properties.
  Variables A K X : Type.
  Variable same_key : K -> K -> bool.
  Variable cap : nat.
  Hypothesis same_key_spec : forall a b, same_key a b = true <-> a = b.

  Arguments gave {A K X}. Arguments sends {A K X}. Arguments clients {A K X}. Arguments client {A K X}.
  Arguments reads {A}.
  Arguments Starting {A}. Arguments Idle {A}. Arguments Sending {A}. Arguments Removing {A}. Arguments Failing {A}.
  Arguments Ending {A}. Arguments Finished {A}.
  Arguments c_key {A K X}. Arguments c_ext {A K X}. Arguments c_phase {A K X}. Arguments c_closed {A K X}. Arguments c_sent {A K X}.
  Arguments r_chan {A}. Arguments r_next {A}. Arguments r_got {A}. Arguments r_status {A}.
  Arguments entries {A K X}. Arguments channels {A K X}. Arguments receivers {A K X}.
  Arguments Subscribe {A K X}. Arguments Next {A K X}. Arguments Send {A K X}. Arguments Remove {A K X}.
  Arguments GuestEnds {A K X}. Arguments GuestFails {A K X}. Arguments SendError {A K X}. Arguments Finish {A K X}.
  Arguments Receive {A K X}. Arguments Leave {A K X}. Arguments Started {A K X}.
  Arguments heard {A K X}. Arguments update {B}. Arguments on_channel {A K X}.

  Notation event := (event A K X).
  Notation state := (state A K X).
  Notation channel := (channel A K X).
  Notation receiver := (receiver A).
  Notation step := (step A K X same_key cap).
  Notation run := (run A K X).
  Notation start := (start A K X).
  Notation inv := (inv A K X cap).
  Notation rec_ok := (rec_ok A K X cap).
  Notation live := (live A K X).

  Lemma run_app : forall es es' s, run step (es ++ es') s = match run step es s with Some s' => run step es' s' | None => None end.
  Proof. induction es as [|e es IH]; intros es' s; cbn [app Model.run]; [reflexivity|]. destruct (step s e); auto. Qed.

  (** A client came once. *)
  Lemma client_unique : forall (es : list event) j b x k b' x' k', client j b x k es -> client j b' x' k' es -> b = b' /\ x = x' /\ k = k'.
  Proof.
    induction es as [|e es IH]; intros j b x k b' x' k' [l [E C]] [l' [E' C']].
    - destruct b; discriminate.
    - destruct b as [|e0 b], b' as [|e0' b']; cbn [app] in E, E'.
      + rewrite E in E'. injection E' as -> -> _. auto.
      + assert (W : e0' = Subscribe x k) by congruence. subst. cbn in C'. discriminate.
      + assert (W : e0 = Subscribe x' k') by congruence. subst. cbn in C'. discriminate.
      + assert (W : e0' = e0) by congruence. assert (E1 : es = b ++ Subscribe x k :: l) by congruence.
        assert (E2 : es = b' ++ Subscribe x' k' :: l') by congruence. clear E E'.
        subst e0'. assert (CC : clients b = clients b').
        { clear - C C'. destruct e0; cbn [clients] in C, C'; lia. }
        destruct (IH (clients b) b x k b' x' k') as [-> [-> ->]].
        * exists l. auto.
        * exists l'. auto.
        * auto.
  Qed.

  Lemma client_of : forall es s j r before x k, run step es start = Some s -> nth_error (receivers s) j = Some r ->
    client j before x k es -> exists c q, rec_ok es s j r before x k c q.
  Proof.
    intros es s j r before x k E N0 C. pose proof (run_ok A K X same_key cap same_key_spec es s E) as H.
    destruct (i_rec _ _ _ _ _ _ H j r N0) as [b [x' [k' [c [q R]]]]].
    destruct (client_unique _ _ _ _ _ _ _ _ C (o_client _ _ _ _ _ _ _ _ _ _ _ _ _ R)) as [-> [-> ->]].
    exists c, q. exact R.
  Qed.

  (** The client [j] is given, in order and without repetitions, what the guest gives from the first item on that wasn't passed on when it
      came, so all of what the guest gives later.  It misses some only if it is told so; then as many as are kept came after these.
      Its stream ends when it was given all, and what was passed on can be read. *)
  Theorem C112_delivery : forall es s j r before x k,
    run step es start = Some s -> nth_error (receivers s) j = Some r -> client j before x k es ->
    let i := r_chan r in
    sends i before <= length (gave i before)
    /\ exists q, reads cap (skipn (sends i before) (gave i es)) 0 (r_got r) q
       /\ (r_status r = Over -> sends i before + q = length (gave i es))
       /\ (r_status r = Open -> sends i before + q <= sends i es
           /\ (sends i before + q < sends i es -> step s (Receive j) <> None)).
  Proof.
    intros es s j r before x k E N0 C i. pose proof (run_ok A K X same_key cap same_key_spec es s E) as H.
    destruct (client_of _ _ _ _ _ _ _ E N0 C) as [c [q R]]. destruct R as [x1 x2 x3 x4 x5 x6 x7].
    split; [exact x5|]. exists q. split; [exact x4|]. split; [intros O; apply (x7 O)|].
    intros O. destruct (x6 O) as [base [z1 [z2 [z3 z4]]]]. split; [exact z3|]. intros L.
    cbn [Model.step]. unfold receive. rewrite N0, O. unfold i in *. rewrite x2.
    destruct (Nat.ltb _ _); [discriminate|].
    destruct (nth_error (c_sent c) (r_next r)) eqn:Na; [discriminate|exfalso].
    apply nth_error_None in Na.
    assert (W : length (skipn base (c_sent c)) = sends (r_chan r) es - sends (r_chan r) before).
    { rewrite z4, firstn_length, skipn_length. pose proof (k_le _ _ _ _ _ _ _ (i_chan _ _ _ _ _ _ H _ c x2)). lia. }
    rewrite skipn_length in W. lia.
  Qed.

  Lemma reads_exact : forall (l : list A) p got q, length l <= p + cap -> reads cap l p got q -> map Some (firstn (q - p) (skipn p l)) = got /\ p <= q.
  Proof.
    intros l p got q L H. induction H.
    - rewrite Nat.sub_diag. cbn. auto.
    - destruct IHreads as [E1 E2]; [lia|]. split; [|lia]. replace (q - p) with (S (q - S p)) by lia.
      destruct (skipn p l) as [|b t] eqn:Q.
      + exfalso. pose proof (nth_skipn p 0 l) as W. rewrite Q, Nat.add_0_r, H in W. discriminate.
      + destruct (skipn_cons p l b t Q) as [w1 [w2 _]]. cbn [firstn map]. rewrite w1 in E1. rewrite E1. congruence.
    - exfalso. lia.
  Qed.

  (** Who is never more than the capacity behind gets exactly these, and when the stream ends, all of them. *)
  Theorem C112_exact : forall es s j r before x k,
    run step es start = Some s -> nth_error (receivers s) j = Some r -> client j before x k es ->
    let i := r_chan r in
    length (gave i es) <= sends i before + cap ->
    exists rest, map Some (skipn (sends i before) (gave i es)) = r_got r ++ rest /\ (r_status r = Over -> rest = []).
  Proof.
    intros es s j r before x k E N0 C i L. destruct (C112_delivery _ _ _ _ _ _ _ E N0 C) as [_ [q [R [O _]]]]. fold i in R, O.
    set (l := skipn (sends i before) (gave i es)) in *.
    assert (LL : length l <= 0 + cap) by (unfold l; rewrite skipn_length; lia).
    destruct (reads_exact _ _ _ _ LL R) as [Q _]. rewrite Nat.sub_0_r in Q. cbn [skipn] in Q.
    exists (map Some (skipn q l)). split.
    - rewrite <- Q, <- map_app, firstn_skipn. reflexivity.
    - intros Ov. rewrite skipn_all2; [reflexivity|]. unfold l. rewrite skipn_length. specialize (O Ov). lia.
  Qed.

  (** No client waits for a subscription that is over. *)
  Theorem C112_ends : forall es s j r, run step es start = Some s -> nth_error (receivers s) j = Some r ->
    r_status r = Open -> In (Finish (r_chan r)) es -> step s (Receive j) <> None.
  Proof.
    intros es s j r E N0 O F. pose proof (run_ok A K X same_key cap same_key_spec es s E) as H.
    destruct (i_rec _ _ _ _ _ _ H j r N0) as [b [x' [k' [c [q R]]]]]. pose proof (o_chan _ _ _ _ _ _ _ _ _ _ _ _ _ R) as N1.
    pose proof (k_finished _ _ _ _ _ _ _ (i_chan _ _ _ _ _ _ H _ c N1) F) as P.
    cbn [Model.step]. unfold receive. rewrite N0, O, N1. destruct (Nat.ltb _ _); [discriminate|].
    destruct (nth_error (c_sent c) (r_next r)); [discriminate|].
    replace (disconnected A K X (r_chan r) c s) with true; [discriminate|]. symmetry. unfold disconnected, finished. rewrite P. cbn [andb].
    destruct (existsb _ (entries s)) eqn:Q; [|reflexivity]. apply existsb_exists in Q. destruct Q as [[k0 i0] [Q1 Q2]].
    cbn in Q2. apply Nat.eqb_eq in Q2. subst i0. apply (i_entries _ _ _ _ _ _ H) in Q1. destruct Q1 as [c0 [Q1 [_ [_ Q2]]]]. congruence.
  Qed.

  (** A client reads a subscription of the key it asked for; if no key is used by two extensions, one of the extension it asked. *)
  Theorem C112_key : forall es s j r before x k,
    run step es start = Some s -> nth_error (receivers s) j = Some r -> client j before x k es ->
    exists c, nth_error (channels s) (r_chan r) = Some c /\ c_key c = k
      /\ ((forall x1 x2, In (Subscribe x1 k) es -> In (Subscribe x2 k) es -> x1 = x2) -> c_ext c = x).
  Proof.
    intros es s j r before x k E N0 C. pose proof (run_ok A K X same_key cap same_key_spec es s E) as H.
    destruct (client_of _ _ _ _ _ _ _ E N0 C) as [c [q R]]. destruct R as [x1 x2 x3 x4 x5 x6 x7].
    exists c. split; [exact x2|]. split; [exact x3|]. intros U.
    destruct (k_new _ _ _ _ _ _ _ (i_chan _ _ _ _ _ _ H _ c x2)) as [b [x' [l [Q ->]]]]. apply U.
    - rewrite Q, x3. apply in_or_app. right. left. reflexivity.
    - destruct C as [l' [-> _]]. apply in_or_app. right. left. reflexivity.
  Qed.

  Lemma live_of : forall es s i c, run step es start = Some s -> nth_error (channels s) i = Some c ->
    ~ In (Remove i) es -> ~ In (Finish i) es -> live c.
  Proof.
    intros es s i c E N0 NR NF. pose proof (run_ok A K X same_key cap same_key_spec es s E) as H.
    destruct (i_chan _ _ _ _ _ _ H i c N0) as [x1 x2 x3 x4 x5 x6 x7 x8]. split.
    - destruct (c_closed c); [|reflexivity]. elim NR. auto.
    - intros P. destruct (x6 P) as [Q|Q]; [contradiction|]. apply NR. auto.
  Qed.

  (** At most one subscription of a key is open to clients. *)
  Theorem C112_single : forall es s i i' c c', run step es start = Some s ->
    nth_error (channels s) i = Some c -> nth_error (channels s) i' = Some c' -> c_key c = c_key c' ->
    ~ In (Remove i) es -> ~ In (Finish i) es -> ~ In (Remove i') es -> ~ In (Finish i') es -> i = i'.
  Proof.
    intros es s i i' c c' E N0 N1 EK a1 a2 a3 a4. pose proof (run_ok A K X same_key cap same_key_spec es s E) as H.
    pose proof (live_of _ _ _ _ E N0 a1 a2) as L1. pose proof (live_of _ _ _ _ E N1 a3 a4) as L2.
    eapply (nodup_fst K (entries s) (c_key c)); [apply (i_keys _ _ _ _ _ _ H)| |]; apply (i_entries _ _ _ _ _ _ H).
    - exists c. auto.
    - exists c'. auto.
  Qed.

  Lemma step_chan : forall s e s' j r, step s e = Some s' -> nth_error (receivers s) j = Some r ->
    exists r', nth_error (receivers s') j = Some r' /\ r_chan r' = r_chan r.
  Proof.
    intros s e s' j r E N0.
    assert (U : forall j0 f, (forall r0, r_chan (f r0) = r_chan r0) -> exists r', nth_error (update j0 f (receivers s)) j = Some r' /\ r_chan r' = r_chan r).
    { intros j0 f F. destruct (Nat.eq_dec j0 j) as [->|NI].
      - exists (f r). split; [apply nth_update_same; exact N0|apply F].
      - exists r. split; [rewrite nth_update_other by exact NI; exact N0|reflexivity]. }
    assert (Z : exists r', nth_error (receivers s) j = Some r' /\ r_chan r' = r_chan r) by (exists r; auto).
    assert (P : forall l, exists r', nth_error (receivers s ++ l) j = Some r' /\ r_chan r' = r_chan r).
    { intros l. exists r. split; [|reflexivity]. rewrite nth_error_app1; [exact N0|]. apply nth_error_Some. congruence. }
    destruct e as [x k|i ok|i items|i|i|i|i a|i|i|j'|j']; cbn [Model.step] in E; try discriminate;
      try (unfold on_channel in E; destruct (nth_error (channels s) i) as [c|]; [|discriminate];
           destruct (c_phase c) as [| |[|]| | | |]; try discriminate;
           repeat match type of E with context [if ?b then _ else _] => destruct b end; injection E as <-; exact Z).
    - unfold subscribe in E. destruct (entry A K X same_key k s) as [i|].
      + destruct (nth_error (channels s) i); [|discriminate]. injection E as <-. apply P.
      + injection E as <-. apply P.
    - unfold receive in E. destruct (nth_error (receivers s) j') as [r0|]; [|discriminate].
      destruct (r_status r0); try discriminate. destruct (nth_error (channels s) (r_chan r0)) as [c|]; [|discriminate].
      destruct (Nat.ltb _ _); [|destruct (nth_error (c_sent c) _); [|destruct (disconnected _ _ _ _ _ _); [|discriminate]]];
        injection E as <-; apply U; reflexivity.
    - destruct (nth_error (receivers s) j') as [r0|]; [|discriminate]. destruct (r_status r0); try discriminate.
      injection E as <-. apply U. reflexivity.
  Qed.

  Lemma run_chan : forall es s s' j r, run step es s = Some s' -> nth_error (receivers s) j = Some r ->
    exists r', nth_error (receivers s') j = Some r' /\ r_chan r' = r_chan r.
  Proof.
    induction es as [|e es IH]; cbn [Model.run]; intros s s' j r E N0.
    - injection E as <-. exists r. auto.
    - destruct (step s e) as [s1|] eqn:E1; [|discriminate]. destruct (step_chan _ _ _ _ _ E1 N0) as [r1 [N1 Q1]].
      destruct (IH _ _ _ _ E N1) as [r2 [N2 Q2]]. exists r2. split; [exact N2|congruence].
  Qed.

  (** Two clients that ask for the same key share the subscription of the first as long as it isn't taken off. *)
  Theorem C112_shared : forall es s j r before x j' r' before' x' k,
    run step es start = Some s -> nth_error (receivers s) j = Some r -> nth_error (receivers s) j' = Some r' ->
    client j before x k es -> client j' before' x' k es -> j < j' ->
    ~ In (Remove (r_chan r)) before' -> ~ In (Finish (r_chan r)) before' -> r_chan r = r_chan r'.
  Proof.
    intros es s j r before x j' r' before' x' k E N0 N1 C C' L NR NF.
    destruct C' as [later [Ees Cl]]. pose proof E as E0. rewrite Ees, run_app in E0.
    destruct (run step before' start) as [s1|] eqn:E1; [|discriminate]. cbn [Model.run] in E0.
    destruct (step s1 (Subscribe x' k)) as [s2|] eqn:E2; [|discriminate].
    pose proof (run_ok A K X same_key cap same_key_spec _ _ E1) as H1.
    assert (Lr : length (receivers s1) = j') by (rewrite (i_clients _ _ _ _ _ _ H1); exact Cl).
    destruct (nth_error (receivers s1) j) as [r1|] eqn:Nr; [|apply nth_error_None in Nr; lia].
    assert (Q1 : r_chan r = r_chan r1).
    { destruct (step_chan _ _ _ _ _ E2 Nr) as [r2 [N2 Q2]]. destruct (run_chan _ _ _ _ _ E0 N2) as [r3 [N3 Q3]].
      rewrite N0 in N3. injection N3 as <-. congruence. }
    destruct (i_rec _ _ _ _ _ _ H1 j r1 Nr) as [b1 [x1 [k1 [c1 [q1 R1]]]]].
    assert (Ek : k1 = k).
    { assert (C1 : client j b1 x1 k1 es).
      { destruct (o_client _ _ _ _ _ _ _ _ _ _ _ _ _ R1) as [l1 [w1 w2]]. exists (l1 ++ Subscribe x' k :: later). split; [|exact w2].
        rewrite Ees, w1, <- ?app_assoc. reflexivity. }
      destruct (client_unique _ _ _ _ _ _ _ _ C1 C) as [_ [_ W]]. exact W. }
    subst k1. pose proof (o_chan _ _ _ _ _ _ _ _ _ _ _ _ _ R1) as N2. pose proof (o_key _ _ _ _ _ _ _ _ _ _ _ _ _ R1) as K1.
    rewrite Q1 in *. pose proof (live_of _ _ _ _ E1 N2 NR NF) as Lv.
    assert (En : In (k, r_chan r1) (entries s1)) by (apply (i_entries _ _ _ _ _ _ H1); exists c1; auto).
    cbn [Model.step] in E2. unfold subscribe in E2. destruct (entry A K X same_key k s1) as [i|] eqn:Ei.
    - apply entry_some in Ei; [|exact same_key_spec]. assert (i = r_chan r1) by (eapply nodup_fst; [apply (i_keys _ _ _ _ _ _ H1)|exact Ei|exact En]). subst i.
      rewrite N2 in E2. cbn [option_map] in E2. injection E2 as <-.
      assert (N3 : nth_error (receivers s1 ++ [join A K X (r_chan r1) c1]) j' = Some (join A K X (r_chan r1) c1)).
      { rewrite nth_error_app2 by lia. rewrite Lr, Nat.sub_diag. reflexivity. }
      destruct (run_chan _ _ _ _ _ E0 N3) as [r4 [N4 Q4]]. rewrite N1 in N4. injection N4 as <-. symmetry. exact Q4.
    - exfalso. exact (entry_none _ _ _ _ same_key_spec _ _ _ Ei En).
  Qed.

  (** ** The guest isn't called forever *)

  Definition tries (c : channel) : nat :=
    match c_phase c with
    | Finished | Ending => 0
    | Removing _ => 1
    | _ => if c_closed c then 1 else 2
    end.

  Lemma heard_set : forall i (s s' : state), receivers s' = receivers s -> heard i s' = heard i s.
  Proof. intros i s s' E. unfold heard. rewrite E. reflexivity. Qed.

  Lemma heard_update : forall i (s : state) j f, (forall r, r_chan (f r) = r_chan r) ->
    (exists r, nth_error (receivers s) j = Some r /\ r_status r = Open) -> heard i s = false ->
    heard i (set_receiver A K X j f s) = false.
  Proof.
    intros i s j f F [r [N0 O]] H. apply not_true_is_false. intros Q. apply heard_iff in Q. destruct Q as [j' [r' [Q1 [Q2 Q3]]]].
    cbn [set_receiver Model.receivers] in Q1. rewrite <- not_true_iff_false in H. apply H. apply heard_iff. destruct (Nat.eq_dec j j') as [->|NI].
    - rewrite (nth_update_same _ _ _ _ N0) in Q1. injection Q1 as <-. exists j', r. rewrite F in Q2. auto.
    - rewrite nth_update_other in Q1 by exact NI. exists j', r'. auto.
  Qed.

  Lemma step_tries : forall es s e s' i c, inv es s -> step s e = Some s' -> nth_error (channels s) i = Some c ->
    heard i s = false -> (forall x, e <> Subscribe x (c_key c)) ->
    exists c', nth_error (channels s') i = Some c' /\ c_key c' = c_key c /\ heard i s' = false /\ sends i [e] + tries c' <= tries c.
  Proof.
    intros es s e s' i c H E N0 Hh NS.
    assert (Z : forall i0 f entries', i0 <> i \/ (c_key (f c) = c_key c /\ sends i [e] + tries (f c) <= tries c) -> (i0 <> i -> sends i [e] = 0) ->
      exists c', nth_error (channels {| Model.entries := entries'; Model.channels := update i0 f (channels s); Model.receivers := receivers s |}) i = Some c'
        /\ c_key c' = c_key c /\ heard i {| Model.entries := entries'; Model.channels := update i0 f (channels s); Model.receivers := receivers s |} = false
        /\ sends i [e] + tries c' <= tries c).
    { intros i0 f entries' D Sn. cbn [Model.channels]. destruct (Nat.eq_dec i0 i) as [->|NI].
      - destruct D as [D|[D1 D2]]; [contradiction|]. exists (f c). split; [apply nth_update_same; exact N0|]. split; [exact D1|].
        split; [rewrite (heard_set i s) by reflexivity; exact Hh|exact D2].
      - exists c. split; [rewrite nth_update_other by exact NI; exact N0|]. split; [reflexivity|].
        split; [rewrite (heard_set i s) by reflexivity; exact Hh|]. rewrite (Sn NI). lia. }
    assert (T : tries c <= 2) by (unfold tries; destruct (c_phase c); destruct (c_closed c); lia).
    destruct e as [x k|i0 ok|i0 items|i0|i0|i0|i0 a|i0|i0|j|j]; cbn [Model.step] in E; try discriminate;
      try (unfold on_channel in E; destruct (nth_error (channels s) i0) as [c0|] eqn:N1; [|discriminate];
           destruct (c_phase c0) as [| |[|a0 items0]|items0|a0| |] eqn:P; try discriminate;
           assert (Sn : forall e' : event, (e' = Send i0 \/ e' = SendError i0) -> i0 <> i -> sends i [e'] = 0)
             by (intros e' [->| ->] NI; cbn [sends]; rewrite (proj2 (Nat.eqb_neq _ _) NI); reflexivity)).
    - unfold subscribe in E. destruct (entry A K X same_key k s) as [i0|] eqn:En.
      + apply entry_some in En; [|exact same_key_spec]. apply (i_entries _ _ _ _ _ _ H) in En. destruct En as [c0 [N1 [K1 _]]]. rewrite N1 in E. cbn [option_map] in E.
        injection E as <-. exists c. split; [exact N0|]. split; [reflexivity|]. split; [|cbn [sends]; lia].
        unfold heard. cbn [Model.receivers]. rewrite existsb_app. unfold heard in Hh. rewrite Hh. cbn [existsb listens join Model.r_chan].
        destruct (Nat.eqb_spec i0 i) as [->|]; [|unfold listens; cbn [Model.r_chan join]; rewrite (proj2 (Nat.eqb_neq _ _) n); reflexivity].
        exfalso. rewrite N0 in N1. injection N1 as <-. apply (NS x). congruence.
      + injection E as <-. exists c. cbn [Model.channels]. split; [rewrite nth_error_app1; [exact N0|apply nth_error_Some; congruence]|]. split; [reflexivity|].
        split; [|cbn [sends]; lia]. unfold heard. cbn [Model.receivers]. rewrite existsb_app. unfold heard in Hh. rewrite Hh. unfold existsb, listens, join. cbn [Model.r_chan].
        rewrite (proj2 (Nat.eqb_neq (length (channels s)) i)); [reflexivity|]. assert (i < length (channels s)) by (apply nth_error_Some; congruence). lia.
    - injection E as <-. apply Z; [|reflexivity]. destruct (Nat.eq_dec i0 i) as [->|NI]; [right|left; exact NI]. split; [reflexivity|].
      rewrite N0 in N1. injection N1 as <-. unfold tries. rewrite P. cbn [with_phase Model.c_phase Model.c_closed]. destruct items; cbn [after sends]; lia.
    - destruct (Nat.eq_dec i0 i) as [->|NI].
      + rewrite N0 in N1. injection N1 as <-. rewrite Hh in E. destruct (c_closed c) eqn:Cl; injection E as <-; (apply Z; [|contradiction]); right;
          (split; [reflexivity|]); unfold tries; rewrite P, Cl; cbn [sends send Model.c_phase]; rewrite Nat.eqb_refl; lia.
      + destruct (heard i0 s); [|destruct (c_closed c0)]; injection E as <-; (apply Z; [left; exact NI|]); intros _; apply Sn; auto.
    - injection E as <-. unfold remove_key, set_channel. cbn [Model.entries Model.channels Model.receivers].
      apply Z; [|reflexivity]. destruct (Nat.eq_dec i0 i) as [->|NI]; [right|left; exact NI]. split; [reflexivity|].
      rewrite N0 in N1. injection N1 as <-. unfold tries. rewrite P. cbn [close Model.c_phase Model.c_closed]. destruct items0; cbn [after sends]; lia.
    - injection E as <-. apply Z; [|reflexivity]. destruct (Nat.eq_dec i0 i) as [->|NI]; [right|left; exact NI]. split; [reflexivity|].
      unfold tries. cbn [with_phase Model.c_phase sends]. lia.
    - injection E as <-. apply Z; [|reflexivity]. destruct (Nat.eq_dec i0 i) as [->|NI]; [right|left; exact NI]. split; [reflexivity|].
      rewrite N0 in N1. injection N1 as <-. unfold tries. rewrite P. cbn [with_phase Model.c_phase Model.c_closed sends]. lia.
    - injection E as <-. apply Z; [|intros NI; apply Sn; auto]. destruct (Nat.eq_dec i0 i) as [->|NI]; [right|left; exact NI]. split; [reflexivity|].
      rewrite N0 in N1. injection N1 as <-. unfold tries. rewrite P. cbn [send Model.c_phase sends]. rewrite Nat.eqb_refl. destruct (c_closed c); lia.
    - destruct (c_closed c0); injection E as <-; unfold remove_key, set_channel; cbn [Model.entries Model.channels Model.receivers];
        (apply Z; [|reflexivity]); (destruct (Nat.eq_dec i0 i) as [->|NI]; [right|left; exact NI]); (split; [reflexivity|]);
        unfold tries; cbn [with_phase Model.c_phase sends]; lia.
    - exists c. assert (CH : channels s' = channels s /\ heard i s' = false).
      { unfold receive in E. destruct (nth_error (receivers s) j) as [r0|] eqn:N1; [|discriminate].
        destruct (r_status r0) eqn:St; try discriminate. destruct (nth_error (channels s) (r_chan r0)) as [c0|]; [|discriminate].
        destruct (Nat.ltb _ _); [|destruct (nth_error (c_sent c0) _); [|destruct (disconnected _ _ _ _ _ _); [|discriminate]]];
          injection E as <-; (split; [reflexivity|]); apply heard_update; auto; exists r0; auto. }
      destruct CH as [-> CH]. split; [exact N0|]. split; [reflexivity|]. split; [exact CH|]. cbn [sends]. lia.
    - exists c. destruct (nth_error (receivers s) j) as [r0|] eqn:N1; [|discriminate]. destruct (r_status r0) eqn:St; try discriminate.
      injection E as <-. split; [exact N0|]. split; [reflexivity|]. split; [apply heard_update; auto; exists r0; auto|]. cbn [sends]. lia.
  Qed.

  (** When no client listens and none comes, at most two more items of the guest are tried to be passed on. *)
  Theorem C112_stops : forall es s es' s' i c,
    run step es start = Some s -> nth_error (channels s) i = Some c ->
    (forall j r, nth_error (receivers s) j = Some r -> r_chan r = i -> r_status r <> Open) ->
    (forall x, ~ In (Subscribe x (c_key c)) es') ->
    run step es' s = Some s' -> sends i es' <= 2.
  Proof.
    intros es s es' s' i c E N0 Hr NS E'. pose proof (run_ok A K X same_key cap same_key_spec es s E) as H.
    assert (Hh : heard i s = false).
    { apply not_true_is_false. intros Q. apply heard_iff in Q. destruct Q as [j [r [Q1 [Q2 Q3]]]]. exact (Hr j r Q1 Q2 Q3). }
    assert (G : sends i es' <= tries c).
    { clear E Hr. revert es s c H N0 Hh NS E'. induction es' as [|e es' IH]; cbn [Model.run]; intros es s c H N0 Hh NS E'.
      - cbn. lia.
      - destruct (step s e) as [s1|] eqn:E1; [|discriminate].
        destruct (step_tries es s e s1 i c H E1 N0 Hh) as [c' [N1 [K1 [Hh1 T1]]]].
        { intros x Q. apply (NS x). left. exact Q. }
        change (e :: es') with ([e] ++ es'). rewrite sends_app.
        assert (IH1 : sends i es' <= tries c').
        { eapply IH; [|exact N1|exact Hh1| |exact E'].
          - eapply step_ok; [exact same_key_spec|exact H|exact E1].
          - intros x Q. rewrite K1 in Q. apply (NS x). right. exact Q. }
        lia. }
    assert (T : tries c <= 2) by (unfold tries; destruct (c_phase c); destruct (c_closed c); lia). lia.
  Qed.
End Properties.
