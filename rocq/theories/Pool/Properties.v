(** What the users of the pool get. *)
From Coq Require Import List Bool PeanoNat Lia Permutation.
From Verif.Pool Require Import Model Spec Invariant.
Import ListNotations.

Lemma split_app {B} : forall (a b l1 l2 : list B) x, a ++ b = l1 ++ x :: l2 ->
  (exists m, a = l1 ++ x :: m /\ l2 = m ++ b) \/ (exists m, l1 = a ++ m /\ b = m ++ x :: l2).
Proof.
  induction a as [|y a IH]; intros b l1 l2 x E; [right; exists l1; auto|]. destruct l1 as [|z l1]; cbn [app] in E.
  - injection E as -> <-. left. exists a. auto.
  - injection E as -> E. destruct (IH _ _ _ _ E) as [[m [-> ->]]|[m [-> ->]]]; [left; exists m; auto|right; exists m; auto].
Qed.

Lemma credible_app : forall l l', credible (l ++ l') -> credible l.
Proof. intros l l' H l1 l2 h i c b E. apply (H l1 (l2 ++ l') h i c b). rewrite E, <- app_assoc. reflexivity. Qed.

Lemma quiet_part : forall l m x l2, quiet l -> l = m ++ x :: l2 -> quiet m.
Proof. intros l m x l2 Q -> h i c o R. apply (Q h i c o). apply in_or_app. auto. Qed.

Lemma failed_quiet : forall i l m, quiet m -> failed i (l ++ m) -> failed i l.
Proof. intros i l m Q [h [c [o [R1 R2]]]]. apply in_app_or in R1. destruct R1 as [R1|R1]; [exists h, c, o; auto|elim (Q _ _ _ _ R1)]. Qed.

Lemma quiet_taken : forall dead h i k, quiet (map Destroyed dead ++ [Handed h i k]).
Proof. intros dead h i k. apply quiet_dead. intros h' i' c' o' [R|[]]. discriminate. Qed.
Lemma quiet_new : forall dead h i k, quiet (map Destroyed dead ++ [Created i; Handed h i k]).
Proof. intros dead h i k. apply quiet_dead. intros h' i' c' o' [R|[R|[]]]; discriminate. Qed.
Lemma quiet_fails : forall dead, quiet (map Destroyed dead).
Proof. intros dead. rewrite <- (app_nil_r (map _ _)). apply quiet_dead. intros h' i' c' o' []. Qed.
Lemma quiet_release : forall h i p s, quiet (snd (release h i p s)).
Proof. intros h i p s h' i' c' o' R. unfold release in R. destruct p; cbn in R; try (destruct R; fail). destruct R as [R|[]]. discriminate. Qed.

Lemma dead_handed : forall dead h i k, ~ In (Handed h i k) (map Destroyed dead).
Proof. intros dead h i k R. apply in_map_iff in R. destruct R as [x [R _]]. discriminate. Qed.
Lemma release_handed : forall h i p s h' i' k, ~ In (Handed h' i' k) (snd (release h i p s)).
Proof. intros h i p s h' i' k R. unfold release in R. destruct p; cbn in R; try (destruct R; fail). destruct R as [R|[]]. discriminate. Qed.
Lemma release_destroyed : forall h i p s j, ~ In (Destroyed j) (snd (release h i p s)).
Proof. intros h i p s j R. unfold release in R. destruct p; cbn in R; try (destruct R; fail). destruct R as [R|[]]. discriminate. Qed.

Lemma in_mid {B} : forall (m l : list B) x, In x (m ++ x :: l).
Proof. intros. apply in_or_app. right. left. reflexivity. Qed.

Section Properties.
  Variable max : nat.
  Notation step := (step max).
  Notation run := (run max).

  Lemma run_base : forall es s log, run es start = Some (s, log) -> base max log s.
  Proof. apply run_ind; [apply base_start|]. intros log s e s' l B E. eapply base_step; eauto. Qed.

  Lemma run_ind2 : forall P : list entry -> state -> Prop, P [] start ->
    (forall log s e s' l, base max log s -> P log s -> step s e = Some (s', l) -> P (log ++ l) s') ->
    forall es s log, run es start = Some (s, log) -> P log s.
  Proof.
    intros P P0 PS es s log E. assert (Z : base max log s /\ P log s); [|apply Z]. revert es s log E.
    apply run_ind; [split; [apply base_start|exact P0]|]. intros log s e s' l [B Q] E. split; [eapply base_step; eauto|eapply PS; eauto].
  Qed.

  (** ** Instances that are handed out are usable *)

  Definition usable (log : list entry) (s : state) : Prop := credible log ->
    (forall i y, nth_error (instances s) i = Some y -> failed i log -> poisoned y = true)
    /\ (forall l1 h i k l2, log = l1 ++ Handed h i k :: l2 -> ~ failed i l1 /\ subscribed i l1 = false).

  Lemma unseen : forall i l, (forall h c o, ~ In (Called h i c o) l) -> subscribed i l = false.
  Proof.
    intros i l. unfold subscribed. generalize false. induction l as [|e l IH]; intros b H; [reflexivity|].
    destruct e as [| | |h j c o|]; cbn [subscribed_from]; try (apply IH; intros h' c' o' R; apply (H h' c' o'); right; exact R).
    destruct (Nat.eqb_spec i j) as [<-|NE]; [elim (H h c o); left; reflexivity|]. apply IH. intros h' c' o' R; apply (H h' c' o'); right; exact R.
  Qed.

  Lemma usable_run : forall es s log, run es start = Some (s, log) -> usable log s.
  Proof.
    apply run_ind2.
    - intros _. split; [intros [|]; discriminate|]. intros [|]; discriminate.
    - intros log s e s' l B U E C. destruct (U (credible_app _ _ C)) as [U1 U2]. apply step_did in E.
      destruct B as [B1 B2 B3 B4 B5 B6 B7 B8 B9].
      destruct E as [k dead i rest T L|k dead rest T L|dead rest T|h o p i x N0 NP N1|h p p' i N0 NP HP]; cbn [instances].
      + destruct (take_spec _ _ _ _ _ T) as [_ [_ [H3 _]]]. destruct (H3 i eq_refl) as [x [Nx Rx]]. split.
        * intros j y Ny F. apply failed_quiet in F; [eauto|apply quiet_taken].
        * intros l1 h j k' l2 Q. destruct (split_app _ _ _ _ _ Q) as [[m [Q1 _]]|[m [-> Q1]]]; [eauto|].
          assert (QM : quiet m) by (eapply quiet_part; [apply quiet_taken|exact Q1]).
          assert (J : j = i).
          { pose proof (in_mid m l2 (Handed h j k')) as R. rewrite <- Q1 in R. apply in_app_or in R. destruct R as [R|[R|[]]]; [elim (dead_handed _ _ _ _ R)|congruence]. }
          subst j. unfold recycle in Rx. apply negb_true_iff, orb_false_iff in Rx. destruct Rx as [R1 R2]. apply negb_false_iff in R2.
          assert (NF : ~ failed i log) by (intros F; specialize (U1 i x Nx F); congruence).
          split; [intros F; apply NF; eapply failed_quiet; eauto|]. unfold subscribed. rewrite subscribed_app, quiet_subscribed by exact QM.
          apply not_true_is_false. intros S0. destruct (B5 i x Nx S0); [congruence|tauto].
      + split.
        * intros j y Ny F. apply failed_quiet in F; [|apply quiet_new]. apply nth_snoc_inv in Ny. destruct Ny as [Ny|[-> _]]; [eauto|].
          destruct F as [h [c [o [F _]]]]. specialize (B7 _ _ _ _ F). lia.
        * intros l1 h j k' l2 Q. destruct (split_app _ _ _ _ _ Q) as [[m [Q1 _]]|[m [-> Q1]]]; [eauto|].
          assert (QM : quiet m) by (eapply quiet_part; [apply quiet_new|exact Q1]).
          assert (J : j = length (instances s)).
          { pose proof (in_mid m l2 (Handed h j k')) as R. rewrite <- Q1 in R. apply in_app_or in R. destruct R as [R|[R|[R|[]]]]; [elim (dead_handed _ _ _ _ R)|discriminate|congruence]. }
          assert (NC : forall h c o, ~ In (Called h j c o) log) by (intros h' c o R; specialize (B7 _ _ _ _ R); lia).
          split; [intros F; apply failed_quiet in F; [|exact QM]; destruct F as [h' [c [o [F _]]]]; elim (NC _ _ _ F)|].
          apply unseen. intros h' c o R. apply in_app_or in R. destruct R as [R|R]; [elim (NC _ _ _ R)|elim (QM _ _ _ _ R)].
      + split.
        * intros j y Ny F. apply failed_quiet in F; [eauto|apply quiet_fails].
        * intros l1 h j k' l2 Q. destruct (split_app _ _ _ _ _ Q) as [[m [Q1 _]]|[m [-> Q1]]]; [eauto|].
          pose proof (in_mid m l2 (Handed h j k')) as R. rewrite <- Q1 in R. elim (dead_handed _ _ _ _ R).
      + split.
        * intros j y Ny F. apply nth_update_inv in Ny.
          change (Called h i (call_of p) o :: snd (release h i (continue p o) s)) with ([Called h i (call_of p) o] ++ snd (release h i (continue p o) s)) in F.
          rewrite app_assoc in F. apply failed_quiet in F; [|apply quiet_release].
          destruct Ny as [[-> ->]|[NE Ny]].
          -- destruct o as [b| |]; [|destruct p; reflexivity|destruct p; reflexivity]. exfalso.
             apply (C log (snd (release h i (continue p (Returned b)) s)) h i (call_of p) b eq_refl).
             destruct F as [h' [c [o' [R1 R2]]]]. apply in_app_or in R1. destruct R1 as [R1|[R1|[]]]; [exists h', c, o'; auto|]. injection R1 as _ _ <-. destruct R2; discriminate.
          -- apply (U1 j y Ny). destruct F as [h' [c [o' [R1 R2]]]]. apply in_app_or in R1. destruct R1 as [R1|[R1|[]]]; [exists h', c, o'; auto|]. injection R1 as _ Z _ _. congruence.
        * intros l1 h' j k' l2 Q. destruct (split_app _ _ _ _ _ Q) as [[m [Q1 _]]|[m [-> Q1]]]; [eauto|].
          pose proof (in_mid m l2 (Handed h' j k')) as R. rewrite <- Q1 in R. destruct R as [R|R]; [discriminate|elim (release_handed _ _ _ _ _ _ _ R)].
      + split.
        * intros j y Ny F. apply failed_quiet in F; [eauto|apply quiet_release].
        * intros l1 h' j k' l2 Q. destruct (split_app _ _ _ _ _ Q) as [[m [Q1 _]]|[m [-> Q1]]]; [eauto|].
          pose proof (in_mid m l2 (Handed h' j k')) as R. rewrite <- Q1 in R. elim (release_handed _ _ _ _ _ _ _ R).
  Qed.

  (** Who is handed an instance gets one whose calls have all returned and whose guest has no subscription left. *)
  Theorem C114_healthy : forall es s log l1 h i k l2, run es start = Some (s, log) -> credible log -> log = l1 ++ Handed h i k :: l2 ->
    ~ failed i l1 /\ subscribed i l1 = false.
  Proof. intros es s log l1 h i k l2 E C Q. destruct (usable_run es s log E C) as [_ H]. eapply H. exact Q. Qed.

  (** ** One user at a time *)

  Lemma owned : forall es s log, run es start = Some (s, log) ->
    (forall l1 h i k l2, log = l1 ++ Handed h i k :: l2 ->
       In (Released h i) l2 \/ exists p, p <> POver /\ nth_error (sessions s) h = Some {| s_phase := p; s_inst := i |})
    /\ (forall m1 h i k m2 h' k' l2, log = (m1 ++ Handed h i k :: m2) ++ Handed h' i k' :: l2 -> In (Released h i) m2).
  Proof.
    apply (run_ind2 (fun log s => (forall l1 h i k l2, log = l1 ++ Handed h i k :: l2 ->
       In (Released h i) l2 \/ exists p, p <> POver /\ nth_error (sessions s) h = Some {| s_phase := p; s_inst := i |})
    /\ (forall m1 h i k m2 h' k' l2, log = (m1 ++ Handed h i k :: m2) ++ Handed h' i k' :: l2 -> In (Released h i) m2))).
    - split; [intros [|] h i k l2 Q; discriminate|]. intros [|] h i k m2 h' k' l2 Q; discriminate.
    - intros log s e s' l B [O1 O2] E. apply step_did in E. destruct B as [B1 B2 B3 B4 B5 B6 B7 B8 B9].
      (* a session that is added *)
      assert (TK : forall (dead : list nat) pre i k ids (xs : list instance), (forall h j k0, ~ In (Handed h j k0) pre) -> ~ In i (held (sessions s)) ->
        let s1 := {| instances := xs; idle := ids; sessions := sessions s ++ [{| s_phase := begins k; s_inst := i |}] |} in
        let l := pre ++ [Handed (length (sessions s)) i k] in
        (forall l1 h j k' l2, log ++ l = l1 ++ Handed h j k' :: l2 ->
           In (Released h j) l2 \/ exists p, p <> POver /\ nth_error (sessions s1) h = Some {| s_phase := p; s_inst := j |})
        /\ (forall m1 h j k0 m2 h' k' l2, log ++ l = (m1 ++ Handed h j k0 :: m2) ++ Handed h' j k' :: l2 -> In (Released h j) m2)).
      { intros _ pre i k ids xs PR NH s1 l0.
        assert (LAST : forall m h j k' l2, l0 = m ++ Handed h j k' :: l2 -> h = length (sessions s) /\ j = i /\ k' = k /\ l2 = [] /\ m = pre).
        { intros m h j k' l2 Q. unfold l0 in Q. destruct (split_app _ _ _ _ _ Q) as [[m' [Q1 _]]|[m' [-> Q1]]].
          - exfalso. apply (PR h j k'). rewrite Q1. apply in_mid.
          - destruct m' as [|z m']; [|destruct m'; discriminate]. cbn in Q1. injection Q1 as <- <- <- <-. rewrite app_nil_r. auto. }
        split.
        - intros l1 h j k' l2 Q. destruct (split_app _ _ _ _ _ Q) as [[m [Q1 ->]]|[m [-> Q1]]].
          + destruct (O1 _ _ _ _ _ Q1) as [R|[p [NP R]]]; [left; apply in_or_app; auto|]. right. exists p. split; [exact NP|]. cbn. rewrite nth_error_app1; [exact R|eapply nth_lt; exact R].
          + destruct (LAST _ _ _ _ _ Q1) as [-> [-> [-> _]]]. right. exists (begins k). split; [apply begins_phase|]. cbn. rewrite nth_error_app2, Nat.sub_diag by lia. reflexivity.
        - intros m1 h j k0 m2 h' k' l2 Q. destruct (split_app _ _ _ _ _ Q) as [[m [Q1 _]]|[m [Q0 Q1]]]; [eauto|].
          destruct (LAST _ _ _ _ _ Q1) as [-> [-> [-> [-> ->]]]]. symmetry in Q0. destruct (split_app _ _ _ _ _ Q0) as [[m [Q2 ->]]|[m [_ Q2]]].
          + destruct (O1 _ _ _ _ _ Q2) as [R|[p [NP R]]]; [apply in_or_app; auto|]. elim NH. exact (held_in _ _ _ R (active_spec p i NP)).
          + exfalso. apply (PR h i k0). rewrite Q2. apply in_mid. }
      (* a session that goes on *)
      assert (MV : forall pre h p p' i xs, (forall h j k0, ~ In (Handed h j k0) pre) -> nth_error (sessions s) h = Some {| s_phase := p; s_inst := i |} ->
        let s1 := {| instances := xs; idle := fst (release h i p' s); sessions := update h {| s_phase := p'; s_inst := i |} (sessions s) |} in
        let l := pre ++ snd (release h i p' s) in
        (forall l1 h j k' l2, log ++ l = l1 ++ Handed h j k' :: l2 ->
           In (Released h j) l2 \/ exists p, p <> POver /\ nth_error (sessions s1) h = Some {| s_phase := p; s_inst := j |})
        /\ (forall m1 h j k0 m2 h' k' l2, log ++ l = (m1 ++ Handed h j k0 :: m2) ++ Handed h' j k' :: l2 -> In (Released h j) m2)).
      { intros pre h p p' i xs PR N0 s1 l0.
        assert (NL : forall m h j k' l2, l0 <> m ++ Handed h j k' :: l2).
        { intros m h1 j k' l2 Q. pose proof (in_mid m l2 (Handed h1 j k')) as R. rewrite <- Q in R. apply in_app_or in R.
          destruct R as [R|R]; [elim (PR _ _ _ R)|elim (release_handed _ _ _ _ _ _ _ R)]. }
        split.
        - intros l1 h1 j k' l2 Q. destruct (split_app _ _ _ _ _ Q) as [[m [Q1 ->]]|[m [_ Q1]]]; [|elim (NL _ _ _ _ _ Q1)].
          destruct (O1 _ _ _ _ _ Q1) as [R|[q [NP R]]]; [left; apply in_or_app; auto|].
          destruct (Nat.eq_dec h1 h) as [->|NE].
          + rewrite N0 in R. injection R as -> ->. unfold s1, l0. cbn [sessions]. destruct p' eqn:P';
              try (right; eexists; split; [|eapply nth_update_same; exact N0]; discriminate).
            left. apply in_or_app. right. apply in_or_app. right. left. reflexivity.
          + right. exists q. split; [exact NP|]. unfold s1. cbn [sessions]. clear - R NE. revert h h1 R NE. induction (sessions s) as [|y ss IH]; intros [|h] [|h1] R NE; cbn in *; try discriminate; auto; tauto.
        - intros m1 h1 j k0 m2 h' k' l2 Q. destruct (split_app _ _ _ _ _ Q) as [[m [Q1 _]]|[m [_ Q1]]]; [eauto|elim (NL _ _ _ _ _ Q1)]. }
      destruct E as [k dead i rest T L|k dead rest T L|dead rest T|h o p i x N0 NP N1|h p p' i N0 NP HP].
      + destruct (take_spec _ _ _ _ _ T) as [H1 _]. apply (TK dead); [intros h j k0; apply dead_handed|].
        intros R. rewrite H1 in B1. rewrite <- !app_assoc in B1. apply NoDup_remove_2 in B1. apply B1. apply in_or_app. right. apply in_or_app. auto.
      + change [Created (length (instances s)); Handed (length (sessions s)) (length (instances s)) k]
          with ([Created (length (instances s))] ++ [Handed (length (sessions s)) (length (instances s)) k]). rewrite (app_assoc (map Destroyed dead)).
        apply (TK dead).
        * intros h j k0 R. apply in_app_or in R. destruct R as [R|[R|[]]]; [elim (dead_handed _ _ _ _ R)|discriminate].
        * intros R. assert (length (instances s) < length (instances s)) by (apply B2, in_or_app; auto). lia.
      + split.
        * intros l1 h j k' l2 Q. destruct (split_app _ _ _ _ _ Q) as [[m [Q1 ->]]|[m [_ Q1]]].
          -- destruct (O1 _ _ _ _ _ Q1) as [R|R]; [left; apply in_or_app; auto|right; exact R].
          -- exfalso. pose proof (in_mid m l2 (Handed h j k')) as R. rewrite <- Q1 in R. elim (dead_handed _ _ _ _ R).
        * intros m1 h j k0 m2 h' k' l2 Q. destruct (split_app _ _ _ _ _ Q) as [[m [Q1 _]]|[m [_ Q1]]]; [eauto|].
          exfalso. pose proof (in_mid m l2 (Handed h' j k')) as R. rewrite <- Q1 in R. elim (dead_handed _ _ _ _ R).
      + apply (MV [Called h i (call_of p) o] h p (continue p o) i); [|exact N0]. intros h' j k0 [R|[]]. discriminate.
      + apply (MV [] h p p' i); [|exact N0]. intros h' j k0 [].
  Qed.

  (** An instance is handed out again only after who had it has given it back. *)
  Theorem C114_one : forall es s log l1 h i k l2 h' k' l3, run es start = Some (s, log) ->
    log = l1 ++ Handed h i k :: l2 ++ Handed h' i k' :: l3 -> In (Released h i) l2.
  Proof.
    intros es s log l1 h i k l2 h' k' l3 E Q. destruct (owned es s log E) as [_ H]. apply (H l1 h i k l2 h' k' l3). rewrite Q, <- app_assoc. reflexivity.
  Qed.

  (** ** How many there are *)

  (** There are never more instances than the pool's size. *)
  Theorem C114_bound : forall es s log, run es start = Some (s, log) -> created log <= destroyed log + max.
  Proof. intros es s log E. destruct (run_base es s log E). lia. Qed.

  (** An instance is destroyed only after a call of it has failed or was dropped, or it was asked for a subscription. *)
  Theorem C114_kept : forall es s log l1 i l2, run es start = Some (s, log) -> log = l1 ++ Destroyed i :: l2 ->
    exists h c o, In (Called h i c o) l1 /\ (o = Trapped \/ o = Cancelled \/ c = CCreate \/ c = CKey).
  Proof.
    intros es s log l1 i l2 E. revert l1 i l2. revert es s log E.
    apply (run_ind2 (fun log _ => forall l1 i l2, log = l1 ++ Destroyed i :: l2 ->
      exists h c o, In (Called h i c o) l1 /\ (o = Trapped \/ o = Cancelled \/ c = CCreate \/ c = CKey))).
    - intros [|] i l2 Q; discriminate.
    - intros log s e s' l B H E l1 j l2 Q. destruct (split_app _ _ _ _ _ Q) as [[m [Q1 _]]|[m [-> Q1]]]; [eauto|].
      apply step_did in E. destruct B as [B1 B2 B3 B4 B5 B6 B7 B8 B9].
      assert (DD : forall dead o rest, take (instances s) (idle s) = (dead, o, rest) -> In j dead ->
        exists h c o, In (Called h j c o) (log ++ m) /\ (o = Trapped \/ o = Cancelled \/ c = CCreate \/ c = CKey)).
      { intros dead o rest T D. destruct (take_spec _ _ _ _ _ T) as [H1 [_ [_ H4]]].
        assert (LJ : j < length (instances s)) by (apply B2; rewrite H1; apply in_or_app; left; apply in_or_app; auto).
        destruct (nth_error (instances s) j) as [x|] eqn:Nx; [|apply nth_error_None in Nx; lia].
        destruct (B6 j x Nx (H4 _ _ D Nx)) as [h [c [o' [R1 R2]]]]. exists h, c, o'. split; [apply in_or_app; auto|exact R2]. }
      assert (DI : In (Destroyed j) l) by (rewrite Q1; apply in_mid).
      assert (MD : forall dead, In (Destroyed j) (map Destroyed dead) -> In j dead) by (intros dead R; apply in_map_iff in R; destruct R as [x [R1 R2]]; injection R1 as <-; exact R2).
      destruct E as [k dead i rest T L|k dead rest T L|dead rest T|h o p i x N0 NP N1|h p p' i N0 NP HP].
      + apply in_app_or in DI. destruct DI as [DI|[DI|[]]]; [eauto|discriminate].
      + apply in_app_or in DI. destruct DI as [DI|[DI|[DI|[]]]]; [eauto|discriminate|discriminate].
      + eauto.
      + destruct DI as [DI|DI]; [discriminate|elim (release_destroyed _ _ _ _ _ DI)].
      + elim (release_destroyed _ _ _ _ _ DI).
  Qed.

  (** ** Streams end after an error *)

  Lemma trapped_app : forall h l l', trapped_next h (l ++ l') = trapped_next h l + trapped_next h l'.
  Proof. intros h. induction l as [|e l IH]; intros l'; [reflexivity|]. destruct e as [| | |h' i c o|]; cbn [app trapped_next]; try apply IH. destruct c, o; rewrite ?IH; lia. Qed.
  Lemma trapped_quiet : forall h l, quiet l -> trapped_next h l = 0.
  Proof.
    intros h. induction l as [|e l IH]; intros Q; [reflexivity|]. assert (Q' : quiet l) by (intros h' i' c' o' R; apply (Q h' i' c' o'); right; exact R).
    destruct e as [| | |h' i c o|]; cbn [trapped_next]; auto. elim (Q h' i c o). left. reflexivity.
  Qed.

  Definition ends (log : list entry) (s : state) : Prop :=
    (forall h, length (sessions s) <= h -> trapped_next h log = 0 /\ forall i k, ~ In (Handed h i k) log)
    /\ forall h i k p j, In (Handed h i k) log -> k <> Old -> nth_error (sessions s) h = Some {| s_phase := p; s_inst := j |} ->
       match p with PSimple | PCreate | PStream => trapped_next h log = 0 | PDrop | POver => trapped_next h log <= 1 | _ => False end.

  Lemma ends_run : forall es s log, run es start = Some (s, log) -> ends log s.
  Proof.
    apply run_ind2.
    - split; [intros h _; split; [reflexivity|intros i k []]|]. intros h i k p j [].
    - intros log s e s' l B [H1 H2] E. apply step_did in E.
      assert (TK : forall pre i k ids xs, quiet pre -> (forall h j k0, ~ In (Handed h j k0) pre) ->
        ends (log ++ pre ++ [Handed (length (sessions s)) i k]) {| instances := xs; idle := ids; sessions := sessions s ++ [{| s_phase := begins k; s_inst := i |}] |}).
      { intros pre i k ids xs QP PR.
        assert (QL : forall h, trapped_next h (log ++ pre ++ [Handed (length (sessions s)) i k]) = trapped_next h log).
        { intros h. rewrite !trapped_app, (trapped_quiet h pre QP). cbn. lia. }
        split; cbn [sessions].
        - intros h L. rewrite app_length in L. cbn in L. rewrite QL. split; [apply H1; lia|]. intros i' k' R. apply in_app_or in R. destruct R as [R|R]; [apply (H1 h) in R; [exact R|lia]|].
          apply in_app_or in R. destruct R as [R|[R|[]]]; [elim (PR _ _ _ R)|]. injection R as R _ _. lia.
        - intros h i' k' p j R NK N0. rewrite QL. apply nth_snoc_inv in N0. apply in_app_or in R. destruct N0 as [N0|[-> N0]].
          + destruct R as [R|R]; [eapply H2; eauto|]. apply in_app_or in R. destruct R as [R|[R|[]]]; [elim (PR _ _ _ R)|]. injection R as R _ _. pose proof (nth_lt _ _ _ N0). lia.
          + injection N0 as -> ->. destruct (H1 (length (sessions s)) (le_n _)) as [Z1 Z2]. destruct R as [R|R]; [elim (Z2 _ _ R)|].
            apply in_app_or in R. destruct R as [R|[R|[]]]; [elim (PR _ _ _ R)|]. injection R as _ <-. destruct k; [exact Z1|exact Z1|elim NK; reflexivity]. }
      assert (MV : forall pre h p p' i xs ids, (forall h j k0, ~ In (Handed h j k0) pre) -> nth_error (sessions s) h = Some {| s_phase := p; s_inst := i |} ->
        (forall h', h' <> h -> trapped_next h' pre = 0) ->
        (match p with PSimple | PCreate | PStream => trapped_next h log = 0 | PDrop | POver => trapped_next h log <= 1 | _ => False end ->
         match p' with PSimple | PCreate | PStream => trapped_next h (log ++ pre) = 0 | PDrop | POver => trapped_next h (log ++ pre) <= 1 | _ => False end) ->
        ends (log ++ pre) {| instances := xs; idle := ids; sessions := update h {| s_phase := p'; s_inst := i |} (sessions s) |}).
      { intros pre h p p' i xs ids PR N0 TP HP. split; cbn [sessions]; rewrite ?update_length.
        - intros h' L. destruct (H1 h' L) as [Z1 Z2]. rewrite trapped_app, TP by (intros ->; pose proof (nth_lt _ _ _ N0); lia). split; [lia|].
          intros i' k' R. apply in_app_or in R. destruct R as [R|R]; [elim (Z2 _ _ R)|elim (PR _ _ _ R)].
        - intros h' i' k' q j R NK N1. apply in_app_or in R. destruct R as [R|R]; [|elim (PR _ _ _ R)]. apply nth_update_inv in N1.
          destruct N1 as [[-> N1]|[NE N1]].
          + injection N1 as -> ->. apply HP. eapply H2; eauto.
          + rewrite trapped_app, (TP _ NE), Nat.add_0_r. eapply H2; eauto. }
      destruct E as [k dead i rest T L|k dead rest T L|dead rest T|h o p i x N0 NP N1|h p p' i N0 NP HP].
      + apply TK; [apply quiet_fails|intros h j k0; apply dead_handed].
      + change [Created (length (instances s)); Handed (length (sessions s)) (length (instances s)) k]
          with ([Created (length (instances s))] ++ [Handed (length (sessions s)) (length (instances s)) k]). rewrite (app_assoc (map Destroyed dead)).
        apply TK.
        * apply quiet_dead. intros h' i' c' o' [R|[]]. discriminate.
        * intros h j k0 R. apply in_app_or in R. destruct R as [R|[R|[]]]; [elim (dead_handed _ _ _ _ R)|discriminate].
      + split; cbn [sessions].
        * intros h L. rewrite trapped_app, (trapped_quiet h _ (quiet_fails dead)). destruct (H1 h L) as [Z1 Z2]. split; [lia|]. intros i k R. apply in_app_or in R. destruct R as [R|R]; [elim (Z2 _ _ R)|elim (dead_handed _ _ _ _ R)].
        * intros h i k p j R NK N0. rewrite trapped_app, (trapped_quiet h _ (quiet_fails dead)), Nat.add_0_r. apply in_app_or in R. destruct R as [R|R]; [eapply H2; eauto|elim (dead_handed _ _ _ _ R)].
      + apply (MV _ h p).
        * intros h' j k0 [R|R]; [discriminate|elim (release_handed _ _ _ _ _ _ _ R)].
        * exact N0.
        * intros h' NE. cbn [trapped_next]. rewrite (trapped_quiet h' _ (quiet_release _ _ _ _)). destruct (Nat.eqb_spec h' h); [tauto|]. destruct (call_of p), o; reflexivity.
        * intros Z. rewrite trapped_app. cbn [trapped_next]. rewrite (trapped_quiet h _ (quiet_release _ _ _ _)), Nat.eqb_refl.
          destruct p; destruct o as [[]| |]; cbn in Z |- *; try lia; try tauto.
      + apply (MV _ h p).
        * intros h' j k0 R. elim (release_handed _ _ _ _ _ _ _ R).
        * exact N0.
        * intros h' NE. apply trapped_quiet, quiet_release.
        * intros Z. rewrite trapped_app, (trapped_quiet h _ (quiet_release _ _ _ _)). destruct HP as [[-> _]|[-> ->]]; [|lia]. destruct p; lia || tauto.
  Qed.

  (** A subscription reports at most once that its guest has trapped, and ends. *)
  Theorem C114_once : forall es s log h i, run es start = Some (s, log) -> In (Handed h i Sub) log -> trapped_next h log <= 1.
  Proof.
    intros es s log h i E R. destruct (ends_run es s log E) as [H1 H2].
    destruct (nth_error (sessions s) h) as [[p j]|] eqn:N0.
    - pose proof (H2 h i Sub p j R ltac:(discriminate) N0) as Z. destruct p; lia || tauto.
    - apply nth_error_None in N0. destruct (H1 h N0) as [_ Z]. elim (Z _ _ R).
  Qed.

  (** ** Who has given an instance back is done *)

  Definition acted (h : nat) (e : entry) : Prop := match e with Called h' _ _ _ | Released h' _ => h' = h | _ => False end.

  Definition gone (log : list entry) (s : state) : Prop :=
    (forall h i, In (Released h i) log -> nth_error (sessions s) h = Some {| s_phase := POver; s_inst := i |})
    /\ (forall l1 h i l2, log = l1 ++ Released h i :: l2 -> forall e, In e l2 -> ~ acted h e)
    /\ (forall l1 h i c l2, log = l1 ++ Called h i c Cancelled :: l2 -> exists l3, l2 = Released h i :: l3).

  Lemma dead_by : forall dead h e, In e (map Destroyed dead) -> ~ acted h e.
  Proof. intros dead h e R. apply in_map_iff in R. destruct R as [x [<- _]]. auto. Qed.

  (** A step that neither calls nor gives back. *)
  Lemma gone_idle : forall log s s' l, gone log s -> (forall h e, In e l -> ~ acted h e) ->
    (forall h x, nth_error (sessions s) h = Some x -> nth_error (sessions s') h = Some x) -> gone (log ++ l) s'.
  Proof.
    intros log s s' l [G1 [G2 G3]] NB KS. split; [|split].
    - intros h i R. apply in_app_or in R. destruct R as [R|R]; [apply KS, G1, R|]. elim (NB h _ R). reflexivity.
    - intros l1 h i l2 Q e R. destruct (split_app _ _ _ _ _ Q) as [[m [Q1 ->]]|[m [_ Q1]]].
      + apply in_app_or in R. destruct R as [R|R]; [eapply G2; eauto|apply NB, R].
      + elim (NB h (Released h i)); [rewrite Q1; apply in_mid|reflexivity].
    - intros l1 h i c l2 Q. destruct (split_app _ _ _ _ _ Q) as [[m [Q1 ->]]|[m [_ Q1]]].
      + destruct (G3 _ _ _ _ _ Q1) as [l3 ->]. exists (l3 ++ l). reflexivity.
      + elim (NB h (Called h i c Cancelled)); [rewrite Q1; apply in_mid|reflexivity].
  Qed.

  (** A step of the user [h]. *)
  Lemma gone_acts : forall log s l h p p' i xs ids, gone log s -> nth_error (sessions s) h = Some {| s_phase := p; s_inst := i |} -> p <> POver ->
    (l = [] \/ l = [Released h i] /\ p' = POver
     \/ exists c o, o <> Cancelled /\ l = [Called h i c o] \/ l = [Called h i c o; Released h i] /\ p' = POver) ->
    gone (log ++ l) {| instances := xs; idle := ids; sessions := update h {| s_phase := p'; s_inst := i |} (sessions s) |}.
  Proof.
    intros log s l h p p' i xs ids [G1 [G2 G3]] N0 NP HL.
    assert (FR : forall e, In e log -> e <> Released h i) by (intros e R ->; pose proof (G1 _ _ R) as Z; rewrite N0 in Z; injection Z as Z; exact (NP Z)).
    assert (MI : forall e, In e l -> e = Released h i \/ exists c o, e = Called h i c o).
    { intros e R. destruct HL as [->|[[-> _]|[c [o [[_ ->]|[-> _]]]]]]; cbn in R; intuition (subst; eauto). }
    split; [|split].
    - cbn [sessions]. intros h' i' R. apply in_app_or in R. destruct R as [R|R].
      + pose proof (G1 _ _ R) as Z. assert (NE : h' <> h) by (intros ->; rewrite N0 in Z; injection Z as Z _; exact (NP Z)).
        clear -Z NE. revert h h' Z NE. induction (sessions s) as [|y ss IH]; intros [|h] [|h'] Z NE; cbn in *; auto; try discriminate; try tauto.
      + destruct (MI _ R) as [Z|[c [o Z]]]; [|discriminate]. injection Z as -> ->. rewrite (nth_update_same _ _ _ _ N0). do 2 f_equal.
        destruct HL as [->|[[_ ->]|[c [o [[_ ->]|[_ ->]]]]]]; auto; [destruct R|destruct R as [R|[]]; discriminate].
    - intros l1 h' i' l2 Q e R. destruct (split_app _ _ _ _ _ Q) as [[m [Q1 ->]]|[m [_ Q1]]].
      + apply in_app_or in R. destruct R as [R|R]; [eapply G2; eauto|]. intros B.
        assert (Z : nth_error (sessions s) h' = Some {| s_phase := POver; s_inst := i' |}) by (apply G1; rewrite Q1; apply in_mid).
        assert (h' = h) by (destruct (MI _ R) as [->|[c [o ->]]]; symmetry; exact B). subst h'. rewrite N0 in Z. injection Z as Z _. exact (NP Z).
      + assert (l2 = []); [|subst l2; destruct R].
        destruct HL as [->|[[-> _]|[c [o [[_ ->]|[-> _]]]]]]; destruct m as [|x [|y m]]; cbn in Q1; try discriminate; injection Q1 as Q1; try discriminate; subst; try reflexivity; destruct m; discriminate.
    - intros l1 h' i' c' l2 Q. destruct (split_app _ _ _ _ _ Q) as [[m [Q1 ->]]|[m [_ Q1]]].
      + destruct (G3 _ _ _ _ _ Q1) as [l3 ->]. exists (l3 ++ l). reflexivity.
      + destruct HL as [->|[[-> _]|[c [o [[NC ->]|[-> _]]]]]]; destruct m as [|x [|y m]]; cbn in Q1; try discriminate; try (injection Q1 as Q1; try discriminate; destruct m; discriminate).
        * injection Q1 as _ _ _ Q1 _. elim NC. exact Q1.
        * injection Q1 as -> -> _ _ <-. eauto.
  Qed.

  Lemma gone_run : forall es s log, run es start = Some (s, log) -> gone log s.
  Proof.
    apply run_ind2.
    - split; [intros h i []|]. split; [intros [|] h i l2|intros [|] h i c l2]; discriminate.
    - intros log s e s' l _ H E. apply step_did in E.
      assert (KS : forall x h y, nth_error (sessions s) h = Some y -> nth_error (sessions s ++ [x]) h = Some y).
      { intros x h y N0. rewrite nth_error_app1 by (eapply nth_lt; exact N0). exact N0. }
      destruct E as [k dead i rest T L|k dead rest T L|dead rest T|h o p i x N0 NP N1|h p p' i N0 NP HP].
      + apply (gone_idle _ _ _ _ H); [|cbn [sessions]; apply KS]. intros h e0 R. apply in_app_or in R. destruct R as [R|[<-|[]]]; [eapply dead_by; eauto|auto].
      + apply (gone_idle _ _ _ _ H); [|cbn [sessions]; apply KS]. intros h e0 R. apply in_app_or in R. destruct R as [R|[<-|[<-|[]]]]; [eapply dead_by; eauto|auto|auto].
      + apply (gone_idle _ _ _ _ H); [|auto]. intros h e0 R. eapply dead_by; eauto.
      + eapply gone_acts; [exact H|exact N0|exact NP|]. right. right. exists (call_of p), o. unfold release.
        destruct o as [b| |].
        * destruct (continue p (Returned b)); cbn; auto; left; split; auto; discriminate.
        * destruct (continue p Trapped); cbn; auto; left; split; auto; discriminate.
        * right. assert (CO : continue p Cancelled = POver) by (destruct p; reflexivity). rewrite CO. auto.
      + eapply gone_acts; [exact H|exact N0|exact NP|]. unfold release. destruct p'; cbn; auto.
  Qed.

  (** Who has given its instance back doesn't call the guest anymore and gives nothing back again. *)
  Theorem C114_done : forall es s log l1 h i l2 e, run es start = Some (s, log) -> log = l1 ++ Released h i :: l2 -> In e l2 -> ~ acted h e.
  Proof. intros es s log l1 h i l2 e E Q R. destruct (gone_run _ _ _ E) as [_ [G _]]. eapply G; eauto. Qed.

  (** Who is dropped during a call gives its instance back at once. *)
  Theorem C114_dropped : forall es s log l1 h i c l2, run es start = Some (s, log) -> log = l1 ++ Called h i c Cancelled :: l2 -> exists l3, l2 = Released h i :: l3.
  Proof. intros es s log l1 h i c l2 E Q. destruct (gone_run _ _ _ E) as [_ [_ G]]. eapply G; eauto. Qed.
End Properties.
