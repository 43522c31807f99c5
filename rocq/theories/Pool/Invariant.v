(** What holds of every run of the pool. *)
From Coq Require Import List Bool PeanoNat Lia Permutation.
From Verif.Pool Require Import Model Spec.
Import ListNotations.

Lemma update_length {B} : forall (l : list B) i x, length (update i x l) = length l.
Proof. induction l; intros [|i] x; cbn; auto. Qed.

Lemma nth_update_same {B} : forall (l : list B) i x y, nth_error l i = Some y -> nth_error (update i x l) i = Some x.
Proof. induction l; intros [|i] x y E; cbn in *; try discriminate; eauto. Qed.

Lemma nth_update_inv {B} : forall (l : list B) i x j z, nth_error (update i x l) j = Some z ->
  (j = i /\ z = x) \/ (j <> i /\ nth_error l j = Some z).
Proof.
  induction l; intros [|i] x [|j] z E; cbn in *; try discriminate; auto.
  - injection E as <-. auto.
  - destruct (IHl _ _ _ _ E) as [[-> ->]|[]]; auto.
Qed.

Lemma nth_snoc_inv {B} : forall (l : list B) x j z, nth_error (l ++ [x]) j = Some z -> nth_error l j = Some z \/ (j = length l /\ z = x).
Proof.
  induction l; intros x [|j] z E; cbn in *; auto.
  - injection E as <-. auto.
  - destruct j; discriminate.
  - destruct (IHl _ _ _ E) as [|[-> ->]]; auto.
Qed.

Lemma nth_lt {B} : forall (l : list B) i x, nth_error l i = Some x -> i < length l.
Proof. intros l i x E. apply nth_error_Some. congruence. Qed.

(** ** Taking an instance *)

Definition opt (o : option nat) : list nat := match o with Some i => [i] | None => [] end.

Lemma take_spec : forall xs ids dead o rest, take xs ids = (dead, o, rest) ->
  ids = dead ++ opt o ++ rest /\ (o = None -> rest = [])
  /\ (forall i, o = Some i -> exists x, nth_error xs i = Some x /\ recycle x = true)
  /\ (forall i x, In i dead -> nth_error xs i = Some x -> recycle x = false).
Proof.
  intros xs. induction ids as [|i ids IH]; cbn [take]; intros dead o rest E.
  - injection E as <- <- <-. cbn. split; [reflexivity|]. split; [reflexivity|]. split; [discriminate|]. intros i x [].
  - destruct (match nth_error xs i with Some x => recycle x | None => false end) eqn:R.
    + injection E as <- <- <-. split; [reflexivity|]. split; [discriminate|]. split; [|intros j x []].
      intros j Q. injection Q as <-. destruct (nth_error xs i) as [x|]; [eauto|discriminate].
    + destruct (take xs ids) as [[dead' o'] rest'] eqn:T. injection E as <- <- <-.
      destruct (IH _ _ _ eq_refl) as [H1 [H2 [H3 H4]]]. split; [cbn; congruence|]. split; [exact H2|]. split; [exact H3|].
      intros j x [->|Q] N0; [rewrite N0 in R; exact R|eauto].
Qed.

(** ** Who holds what *)

Lemma held_snoc : forall ss x, held (ss ++ [x]) = held ss ++ (if active x then [s_inst x] else []).
Proof. intros ss x. unfold held. rewrite filter_app, map_app. cbn [filter]. destruct (active x); reflexivity. Qed.

Lemma held_same : forall ss h x x', nth_error ss h = Some x -> active x = true -> active x' = true -> s_inst x' = s_inst x -> held (update h x' ss) = held ss.
Proof.
  unfold held. induction ss as [|y ss IH]; intros [|h] x x' E A A' I0; cbn [nth_error update filter] in *; try discriminate.
  - injection E as ->. rewrite A, A'. cbn. congruence.
  - destruct (active y); cbn [map]; rewrite (IH h x x' E A A' I0); reflexivity.
Qed.

Lemma held_over : forall ss h x x', nth_error ss h = Some x -> active x = true -> active x' = false -> Permutation (held ss) (s_inst x :: held (update h x' ss)).
Proof.
  unfold held. induction ss as [|y ss IH]; intros [|h] x x' E A A'; cbn [nth_error update filter] in *; try discriminate.
  - injection E as ->. rewrite A, A'. reflexivity.
  - destruct (active y); cbn [map]; [|eauto]. rewrite (IH h x x' E A A'). apply perm_swap.
Qed.

Lemma held_in : forall ss h x, nth_error ss h = Some x -> active x = true -> In (s_inst x) (held ss).
Proof. intros ss h x E A. unfold held. apply in_map, filter_In. split; [eapply nth_error_In; eauto|exact A]. Qed.

Lemma held_inj : forall ss h h' x x', NoDup (held ss) -> nth_error ss h = Some x -> nth_error ss h' = Some x' ->
  active x = true -> active x' = true -> s_inst x = s_inst x' -> h = h'.
Proof.
  induction ss as [|y ss IH]; intros [|h] [|h'] x x' ND E E' A A' Q; cbn [nth_error] in *; try discriminate; auto.
  - injection E as ->. exfalso. unfold held in ND. cbn [filter] in ND. rewrite A in ND. cbn [map] in ND. apply NoDup_cons_iff in ND. destruct ND as [ND _].
    apply ND. rewrite Q. eapply held_in; eauto.
  - injection E' as ->. exfalso. unfold held in ND. cbn [filter] in ND. rewrite A' in ND. cbn [map] in ND. apply NoDup_cons_iff in ND. destruct ND as [ND _].
    apply ND. rewrite <- Q. eapply held_in; eauto.
  - f_equal. eapply IH; eauto. unfold held in ND. cbn [filter] in ND. destruct (active y); [|exact ND]. cbn [map] in ND. apply NoDup_cons_iff in ND. apply ND.
Qed.

(** ** Runs *)

Section Runs.
  Variable max : nat.
  Notation step := (step max).
  Notation run := (run max).

  Lemma run_app : forall es es' s, run (es ++ es') s
    = match run es s with Some (s1, l1) => match run es' s1 with Some (s2, l2) => Some (s2, l1 ++ l2) | None => None end | None => None end.
  Proof.
    induction es as [|e es IH]; intros es' s; cbn [app Model.run].
    - destruct (run es' s) as [[s2 l2]|]; reflexivity.
    - destruct (step s e) as [[s1 l1]|]; [|reflexivity]. rewrite IH. destruct (run es s1) as [[s2 l2]|]; [|reflexivity].
      destruct (run es' s2) as [[s3 l3]|]; [rewrite app_assoc; reflexivity|reflexivity].
  Qed.

  Lemma run_ind : forall P : list entry -> state -> Prop, P [] start ->
    (forall log s e s' l, P log s -> step s e = Some (s', l) -> P (log ++ l) s') ->
    forall es s log, run es start = Some (s, log) -> P log s.
  Proof.
    intros P P0 PS es. induction es as [|e es IH] using rev_ind; intros s log E.
    - injection E as <- <-. exact P0.
    - rewrite run_app in E. destruct (run es start) as [[s1 l1]|] eqn:E1; [|discriminate]. cbn [Model.run] in E.
      destruct (step s1 e) as [[s2 l2]|] eqn:E2; [|discriminate]. injection E as <- <-. rewrite app_nil_r. eapply PS; eauto.
  Qed.

  (** What a step does: an instance is taken, a session calls, or it goes on without a call. *)
  Inductive did (s : state) : state -> list entry -> Prop :=
  | d_take k dead i rest : take (instances s) (idle s) = (dead, Some i, rest) -> length (held (sessions s)) < max ->
      did s {| instances := instances s; idle := rest; sessions := sessions s ++ [{| s_phase := begins k; s_inst := i |}] |}
        (map Destroyed dead ++ [Handed (length (sessions s)) i k])
  | d_new k dead rest : take (instances s) (idle s) = (dead, None, rest) -> length (held (sessions s)) < max ->
      did s {| instances := instances s ++ [fresh]; idle := rest; sessions := sessions s ++ [{| s_phase := begins k; s_inst := length (instances s) |}] |}
        (map Destroyed dead ++ [Created (length (instances s)); Handed (length (sessions s)) (length (instances s)) k])
  | d_fails dead rest : take (instances s) (idle s) = (dead, None, rest) ->
      did s {| instances := instances s; idle := rest; sessions := sessions s |} (map Destroyed dead)
  | d_call h o p i x : nth_error (sessions s) h = Some {| s_phase := p; s_inst := i |} -> p <> POver -> nth_error (instances s) i = Some x ->
      did s {| instances := update i (finish p o (wasmsafe (prepare p x) o)) (instances s); idle := fst (release h i (continue p o) s);
               sessions := update h {| s_phase := continue p o; s_inst := i |} (sessions s) |}
        (Called h i (call_of p) o :: snd (release h i (continue p o) s))
  | d_move h p p' i : nth_error (sessions s) h = Some {| s_phase := p; s_inst := i |} -> p <> POver ->
      p' = POver /\ p <> PDrop \/ p = PStream /\ p' = PDrop ->
      did s {| instances := instances s; idle := fst (release h i p' s); sessions := update h {| s_phase := p'; s_inst := i |} (sessions s) |}
        (snd (release h i p' s)).

  Lemma step_did : forall s e s' l, step s e = Some (s', l) -> did s s' l.
  Proof.
    intros s e s' l E. destruct e as [k| |h o|h|h]; cbn [Model.step] in E.
    - destruct (Nat.ltb_spec (length (held (sessions s))) max) as [L|]; [|discriminate].
      destruct (take (instances s) (idle s)) as [[dead o] rest] eqn:T. destruct o as [i|]; injection E as <- <-; constructor; auto.
    - destruct (Nat.ltb (length (held (sessions s))) max); [|discriminate].
      destruct (take (instances s) (idle s)) as [[dead o] rest] eqn:T. destruct o as [i|]; [discriminate|]. injection E as <- <-. constructor. exact T.
    - destruct (nth_error (sessions s) h) as [[p i]|] eqn:N0; [|discriminate]. destruct (nth_error (instances s) i) as [x|] eqn:N1; [|destruct p; discriminate].
      assert (NP : p <> POver) by (intros ->; discriminate).
      assert (E' : (let '(idle, l) := release h i (continue p o) s in
          Some ({| instances := update i (finish p o (wasmsafe (prepare p x) o)) (instances s); idle := idle; sessions := update h {| s_phase := continue p o; s_inst := i |} (sessions s) |},
                Called h i (call_of p) o :: l)) = Some (s', l)) by (destruct p; solve [exact E|elim NP; reflexivity]).
      clear E. destruct (release h i (continue p o) s) as [ids l'] eqn:R. injection E' as <- <-.
      pose proof (d_call s h o p i x N0 NP N1) as D. rewrite R in D. exact D.
    - destruct (nth_error (sessions s) h) as [[p i]|] eqn:N0; [|discriminate].
      assert (NP : p <> POver /\ p <> PDrop) by (split; intros ->; discriminate).
      assert (E' : Some ({| instances := instances s; idle := idle s ++ [i]; sessions := update h {| s_phase := POver; s_inst := i |} (sessions s) |}, [Released h i]) = Some (s', l))
        by (destruct p; solve [exact E|destruct NP; congruence]).
      injection E' as <- <-. exact (d_move s h p POver i N0 (proj1 NP) (or_introl (conj eq_refl (proj2 NP)))).
    - destruct (nth_error (sessions s) h) as [[p i]|] eqn:N0; [|discriminate]. destruct p; try discriminate. injection E as <- <-.
      exact (d_move s h PStream PDrop i N0 ltac:(discriminate) (or_intror (conj eq_refl eq_refl))).
  Qed.

  Record base (log : list entry) (s : state) : Prop := {
    b_nodup : NoDup (idle s ++ held (sessions s));
    b_lt : forall i, In i (idle s ++ held (sessions s)) -> i < length (instances s);
    b_sess : forall h x, nth_error (sessions s) h = Some x -> s_inst x < length (instances s);
    b_phase : forall h p i y, nth_error (sessions s) h = Some {| s_phase := p; s_inst := i |} -> p = PStream \/ p = PDrop \/ p = PResolve \/ p = POldStream ->
       nth_error (instances s) i = Some y -> recyclable y = false;
    b_open : forall i y, nth_error (instances s) i = Some y -> subscribed i log = true -> recyclable y = false \/ failed i log;
    b_keep : forall i y, nth_error (instances s) i = Some y -> recycle y = false ->
       exists h c o, In (Called h i c o) log /\ (o = Trapped \/ o = Cancelled \/ c = CCreate \/ c = CKey);
    b_log : forall h i c o, In (Called h i c o) log -> i < length (instances s);
    b_live : created log = destroyed log + (length (idle s) + length (held (sessions s)));
    b_max : length (idle s) + length (held (sessions s)) <= max
  }.

  Lemma subscribed_app : forall i l l' b, subscribed_from b i (l ++ l') = subscribed_from (subscribed_from b i l) i l'.
  Proof. intros i. induction l as [|e l IH]; intros l' b; [reflexivity|]. destruct e; cbn [app subscribed_from]; apply IH. Qed.
  Lemma created_app : forall l l', created (l ++ l') = created l + created l'.
  Proof. induction l as [|e l IH]; intros l'; [reflexivity|]. destruct e; cbn [app created]; rewrite IH; reflexivity. Qed.
  Lemma destroyed_app : forall l l', destroyed (l ++ l') = destroyed l + destroyed l'.
  Proof. induction l as [|e l IH]; intros l'; [reflexivity|]. destruct e; cbn [app destroyed]; rewrite IH; reflexivity. Qed.
  Lemma destroyed_map : forall dead, destroyed (map Destroyed dead) = length dead /\ created (map Destroyed dead) = 0.
  Proof. induction dead as [|i dead [IH1 IH2]]; cbn; auto. Qed.
  Lemma failed_app : forall i l l', failed i l -> failed i (l ++ l').
  Proof. intros i l l' [h [c [o [Q1 Q2]]]]. exists h, c, o. split; [apply in_or_app; auto|exact Q2]. Qed.

  Definition quiet (l : list entry) : Prop := forall h i c o, ~ In (Called h i c o) l.
  Lemma quiet_subscribed : forall i l b, quiet l -> subscribed_from b i l = b.
  Proof.
    intros i. induction l as [|e l IH]; intros b Q; [reflexivity|]. destruct e as [| | |h j c o|]; cbn [subscribed_from];
      try (apply IH; intros h' i' c' o' R; apply (Q h' i' c' o'); right; exact R).
    elim (Q h j c o). left. reflexivity.
  Qed.
  Lemma quiet_dead : forall dead l, quiet l -> quiet (map Destroyed dead ++ l).
  Proof. intros dead l Q h i c o R. apply in_app_or in R. destruct R as [R|R]; [|eapply Q; eauto]. apply in_map_iff in R. destruct R as [x [R _]]. discriminate. Qed.

  Lemma active_spec : forall p i, p <> POver -> active {| s_phase := p; s_inst := i |} = true.
  Proof. intros p i N0. destruct p; try reflexivity. elim N0. reflexivity. Qed.

  Lemma begins_phase : forall k, begins k <> POver /\ begins k <> PStream /\ begins k <> PDrop /\ begins k <> PResolve /\ begins k <> POldStream.
  Proof. intros []; repeat split; discriminate. Qed.

  (** Sessions that go on, with or without giving the instance back. *)
  Lemma session_moves : forall s h p p' i, nth_error (sessions s) h = Some {| s_phase := p; s_inst := i |} -> p <> POver ->
    Permutation (idle s ++ held (sessions s)) (fst (release h i p' s) ++ held (update h {| s_phase := p'; s_inst := i |} (sessions s))).
  Proof.
    intros s h p p' i N0 NP. destruct p'; cbn [release fst];
      try (erewrite held_same; [reflexivity|exact N0|apply active_spec; exact NP|reflexivity|reflexivity]).
    rewrite <- app_assoc. apply Permutation_app_head. apply (held_over _ _ _ {| s_phase := POver; s_inst := i |} N0 (active_spec p i NP) eq_refl).
  Qed.

  Lemma base_step : forall log s e s' l, base log s -> step s e = Some (s', l) -> base (log ++ l) s'.
  Proof.
    intros log s e s' l B E. apply step_did in E. destruct B as [B1 B2 B3 B4 B5 B6 B7 B8 B9].
    destruct E as [k dead i rest T L|k dead rest T L|dead rest T|h o p i x N0 NP N1|h p p' i N0 NP HP].
    - destruct (take_spec _ _ _ _ _ T) as [H1 [_ [H3 H4]]]. destruct (H3 i eq_refl) as [x [Nx Rx]]. cbn [opt] in H1.
      assert (PM : Permutation (idle s ++ held (sessions s)) (dead ++ rest ++ held (sessions s) ++ [i])).
      { rewrite H1, <- !app_assoc. apply Permutation_app_head. cbn [app]. rewrite (Permutation_middle rest). apply Permutation_app_head. apply Permutation_cons_append. }
      assert (Q : quiet (map Destroyed dead ++ [Handed (length (sessions s)) i k])).
      { apply quiet_dead. intros h' i' c' o' [R|[]]. discriminate. }
      assert (HS : held (sessions s ++ [{| s_phase := begins k; s_inst := i |}]) = held (sessions s) ++ [i]).
      { rewrite held_snoc, active_spec by apply begins_phase. reflexivity. }
      assert (LN : length (idle s) = length dead + 1 + length rest) by (rewrite H1, !app_length; cbn; lia).
      constructor; cbn [instances idle sessions]; rewrite ?HS.
      + rewrite PM in B1. clear - B1. induction dead; [exact B1|]. apply IHdead. cbn in B1. apply NoDup_cons_iff in B1. apply B1.
      + intros j Hj. apply B2. rewrite PM. apply in_or_app. right. exact Hj.
      + intros h x0 N0. apply nth_snoc_inv in N0. destruct N0 as [N0|[_ ->]]; [eauto|]. cbn. eapply nth_lt. exact Nx.
      + intros h p j y N0 HP Ny. apply nth_snoc_inv in N0. destruct N0 as [N0|[_ N0]]; [eauto|]. injection N0 as -> ->.
        pose proof (begins_phase k). destruct HP as [HP|[HP|[HP|HP]]]; tauto.
      + intros j y Ny S0. unfold subscribed in S0. rewrite subscribed_app, quiet_subscribed in S0 by exact Q. destruct (B5 j y Ny S0); [auto|right; apply failed_app; assumption].
      + intros j y Ny R0. destruct (B6 j y Ny R0) as [h [c [o [R1 R2]]]]. exists h, c, o. split; [apply in_or_app; auto|exact R2].
      + intros h j c o R. apply in_app_or in R. destruct R as [R|R]; [eauto|elim (Q _ _ _ _ R)].
      + rewrite !created_app, !destroyed_app, app_length. destruct (destroyed_map dead) as [-> ->]. cbn. lia.
      + rewrite app_length. cbn. lia.
    - destruct (take_spec _ _ _ _ _ T) as [H1 [H2 [_ H4]]]. cbn [opt] in H1. specialize (H2 eq_refl). subst rest. cbn [app] in H1. rewrite app_nil_r in H1.
      set (n := length (instances s)) in *.
      assert (Q : quiet (map Destroyed dead ++ [Created n; Handed (length (sessions s)) n k])).
      { apply quiet_dead. intros h' i' c' o' [R|[R|[]]]; discriminate. }
      assert (HS : held (sessions s ++ [{| s_phase := begins k; s_inst := n |}]) = held (sessions s) ++ [n]).
      { rewrite held_snoc, active_spec by apply begins_phase. reflexivity. }
      constructor; cbn [instances idle sessions app]; rewrite ?HS; try rewrite app_length; cbn [length].
      + apply (Permutation_NoDup (Permutation_cons_append (held (sessions s)) n)). apply NoDup_cons_iff. split.
        * intros R. specialize (B2 n). assert (n < n) by (apply B2, in_or_app; auto). lia.
        * clear - B1. induction (idle s); [exact B1|]. apply IHl. cbn in B1. apply NoDup_cons_iff in B1. apply B1.
      + intros j Hj. apply in_app_or in Hj. destruct Hj as [Hj|[<-|[]]]; [|lia]. assert (j < n) by (apply B2, in_or_app; auto). lia.
      + intros h x0 N0. apply nth_snoc_inv in N0. destruct N0 as [N0|[_ ->]]; [|cbn; lia]. specialize (B3 h x0 N0). fold n in B3. lia.
      + intros h p j y N0 HP Ny. apply nth_snoc_inv in N0. destruct N0 as [N0|[_ N0]].
        * specialize (B3 h _ N0). cbn in B3. apply nth_snoc_inv in Ny. destruct Ny as [Ny|[-> _]]; [eauto|fold n in B3; lia].
        * injection N0 as -> ->. pose proof (begins_phase k). destruct HP as [HP|[HP|[HP|HP]]]; tauto.
      + intros j y Ny S0. unfold subscribed in S0. rewrite subscribed_app, quiet_subscribed in S0 by exact Q. apply nth_snoc_inv in Ny. destruct Ny as [Ny|[-> _]].
        * destruct (B5 j y Ny S0); [auto|right; apply failed_app; assumption].
        * exfalso. assert (Z : forall l b, (forall h c o, ~ In (Called h n c o) l) -> subscribed_from b n l = b).
          { clear. induction l as [|e l IH]; intros b H; [reflexivity|]. destruct e as [| | |h j c o|]; cbn [subscribed_from];
            try (apply IH; intros h' c' o' R; apply (H h' c' o'); right; exact R).
            destruct (Nat.eqb_spec n j) as [<-|NE]; [elim (H h c o); left; reflexivity|]. apply IH. intros h' c' o' R; apply (H h' c' o'); right; exact R. }
          fold n in S0. rewrite Z in S0; [discriminate|]. intros h c o R. specialize (B7 _ _ _ _ R). fold n in B7. lia.
      + intros j y Ny R0. apply nth_snoc_inv in Ny. destruct Ny as [Ny|[_ ->]]; [|discriminate].
        destruct (B6 j y Ny R0) as [h [c [o [R1 R2]]]]. exists h, c, o. split; [apply in_or_app; auto|exact R2].
      + intros h j c o R. apply in_app_or in R. destruct R as [R|R]; [|elim (Q _ _ _ _ R)]. specialize (B7 _ _ _ _ R). fold n in B7. lia.
      + rewrite !created_app, !destroyed_app, B8, H1. destruct (destroyed_map dead) as [-> ->]. cbn. lia.
      + cbn. lia.
    - destruct (take_spec _ _ _ _ _ T) as [H1 [H2 [_ H4]]]. cbn [opt] in H1. specialize (H2 eq_refl). subst rest. cbn [app] in H1. rewrite app_nil_r in H1.
      assert (Q : quiet (map Destroyed dead)).
      { rewrite <- (app_nil_r (map _ _)). apply quiet_dead. intros h' i' c' o' []. }
      constructor; cbn [instances idle sessions app]; auto.
      + clear - B1. induction (idle s); [exact B1|]. apply IHl. cbn in B1. apply NoDup_cons_iff in B1. apply B1.
      + intros j Hj. apply B2, in_or_app. auto.
      + intros j y Ny S0. unfold subscribed in S0. rewrite subscribed_app, quiet_subscribed in S0 by exact Q. destruct (B5 j y Ny S0); [auto|right; apply failed_app; assumption].
      + intros j y Ny R0. destruct (B6 j y Ny R0) as [h [c [o [R1 R2]]]]. exists h, c, o. split; [apply in_or_app; auto|exact R2].
      + intros h j c o R. apply in_app_or in R. destruct R as [R|R]; [eauto|elim (Q _ _ _ _ R)].
      + rewrite !created_app, !destroyed_app, B8, H1. destruct (destroyed_map dead) as [-> ->]. cbn. lia.
      + cbn. lia.
    - set (p' := continue p o) in *. set (x' := finish p o (wasmsafe (prepare p x) o)) in *.
      pose proof (session_moves s h p p' i N0 NP) as PM. pose proof (Permutation_length PM) as PL. rewrite !app_length in PL.
      assert (SQ : quiet (snd (release h i p' s))) by (intros h' i' c' o' R; unfold release in R; destruct p'; cbn in R; try (destruct R; fail); destruct R as [R|[]]; discriminate).
      assert (ND : NoDup (held (sessions s))).
      { clear - B1. induction (idle s); [exact B1|]. apply IHl. cbn in B1. apply NoDup_cons_iff in B1. apply B1. }
      assert (RX : p' = PStream \/ p' = PDrop \/ p' = PResolve \/ p' = POldStream -> recyclable x' = false).
      { intros HP. unfold x', p' in *. pose proof (fun Z => B4 h p i x N0 Z N1) as R0. destruct p; destruct o as [[]| |]; cbn in *; auto;
          try (destruct HP as [HP|[HP|[HP|HP]]]; discriminate). }
      constructor; cbn [instances idle sessions]; rewrite ?update_length.
      + eapply Permutation_NoDup; eauto.
      + intros j Hj. apply B2. rewrite PM. exact Hj.
      + intros h' y Ny. apply nth_update_inv in Ny. destruct Ny as [[-> ->]|[_ Ny]]; [exact (B3 _ _ N0)|eauto].
      + intros h' q j y Nh HQ Ny. apply nth_update_inv in Ny. apply nth_update_inv in Nh.
        destruct Ny as [[-> ->]|[NE Ny]].
        * destruct Nh as [[-> Nh]|[NE Nh]]; [injection Nh as ->; apply RX; exact HQ|].
          exfalso. apply NE. assert (NQ : q <> POver) by (destruct HQ as [->|[->|[->| ->]]]; discriminate).
          eapply held_inj; [exact ND|exact Nh|exact N0|apply active_spec; exact NQ|apply active_spec; exact NP|reflexivity].
        * destruct Nh as [[-> Nh]|[_ Nh]]; [injection Nh as -> ->; elim NE; reflexivity|eauto].
      + intros j y Ny S0. unfold subscribed in S0. rewrite subscribed_app in S0. cbn [subscribed_from] in S0. rewrite quiet_subscribed in S0 by exact SQ.
        apply nth_update_inv in Ny. destruct Ny as [[-> ->]|[NE Ny]].
        * rewrite Nat.eqb_refl in S0.
          assert (FL : o = Trapped \/ o = Cancelled -> failed i (log ++ Called h i (call_of p) o :: snd (release h i p' s))).
          { intros Z. exists h, (call_of p), o. split; [apply in_or_app; right; left; reflexivity|exact Z]. }
          assert (OLD : subscribed i log = true -> recyclable x' = recyclable x \/ recyclable x' = false -> recyclable x' = false \/ failed i (log ++ Called h i (call_of p) o :: snd (release h i p' s))).
          { intros Z [Z'|Z']; [|auto]. destruct (B5 i x N1 Z) as [F|F]; [left; congruence|right; apply failed_app; exact F]. }
          pose proof (fun Z => B4 h p i x N0 Z N1) as R0. unfold x' in *.
          destruct p; cbn [call_of] in *; try (left; destruct o as [[]| |]; cbn; tauto); try (apply OLD; [exact S0|destruct o as [[]| |]; cbn; auto]; fail).
          destruct o as [b| |]; [discriminate|right; apply FL; auto|right; apply FL; auto].
        * destruct (Nat.eqb_spec j i) as [->|_]; [elim NE; reflexivity|]. destruct (B5 j y Ny S0); [auto|right; apply failed_app; assumption].
      + intros j y Ny R0. apply nth_update_inv in Ny. destruct Ny as [[-> ->]|[NE Ny]].
        * assert (Z : (o = Trapped \/ o = Cancelled \/ call_of p = CCreate \/ call_of p = CKey) \/ recycle x = false).
          { unfold x' in R0. destruct x as [po re]. unfold recycle in *. destruct o as [[]| |]; [| |left; auto|left; auto];
              destruct p; cbn in R0 |- *; auto; try (right; rewrite R0; apply negb_false_iff, orb_true_r); try discriminate; destruct re; auto; try discriminate; right; apply negb_false_iff, orb_true_r. }
          destruct Z as [Z|Z].
          -- exists h, (call_of p), o. split; [apply in_or_app; right; left; reflexivity|exact Z].
          -- destruct (B6 i x N1 Z) as [h' [c' [o' [R1 R2]]]]. exists h', c', o'. split; [apply in_or_app; auto|exact R2].
        * destruct (B6 j y Ny R0) as [h' [c' [o' [R1 R2]]]]. exists h', c', o'. split; [apply in_or_app; auto|exact R2].
      + intros h' j c' o' R. apply in_app_or in R. destruct R as [R|[R|R]]; [eauto| |elim (SQ _ _ _ _ R)]. injection R as <- <- <- <-. exact (B3 _ _ N0).
      + rewrite created_app, destroyed_app. cbn [created destroyed]. assert (Z : created (snd (release h i p' s)) = 0 /\ destroyed (snd (release h i p' s)) = 0) by (unfold release; destruct p'; auto).
        destruct Z as [-> ->]. lia.
      + lia.
    - pose proof (session_moves s h p p' i N0 NP) as PM. pose proof (Permutation_length PM) as PL. rewrite !app_length in PL.
      assert (SQ : quiet (snd (release h i p' s))) by (intros h' i' c' o' R; unfold release in R; destruct p'; cbn in R; try (destruct R; fail); destruct R as [R|[]]; discriminate).
      constructor; cbn [instances idle sessions].
      + eapply Permutation_NoDup; eauto.
      + intros j Hj. apply B2. rewrite PM. exact Hj.
      + intros h' y Ny. apply nth_update_inv in Ny. destruct Ny as [[-> ->]|[_ Ny]]; [exact (B3 _ _ N0)|eauto].
      + intros h' q j y Nh HQ Ny. apply nth_update_inv in Nh. destruct Nh as [[-> Nh]|[_ Nh]]; [|eauto]. injection Nh as -> ->.
        destruct HP as [[-> _]|[-> ->]]; [destruct HQ as [HQ|[HQ|[HQ|HQ]]]; discriminate|]. eapply B4; eauto.
      + intros j y Ny S0. unfold subscribed in S0. rewrite subscribed_app, quiet_subscribed in S0 by exact SQ. destruct (B5 j y Ny S0); [auto|right; apply failed_app; assumption].
      + intros j y Ny R0. destruct (B6 j y Ny R0) as [h' [c [o [R1 R2]]]]. exists h', c, o. split; [apply in_or_app; auto|exact R2].
      + intros h' j c o R. apply in_app_or in R. destruct R as [R|R]; [eauto|elim (SQ _ _ _ _ R)].
      + rewrite created_app, destroyed_app. assert (Z : created (snd (release h i p' s)) = 0 /\ destroyed (snd (release h i p' s)) = 0) by (unfold release; destruct p'; auto).
        destruct Z as [-> ->]. lia.
      + lia.
  Qed.

  Lemma base_start : base [] start.
  Proof.
    constructor; cbn.
    - constructor.
    - intros i [].
    - intros [|]; discriminate.
    - intros [|]; discriminate.
    - intros [|]; discriminate.
    - intros [|]; discriminate.
    - intros h i c o [].
    - reflexivity.
    - lia.
  Qed.
End Runs.
