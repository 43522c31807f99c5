(** What holds of every run. *)
From Coq Require Import List Bool PeanoNat Lia.
From Verif.Reload Require Import Model Spec.
Import ListNotations.

Section Invariant.
  Variable G C : Type.
  Variable c0 : C.
  Variable cap : nat.
  Variable prompt : bool.

  Notation state := (state G C).
  Notation entry := (entry G C).
  Notation event := (event G C).
  Notation step := (step G C cap prompt).
  Notation run := (run G C cap prompt).
  Notation start := (start G C c0).
  Notation latest_graph := (latest_graph G C).
  Notation latest_conf := (latest_conf G C c0).
  Notation task := (task G C).
  Arguments file {G C}. Arguments clock {G C}. Arguments poll {G C}. Arguments conf {G C}. Arguments version {G C}. Arguments seen {G C}. Arguments pass {G C}.
  Arguments queue {G C}. Arguments reload {G C}. Arguments tasks {G C}. Arguments served {G C}.
  Arguments t_graph {G C}. Arguments t_conf {G C}. Arguments t_stage {G C}. Arguments t_aborted {G C}.
  Arguments Told {G C}. Arguments Serves {G C}. Arguments Fails {G C}. Arguments Graph {G C}. Arguments Conf {G C}.
  Arguments RWait {G C}. Arguments RInit {G C}. Arguments RLoop {G C}. Arguments RFailed {G C}.
  Arguments put {G C}. Arguments at_stage {G C}. Arguments abort {G C}. Arguments stopped {G C}.

  Lemma run_app : forall es es' s, run (es ++ es') s
    = match run es s with Some (s1, l1) => match run es' s1 with Some (s2, l2) => Some (s2, l1 ++ l2) | None => None end | None => None end.
  Proof.
    induction es as [|e es IH]; intros es' s; cbn [app Model.run].
    - destruct (run es' s) as [[s2 l2]|]; reflexivity.
    - destruct (step s e) as [[s1 l1]|]; [|reflexivity]. rewrite IH. destruct (run es s1) as [[s2 l2]|]; [|reflexivity].
      destruct (run es' s2) as [[s3 l3]|]; [rewrite app_assoc; reflexivity|reflexivity].
  Qed.

  Lemma run_ind : forall P : list event -> list entry -> state -> Prop, P [] [] start ->
    (forall es log s e s' l, P es log s -> step s e = Some (s', l) -> P (es ++ [e]) (log ++ l) s') ->
    forall es s log, run es start = Some (s, log) -> P es log s.
  Proof.
    intros P P0 PS es. induction es as [|e es IH] using rev_ind; intros s log E.
    - injection E as <- <-. exact P0.
    - rewrite run_app in E. destruct (run es start) as [[s1 l1]|] eqn:E1; [|discriminate]. cbn [Model.run] in E.
      destruct (step s1 e) as [[s2 l2]|] eqn:E2; [|discriminate]. injection E as <- <-. rewrite app_nil_r. eapply PS; eauto.
  Qed.

  Lemma graph_snoc : forall l e, latest_graph (l ++ [e]) = match e with Told (Graph g) => Some g | _ => latest_graph l end.
  Proof. intros l e. unfold Spec.latest_graph. rewrite fold_left_app. reflexivity. Qed.
  Lemma conf_snoc : forall l e, latest_conf (l ++ [e]) = match e with Told (Conf c) => c | _ => latest_conf l end.
  Proof. intros l e. unfold Spec.latest_conf. rewrite fold_left_app. reflexivity. Qed.

  (** ** Tasks *)

  Lemma put_in : forall (ts : list task) i x t, In t (put i x ts) -> t = x \/ In t ts.
  Proof.
    induction ts as [|y ts IH]; intros [|i] x t H; cbn [put] in H.
    - destruct H.
    - destruct H.
    - destruct H as [<-|H]; cbn; auto.
    - destruct H as [<-|H]; [cbn; auto|]. destruct (IH _ _ _ H); cbn; auto.
  Qed.

  Lemma put_keeps : forall (ts : list task) i x y t, nth_error ts i = Some y -> In t ts -> t = y \/ In t (put i x ts).
  Proof.
    induction ts as [|z ts IH]; intros [|i] x y t E H; cbn [nth_error put] in *; try discriminate.
    - injection E as ->. destruct H as [H|H]; [auto|right; right; exact H].
    - destruct H as [H|H]; [right; left; exact H|]. destruct (IH _ x _ _ E H); [auto|right; right; assumption].
  Qed.

  Lemma put_new : forall (ts : list task) i x y, nth_error ts i = Some y -> In x (put i x ts).
  Proof. induction ts as [|z ts IH]; intros [|i] x y E; cbn [nth_error put] in *; try discriminate; [left; reflexivity|right; eauto]. Qed.

  Definition live (t : task) : Prop := t_stage t <> Over /\ t_aborted t = false.

  Record inv (log : list entry) (s : state) : Prop := {
    i_rel : match reload s with
            | RWait c => latest_graph log = None /\ latest_conf log = c
            | RInit g c | RLoop g c => latest_graph log = Some g /\ latest_conf log = c
            | RFailed => In Fails log
            end;
    i_none : match reload s with RLoop _ _ => True | _ => tasks s = [] end;
    i_old : forall t, In t (tasks s) -> t_stage t <> Over ->
            exists l0 l1, log = l0 ++ l1 /\ latest_graph l0 = Some (t_graph t) /\ latest_conf l0 = t_conf t;
    i_live : forall t, In t (tasks s) -> live t -> reload s = RLoop (t_graph t) (t_conf t);
    i_served : prompt = true -> ~ In Fails log -> forall g c, reload s = RLoop g c ->
            served s = Some (g, c) \/ exists t, In t (tasks s) /\ live t;
    i_log : forall l1 g c l2, log = l1 ++ Serves g c :: l2 ->
            exists l0 l0', l1 = l0 ++ l0' /\ latest_graph l0 = Some g /\ latest_conf l0 = c /\ (prompt = true -> latest_graph l1 = Some g /\ latest_conf l1 = c)
  }.

  Lemma inv_start : inv [] start.
  Proof.
    constructor; cbn.
    - split; reflexivity.
    - reflexivity.
    - intros t [].
    - intros t [].
    - discriminate.
    - intros [|] g c l2; discriminate.
  Qed.

  Lemma snoc_split {B} : forall (a l1 l2 : list B) x y, a ++ [y] = l1 ++ x :: l2 -> (exists m, a = l1 ++ x :: m) \/ (l1 = a /\ x = y).
  Proof.
    induction a as [|z a IH]; intros l1 l2 x y E.
    - destruct l1 as [|w l1]; cbn in E; [injection E as <- _; auto|]. injection E as _ E. destruct l1; discriminate.
    - destruct l1 as [|w l1]; cbn in E.
      + injection E as <- _. left. exists a. reflexivity.
      + injection E as <- E. destruct (IH _ _ _ _ E) as [[m ->]|[-> ->]]; [left; exists m; reflexivity|auto].
  Qed.

  (** A step that touches none of the reloader. *)
  Lemma inv_frame : forall log s s', inv log s -> reload s' = reload s -> tasks s' = tasks s -> served s' = served s -> inv log s'.
  Proof. intros log s s' [I1 I2 I3 I4 I5 I6] E1 E2 E3. constructor; rewrite ?E1, ?E2, ?E3; auto. Qed.

  Lemma old_snoc : forall (log : list entry) e t, (exists l0 l1, log = l0 ++ l1 /\ latest_graph l0 = Some (t_graph t) /\ latest_conf l0 = t_conf t) ->
    exists l0 l1, log ++ [e] = l0 ++ l1 /\ latest_graph l0 = Some (t_graph t) /\ latest_conf l0 = t_conf t.
  Proof. intros log e t [l0 [l1 [-> H]]]. exists l0, (l1 ++ [e]). rewrite app_assoc. auto. Qed.

  Lemma abort_in : forall (ts : list task) t, In t (map abort ts) -> exists t0, In t0 ts /\ t_graph t = t_graph t0 /\ t_conf t = t_conf t0 /\ t_stage t = t_stage t0 /\ t_aborted t = true.
  Proof. intros ts t H. apply in_map_iff in H. destruct H as [t0 [<- H]]. exists t0. auto. Qed.

  Lemma inv_spawn : forall log s u g c, inv log s -> latest_graph (log ++ [Told u]) = Some g -> latest_conf (log ++ [Told u]) = c ->
    inv (log ++ [Told u]) (spawn G C g c s).
  Proof.
    intros log s u g c [I1 I2 I3 I4 I5 I6] HG HC. constructor; cbn [spawn set_reload set_tasks Model.reload Model.tasks Model.served].
    - auto.
    - exact Logic.I.
    - intros t H NO. apply in_app_or in H. destruct H as [H|[<-|[]]].
      + apply abort_in in H. destruct H as [t0 [H0 [-> [-> [HS _]]]]]. apply old_snoc. apply I3; congruence.
      + exists (log ++ [Told u]), []. rewrite app_nil_r. auto.
    - intros t H [_ NA]. apply in_app_or in H. destruct H as [H|[<-|[]]]; [|reflexivity]. apply abort_in in H. destruct H as [t0 [_ [_ [_ [_ H]]]]]. congruence.
    - intros _ _ g' c' Q. right. exists {| t_graph := g; t_conf := c; t_stage := Building; t_aborted := false |}.
      split; [apply in_or_app; right; left; reflexivity|]. split; [discriminate|reflexivity].
    - intros l1 g' c' l2 Q. destruct (snoc_split _ _ _ _ _ Q) as [[m Q1]|[_ Q1]]; [eauto|discriminate].
  Qed.

  Lemma inv_step : forall log s e s' l, inv log s -> step s e = Some (s', l) -> inv (log ++ l) s'.
  Proof.
    intros log s e s' l IV E.
    destruct e as [g| | | | |ok| |c| | | |ok|i ok|i|i]; cbn [Model.step] in E.
    - injection E as <- <-. rewrite app_nil_r. eapply inv_frame; eauto.
    - injection E as <- <-. rewrite app_nil_r. eapply inv_frame; eauto.
    - destruct (poll s); try discriminate. injection E as <- <-. rewrite app_nil_r. eapply inv_frame; eauto.
    - destruct (poll s); try discriminate. injection E as <- <-. rewrite app_nil_r. eapply inv_frame; eauto.
    - destruct (poll s); try discriminate. injection E as <- <-. rewrite app_nil_r. destruct (file s) as [[n z]|]; [destruct (same _ _)|]; try exact IV. eapply inv_frame; eauto.
    - destruct (poll s); try discriminate. injection E as <- <-. rewrite app_nil_r. eapply inv_frame; eauto.
    - unfold quiet, push in E. destruct (poll s); try discriminate; destruct (Nat.ltb _ _); try discriminate; injection E as <- <-; rewrite app_nil_r; eapply inv_frame; eauto.
    - injection E as <- <-. rewrite app_nil_r. eapply inv_frame; eauto.
    - destruct (Nat.ltb _ _); [|discriminate]. destruct (pass s); try discriminate; injection E as <- <-; rewrite app_nil_r; eapply inv_frame; eauto.
    - unfold quiet, push in E. destruct (pass s); try discriminate. destruct (Nat.ltb _ _); try discriminate. injection E as <- <-. rewrite app_nil_r. eapply inv_frame; eauto.
    - destruct (queue s) as [|u q] eqn:Q; [discriminate|]. unfold recv in E. cbn [set_queue Model.reload] in E.
      assert (IQ : inv log (set_queue G C q s)) by (eapply inv_frame; eauto). pose proof (i_rel _ _ IV) as R. pose proof (i_none _ _ IV) as N0.
      destruct (reload s) as [c|g c|g c|] eqn:RE; destruct u as [g'|c']; try discriminate; injection E as <- <-.
      + destruct IQ as [I1 I2 I3 I4 I5 I6]. constructor; cbn [set_reload set_queue Model.reload Model.tasks Model.served] in *; rewrite ?N0.
        * rewrite graph_snoc, conf_snoc. split; [reflexivity|apply R].
        * reflexivity.
        * intros t [].
        * intros t [].
        * discriminate.
        * intros l1 g0 c1 l2 Q1. destruct (snoc_split _ _ _ _ _ Q1) as [[m Q2]|[_ Q2]]; [eauto|discriminate].
      + destruct IQ as [I1 I2 I3 I4 I5 I6]. constructor; cbn [set_reload set_queue Model.reload Model.tasks Model.served] in *; rewrite ?N0.
        * rewrite graph_snoc, conf_snoc. split; [apply R|reflexivity].
        * reflexivity.
        * intros t [].
        * intros t [].
        * discriminate.
        * intros l1 g0 c1 l2 Q1. destruct (snoc_split _ _ _ _ _ Q1) as [[m Q2]|[_ Q2]]; [eauto|discriminate].
      + apply inv_spawn; [exact IQ|rewrite graph_snoc; reflexivity|rewrite conf_snoc; apply R].
      + apply inv_spawn; [exact IQ|rewrite graph_snoc; apply R|rewrite conf_snoc; reflexivity].
    - pose proof (i_rel _ _ IV) as R. pose proof (i_none _ _ IV) as N0. destruct (reload s) as [c|g c|g c|] eqn:RE; try discriminate. destruct ok; injection E as <- <-; destruct IV as [I1 I2 I3 I4 I5 I6].
      + constructor; cbn [set_served set_reload Model.reload Model.tasks Model.served]; rewrite ?N0.
        * rewrite graph_snoc, conf_snoc. exact R.
        * exact Logic.I.
        * intros t [].
        * intros t [].
        * intros _ _ g' c' Q. injection Q as <- <-. auto.
        * intros l1 g0 c1 l2 Q1. destruct (snoc_split _ _ _ _ _ Q1) as [[m Q2]|[-> Q2]]; [eauto|]. injection Q2 as -> ->. exists log, []. rewrite app_nil_r. destruct R. auto.
      + constructor; cbn [set_reload Model.reload Model.tasks Model.served]; rewrite ?N0.
        * apply in_or_app. right. left. reflexivity.
        * reflexivity.
        * intros t [].
        * intros t [].
        * discriminate.
        * intros l1 g0 c1 l2 Q1. destruct (snoc_split _ _ _ _ _ Q1) as [[m Q2]|[_ Q2]]; [eauto|discriminate].
    - destruct (nth_error (tasks s) i) as [t|] eqn:NT; [|discriminate]. destruct (t_stage t) eqn:ST; try discriminate. destruct (stopped prompt t) eqn:SP; [discriminate|].
      pose proof (nth_error_In _ _ NT) as IT. destruct IV as [I1 I2 I3 I4 I5 I6].
      destruct ok; injection E as <- <-.
      + rewrite app_nil_r. constructor; cbn [set_tasks Model.reload Model.tasks Model.served].
        * exact I1.
        * destruct (reload s); auto; rewrite I2 in IT; destruct IT.
        * intros t' H NO. apply put_in in H. destruct H as [->|H]; [|auto]. apply (I3 t IT). congruence.
        * intros t' H L. apply put_in in H. destruct H as [->|H]; [|auto]. apply (I4 t IT). split; [congruence|apply L].
        * intros P NF g c Q. destruct (I5 P NF g c Q) as [F|[t' [H L]]]; [auto|]. right. destruct (put_keeps _ _ (at_stage Ready t) _ _ NT H) as [->|H'].
          -- exists (at_stage Ready t). split; [eapply put_new; exact NT|]. split; [discriminate|apply L].
          -- exists t'. auto.
        * exact I6.
      + constructor; cbn [set_tasks Model.reload Model.tasks Model.served].
        * rewrite graph_snoc, conf_snoc. destruct (reload s); auto. apply in_or_app. auto.
        * destruct (reload s); auto; rewrite I2 in IT; destruct IT.
        * intros t' H NO. apply put_in in H. destruct H as [->|H]; [elim NO; reflexivity|]. apply old_snoc. auto.
        * intros t' H L. apply put_in in H. destruct H as [->|H]; [|auto]. destruct L as [L _]. elim L. reflexivity.
        * intros P NF. elim NF. apply in_or_app. right. left. reflexivity.
        * intros l1 g0 c1 l2 Q1. destruct (snoc_split _ _ _ _ _ Q1) as [[m Q2]|[_ Q2]]; [eauto|discriminate].
    - destruct (nth_error (tasks s) i) as [t|] eqn:NT; [|discriminate]. destruct (t_stage t) eqn:ST; try discriminate. destruct (stopped prompt t) eqn:SP; [discriminate|].
      pose proof (nth_error_In _ _ NT) as IT. destruct IV as [I1 I2 I3 I4 I5 I6]. injection E as <- <-.
      assert (PL : prompt = true -> live t).
      { intros ->. unfold stopped in SP. cbn in SP. split; [congruence|exact SP]. }
      constructor; cbn [set_served set_tasks Model.reload Model.tasks Model.served].
      * rewrite graph_snoc, conf_snoc. destruct (reload s); auto. apply in_or_app. auto.
      * destruct (reload s); auto; rewrite I2 in IT; destruct IT.
      * intros t' H NO. apply put_in in H. destruct H as [->|H]; [elim NO; reflexivity|]. apply old_snoc. auto.
      * intros t' H L. apply put_in in H. destruct H as [->|H]; [|auto]. destruct L as [L _]. elim L. reflexivity.
      * intros P NF g c Q. left. pose proof (I4 t IT (PL P)) as Z. congruence.
      * intros l1 g0 c1 l2 Q1. destruct (snoc_split _ _ _ _ _ Q1) as [[m Q2]|[-> Q2]]; [eauto|]. injection Q2 as -> ->.
        destruct (I3 t IT ltac:(congruence)) as [l0 [l0' [H1 [H2 H3]]]]. exists l0, l0'. split; [exact H1|]. split; [exact H2|]. split; [exact H3|].
        intros P. pose proof (I4 t IT (PL P)) as Z. rewrite Z in I1. exact I1.
    - destruct (nth_error (tasks s) i) as [t|] eqn:NT; [|discriminate]. pose proof (nth_error_In _ _ NT) as IT. destruct IV as [I1 I2 I3 I4 I5 I6].
      assert (E' : t_aborted t = true /\ s' = set_tasks G C (put i (at_stage Over t) (tasks s)) s /\ l = []).
      { destruct (t_stage t); [destruct (t_aborted t) eqn:AB; [|discriminate]|destruct (stopped prompt t) eqn:SP; [|discriminate]|discriminate]; injection E as <- <-; auto.
        unfold stopped in SP. apply andb_true_iff in SP. destruct SP. auto. }
      destruct E' as [AB [-> ->]]. rewrite app_nil_r. constructor; cbn [set_tasks Model.reload Model.tasks Model.served].
      * exact I1.
      * destruct (reload s); auto; rewrite I2 in IT; destruct IT.
      * intros t' H NO. apply put_in in H. destruct H as [->|H]; [elim NO; reflexivity|auto].
      * intros t' H L. apply put_in in H. destruct H as [->|H]; [|auto]. destruct L as [L _]. elim L. reflexivity.
      * intros P NF g c Q. destruct (I5 P NF g c Q) as [F|[t' [H L]]]; [auto|]. right. destruct (put_keeps _ _ (at_stage Over t) _ _ NT H) as [->|H'].
        -- destruct L. congruence.
        -- exists t'. auto.
      * exact I6.
  Qed.

  Lemma inv_run : forall es s log, run es start = Some (s, log) -> inv log s.
  Proof.
    apply (run_ind (fun _ log s => inv log s)); [apply inv_start|]. intros es log s e s' l. apply inv_step.
  Qed.
End Invariant.
