(** What holds after any interleaving. *)
From Coq Require Import List Bool PeanoNat Lia.
From Verif.WaitList Require Import Model Spec.
Import ListNotations.

Section Invariant.
  Variable V : Type.
  Variable cap : nat.

  Arguments Looking {V}. Arguments Missed {V}. Arguments Joining {V}. Arguments Waiting {V}. Arguments Cleaning {V}.
  Arguments Got {V}. Arguments Leads {V}. Arguments Empty {V}. Arguments Gone {V}.
  Arguments Storing {V}. Arguments Draining {V}. Arguments Closing {V}. Arguments Removing {V}. Arguments Done {V}.
  Arguments cached {V}. Arguments current {V}. Arguments lists {V}. Arguments callers {V}. Arguments writers {V}.
  Arguments Call {V}. Arguments Look {V}. Arguments Reserve {V}. Arguments Enqueue {V}. Arguments Fail {V}. Arguments Timeout {V}.
  Arguments Clean {V}. Arguments Cancel {V}. Arguments Insert {V}. Arguments Take {V}. Arguments Drain {V}. Arguments Close {V}.
  Arguments Remove {V}. Arguments Invalidate {V}. Arguments Expire {V}.
  Arguments set_caller {V}. Arguments set_writer {V}. Arguments set_list {V}. Arguments set_current {V}. Arguments set_cached {V}.
  Arguments add_writer {V}. Arguments forget {V}. Arguments give {V}.
  Arguments update {B}. Arguments count {V}. Arguments is_call {V}. Arguments renews {V}. Arguments called {V}. Arguments over {V}. Arguments leaders {V}.

  Notation event := (event V).
  Notation state := (state V).
  Notation caller := (caller V).
  Notation writer := (writer V).
  Notation step := (step V cap).
  Notation run := (run V cap).
  Notation start := (start V).

  Definition holds (x : writer) (l : nat) : Prop := match x with Draining _ l' | Closing l' => l' = l | _ => False end.
  Definition on (c : caller) (l : nat) : Prop := match c with Joining l' | Waiting l' | Cleaning l' => l' = l | _ => False end.

  Record wf (s : state) : Prop := {
    w_cur : forall l, current s = Some l -> exists x, nth_error (lists s) l = Some x /\ l_open x = true
              /\ forall n y, nth_error (writers s) n = Some y -> ~ holds y l;
    w_held : forall n y l, nth_error (writers s) n = Some y -> holds y l -> exists x, nth_error (lists s) l = Some x /\ l_open x = true;
    w_one : forall n n' y y' l, nth_error (writers s) n = Some y -> nth_error (writers s) n' = Some y' -> holds y l -> holds y' l -> n = n';
    w_open : forall l x, nth_error (lists s) l = Some x -> l_open x = true ->
              current s = Some l \/ exists n y, nth_error (writers s) n = Some y /\ holds y l;
    w_on : forall w c l, nth_error (callers s) w = Some c -> on c l -> l < length (lists s);
    w_wait : forall w l x, nth_error (callers s) w = Some (Waiting l) -> nth_error (lists s) l = Some x -> l_open x = true -> In w (l_queue x)
  }.

  Lemma update_length {B} : forall (l : list B) i x, length (update i x l) = length l.
  Proof. induction l; intros [|i] x; cbn; auto. Qed.

  Lemma nth_update_same {B} : forall (l : list B) i x y, nth_error l i = Some y -> nth_error (update i x l) i = Some x.
  Proof. induction l; intros [|i] x y E; cbn in *; try discriminate; [reflexivity|eauto]. Qed.

  Lemma nth_update_other {B} : forall (l : list B) i j x, i <> j -> nth_error (update i x l) j = nth_error l j.
  Proof. induction l; intros [|i] [|j] x E; cbn; auto; congruence. Qed.

  Lemma nth_update_inv {B} : forall (l : list B) i j x y, nth_error (update i x l) j = Some y ->
    j = i /\ y = x \/ j <> i /\ nth_error l j = Some y.
  Proof.
    intros l i j x y E. destruct (Nat.eq_dec i j) as [->|NI].
    - left. split; [reflexivity|]. destruct (nth_error l j) as [z|] eqn:Q.
      + rewrite (nth_update_same _ _ _ _ Q) in E. congruence.
      + apply nth_error_None in Q. assert (nth_error (update j x l) j = None) by (apply nth_error_None; rewrite update_length; exact Q). congruence.
    - right. rewrite nth_update_other in E by exact NI. split; [congruence|exact E].
  Qed.

  Lemma nth_snoc_inv {B} : forall (l : list B) j x y, nth_error (l ++ [x]) j = Some y ->
    nth_error l j = Some y \/ j = length l /\ y = x.
  Proof.
    intros l j x y E. destruct (Nat.lt_ge_cases j (length l)) as [L|L].
    - left. rewrite nth_error_app1 in E by exact L. exact E.
    - rewrite nth_error_app2 in E by exact L. right. destruct (j - length l) as [|[|]] eqn:D; cbn in E; try discriminate.
      split; [lia|congruence].
  Qed.

  Lemma nth_snoc_old {B} : forall (l : list B) j x y, nth_error l j = Some y -> nth_error (l ++ [x]) j = Some y.
  Proof. intros l j x y E. rewrite nth_error_app1; [exact E|]. apply nth_error_Some. congruence. Qed.

  (** ** Changes that keep it *)

  Lemma wf_caller : forall s w c, wf s -> (forall l, on c l -> l < length (lists s)) -> (forall l, c <> Waiting l) -> wf (set_caller w c s).
  Proof.
    intros s w c [x1 x2 x3 x4 x5 x6] HO HW. constructor; cbn [set_caller Model.current Model.lists Model.writers Model.callers]; auto.
    - intros w' c' l N0 O. apply nth_update_inv in N0. destruct N0 as [[-> ->]|[NI N0]]; eauto.
    - intros w' l x N0. apply nth_update_inv in N0. destruct N0 as [[-> Q]|[NI N0]]; [elim (HW l); congruence|]. eauto.
  Qed.

  Lemma wf_cached : forall s v, wf s -> wf (set_cached v s).
  Proof. intros s v [x1 x2 x3 x4 x5 x6]. constructor; auto. Qed.

  Lemma wf_call : forall s, wf s ->
    wf {| Model.cached := cached s; Model.current := current s; Model.lists := lists s; Model.callers := callers s ++ [Looking]; Model.writers := writers s |}.
  Proof.
    intros s [x1 x2 x3 x4 x5 x6]. constructor; cbn [Model.current Model.lists Model.writers Model.callers]; auto.
    - intros w c l N0 O. apply nth_snoc_inv in N0. destruct N0 as [N0|[-> ->]]; [eauto|destruct O].
    - intros w l x N0. apply nth_snoc_inv in N0. destruct N0 as [N0|[-> Q]]; [eauto|discriminate].
  Qed.

  Lemma wf_add_writer : forall s x, wf s -> (forall l, ~ holds x l) -> wf (add_writer x s).
  Proof.
    intros s x [x1 x2 x3 x4 x5 x6] HX. constructor; cbn [add_writer Model.current Model.lists Model.writers Model.callers]; auto.
    - intros l E. destruct (x1 l E) as [y [y1 [y2 y3]]]. exists y. split; [exact y1|]. split; [exact y2|].
      intros n z N0. apply nth_snoc_inv in N0. destruct N0 as [N0|[-> ->]]; [eauto|apply HX].
    - intros n y l N0 O. apply nth_snoc_inv in N0. destruct N0 as [N0|[-> ->]]; [eauto|elim (HX _ O)].
    - intros n n' y y' l N0 N1 O O'. apply nth_snoc_inv in N0. apply nth_snoc_inv in N1.
      destruct N0 as [N0|[-> ->]]; [|elim (HX _ O)]. destruct N1 as [N1|[-> ->]]; [|elim (HX _ O')]. eauto.
    - intros l y N0 O. destruct (x4 l y N0 O) as [Q|[n [z [Q1 Q2]]]]; [auto|right]. exists n, z. split; [apply nth_snoc_old; exact Q1|exact Q2].
  Qed.

  (** A writer that holds nothing anymore, or still the same. *)
  Lemma wf_writer : forall s n y y', wf s -> nth_error (writers s) n = Some y -> (forall l, holds y l <-> holds y' l) -> wf (set_writer n y' s).
  Proof.
    intros s n y y' [x1 x2 x3 x4 x5 x6] N0 HY. constructor; cbn [set_writer Model.current Model.lists Model.writers Model.callers]; auto.
    - intros l E. destruct (x1 l E) as [z [z1 [z2 z3]]]. exists z. split; [exact z1|]. split; [exact z2|].
      intros n' z' N1. apply nth_update_inv in N1. destruct N1 as [[-> ->]|[NI N1]]; [|eauto]. rewrite <- HY. eauto.
    - intros n' z l N1 O. apply nth_update_inv in N1. destruct N1 as [[-> ->]|[NI N1]]; [|eauto]. apply HY in O. eauto.
    - intros n1 n2 z z' l N1 N2 O O'. apply nth_update_inv in N1. apply nth_update_inv in N2.
      destruct N1 as [[-> ->]|[NI N1]], N2 as [[-> ->]|[NI' N2]]; auto.
      + apply HY in O. eauto.
      + apply HY in O'. eauto.
      + eauto.
    - intros l z N1 O. destruct (x4 l z N1 O) as [Q|[n' [z' [Q1 Q2]]]]; [auto|right].
      destruct (Nat.eq_dec n n') as [->|NI].
      + exists n', y'. split; [eapply nth_update_same; exact Q1|]. apply HY. congruence.
      + exists n', z'. split; [rewrite nth_update_other by exact NI; exact Q1|exact Q2].
  Qed.

  Lemma wf_forget : forall s, wf s -> wf (forget s).
  Proof.
    intros s H. unfold forget. destruct (current s) as [i|] eqn:C; [|exact H]. destruct H as [x1 x2 x3 x4 x5 x6].
    destruct (x1 i C) as [x [y1 [y2 y3]]].
    constructor; cbn [set_current set_list Model.current Model.lists Model.writers Model.callers]; auto.
    - discriminate.
    - intros n y l N0 O. destruct (x2 n y l N0 O) as [z [z1 z2]]. exists z. split; [|exact z2].
      rewrite nth_update_other; [exact z1|]. intros ->. exact (y3 n y N0 O).
    - intros l z N0 O. apply nth_update_inv in N0. destruct N0 as [[-> ->]|[NI N0]]; [discriminate|].
      destruct (x4 l z N0 O) as [Q|Q]; [congruence|auto].
    - intros w c l. rewrite update_length. eauto.
    - intros w l z N0 N1 O. apply nth_update_inv in N1. destruct N1 as [[-> ->]|[NI N1]]; [discriminate|]. eauto.
  Qed.

  Lemma forget_lists : forall s : state, length (lists (forget s)) = length (lists s).
  Proof. intros s. unfold forget. destruct (current s); [|reflexivity]. cbn. apply update_length. Qed.

  Lemma wf_new : forall s, wf s -> current s = None ->
    wf {| Model.cached := cached s; Model.current := Some (length (lists s)); Model.lists := lists s ++ [{| l_open := true; l_queue := [] |}];
          Model.callers := callers s; Model.writers := writers s |}.
  Proof.
    intros s [x1 x2 x3 x4 x5 x6] C. constructor; cbn [Model.current Model.lists Model.writers Model.callers]; auto.
    - intros l E. injection E as <-. eexists. split; [rewrite nth_error_app2 by lia; rewrite Nat.sub_diag; reflexivity|]. split; [reflexivity|].
      intros n y N0 O. destruct (x2 n y _ N0 O) as [z [z1 _]]. assert (length (lists s) < length (lists s)) by (apply nth_error_Some; congruence). lia.
    - intros n y l N0 O. destruct (x2 n y l N0 O) as [z [z1 z2]]. exists z. split; [apply nth_snoc_old; exact z1|exact z2].
    - intros l x N0 O. apply nth_snoc_inv in N0. destruct N0 as [N0|[-> ->]]; [|auto]. destruct (x4 l x N0 O) as [Q|Q]; [congruence|auto].
    - intros w c l N0 O. rewrite app_length. specialize (x5 w c l N0 O). lia.
    - intros w l x N0 N1 O. apply nth_snoc_inv in N1. destruct N1 as [N1|[-> ->]]; [eauto|].
      specialize (x5 w _ _ N0 eq_refl). lia.
  Qed.

  Theorem wf_step : forall s e s', wf s -> step s e = Some s' -> wf s'.
  Proof.
    intros s e s' H E. destruct e as [|w|w|w|w|w|w|w|v|n|n|n| |n|]; cbn [Model.step] in E;
      try (unfold on_caller in E; destruct (nth_error (callers s) w) as [c|] eqn:N0; [|discriminate]; destruct c as [| |i|i|i|v| | |]; try discriminate);
      try (unfold on_writer in E; destruct (nth_error (writers s) n) as [y|] eqn:N0; [|discriminate]; destruct y as [v|v i|i| |]; try discriminate).
    - injection E as <-. apply wf_call. exact H.
    - injection E as <-. apply wf_caller; [exact H| |]; destruct (cached s); cbn; try tauto; discriminate.
    - destruct (current s) as [l|] eqn:C; injection E as <-.
      + apply wf_caller; [exact H| |discriminate]. cbn. intros l' <-. destruct (w_cur _ H l C) as [x [y1 _]]. apply nth_error_Some. congruence.
      + apply wf_caller; [apply wf_new; assumption| |discriminate]. cbn. tauto.
    - unfold on_list in E. destruct (nth_error (lists s) i) as [x|] eqn:N1; [|discriminate].
      destruct (l_open x) eqn:O; cbn [andb] in E; [|discriminate]. destruct (Nat.ltb _ _); [|discriminate]. injection E as <-.
      destruct H as [x1 x2 x3 x4 x5 x6]. set (x' := {| l_open := true; l_queue := l_queue x ++ [w] |}).
      assert (Old : forall l z, nth_error (lists s) l = Some z -> l_open z = true -> exists z', nth_error (update i x' (lists s)) l = Some z' /\ l_open z' = true).
      { intros l z z1 z2. destruct (Nat.eq_dec i l) as [->|NI].
        - exists x'. split; [eapply nth_update_same; exact N1|reflexivity].
        - exists z. split; [rewrite nth_update_other by exact NI; exact z1|exact z2]. }
      constructor; cbn [set_caller set_list Model.current Model.lists Model.writers Model.callers]; auto.
      + intros l C. destruct (x1 l C) as [z [z1 [z2 z3]]]. destruct (Old l z z1 z2) as [z' [w1 w2]]. exists z'. auto.
      + intros n y l N2 Q. destruct (x2 n y l N2 Q) as [z [z1 z2]]. eauto.
      + intros l z N2 Q. apply nth_update_inv in N2. destruct N2 as [[-> ->]|[NI N2]]; eauto.
      + intros w' c l N2 Q. rewrite update_length. apply nth_update_inv in N2. destruct N2 as [[-> ->]|[NI N2]]; [|eauto].
        cbn in Q. subst l. apply nth_error_Some. congruence.
      + intros w' l z N2 N3 Q. apply nth_update_inv in N2. apply nth_update_inv in N3.
        destruct N2 as [[-> N2]|[NI N2]].
        * injection N2 as ->. destruct N3 as [[_ ->]|[NI _]]; [|congruence]. cbn. apply in_or_app. right. left. reflexivity.
        * destruct N3 as [[-> ->]|[NI' N3]]; [|eauto]. cbn. apply in_or_app. left. eauto.
    - unfold on_list in E. destruct (nth_error (lists s) i) as [x|] eqn:N1; [|discriminate]. destruct (l_open x); [discriminate|]. injection E as <-.
      apply wf_caller; [exact H| |discriminate]. cbn. intros l <-. apply (w_on _ H w _ i N0). reflexivity.
    - unfold on_list in E. destruct (nth_error (lists s) i) as [x|] eqn:N1; [|discriminate]. destruct (l_open x); [discriminate|]. injection E as <-.
      apply wf_caller; [exact H| |discriminate]. cbn. intros l <-. apply (w_on _ H w _ i N0). reflexivity.
    - injection E as <-. apply wf_caller; [exact H| |discriminate]. cbn. intros l <-. apply (w_on _ H w _ i N0). reflexivity.
    - injection E as <-. apply wf_caller; [exact H| |discriminate]. cbn. intros l <-. apply (w_on _ H w _ i N0). reflexivity.
    - injection E as <-. apply wf_caller; [|cbn; tauto|discriminate]. destruct (current s) as [l|]; [destruct (Nat.eqb l i)|]; [apply wf_forget| |]; exact H.
    - injection E as <-. apply wf_caller; [exact H|cbn; tauto|discriminate].
    - injection E as <-. apply wf_caller; [exact H|cbn; tauto|discriminate].
    - injection E as <-. apply wf_add_writer; [apply wf_cached; exact H|cbn; tauto].
    - injection E as <-. destruct H as [x1 x2 x3 x4 x5 x6].
      constructor; cbn [set_current set_writer Model.current Model.lists Model.writers Model.callers]; auto.
      + discriminate.
      + intros n' y l N1 O. apply nth_update_inv in N1. destruct N1 as [[-> ->]|[NI N1]]; [|eauto].
        destruct (current s) as [l0|] eqn:C; [|destruct O]. cbn in O. subst l0. destruct (x1 l eq_refl) as [z [z1 [z2 _]]]. eauto.
      + intros n1 n2 z z' l N1 N2 O O'. apply nth_update_inv in N1. apply nth_update_inv in N2.
        assert (CC : forall m y, nth_error (writers s) m = Some y -> holds y l -> holds (match current s with Some l => Draining v l | None => Done end) l -> False).
        { intros m y M1 M2 M3. destruct (current s) as [l0|] eqn:C; [|exact M3]. cbn in M3. subst l0. destruct (x1 l eq_refl) as [q [_ [_ q3]]]. exact (q3 m y M1 M2). }
        destruct N1 as [[-> ->]|[NI N1]], N2 as [[-> ->]|[NI' N2]]; auto; [elim (CC _ _ N2 O' O)|elim (CC _ _ N1 O O')|eauto].
      + intros l z N1 O. destruct (x4 l z N1 O) as [Q|[n' [y [Q1 Q2]]]]; right.
        * exists n. eexists. split; [eapply nth_update_same; exact N0|]. rewrite Q. reflexivity.
        * exists n', y. split; [|exact Q2]. rewrite nth_update_other; [exact Q1|]. intros ->. rewrite N0 in Q1. injection Q1 as <-. exact Q2.
    - unfold on_list in E. destruct (nth_error (lists s) i) as [x|] eqn:N1; [|discriminate].
      destruct (l_queue x) as [|w q] eqn:Q; injection E as <-.
      + eapply wf_writer; [exact H|exact N0|]. intros l. cbn. tauto.
      + set (x' := {| l_open := l_open x; l_queue := q |}).
        assert (G : forall cs, (forall w' c, nth_error cs w' = Some c -> (exists u, c = Got u) \/ nth_error (callers s) w' = Some c) ->
                  (forall l, nth_error cs w <> Some (Waiting l)) ->
                  wf {| Model.cached := cached s; Model.current := current s; Model.lists := update i x' (lists s); Model.callers := cs; Model.writers := writers s |}).
        { intros cs CS NW. destruct H as [x1 x2 x3 x4 x5 x6].
          assert (Old : forall l z, nth_error (lists s) l = Some z -> l_open z = true -> exists z', nth_error (update i x' (lists s)) l = Some z' /\ l_open z' = true).
          { intros l z z1 z2. destruct (Nat.eq_dec i l) as [->|NI].
            - exists x'. split; [eapply nth_update_same; exact N1|]. cbn. congruence.
            - exists z. split; [rewrite nth_update_other by exact NI; exact z1|exact z2]. }
          constructor; cbn [Model.current Model.lists Model.writers Model.callers]; auto.
          - intros l C. destruct (x1 l C) as [z [z1 [z2 z3]]]. destruct (Old l z z1 z2) as [z' [w1 w2]]. exists z'. auto.
          - intros m y l N2 P. destruct (x2 m y l N2 P) as [z [z1 z2]]. eauto.
          - intros l z N2 P. apply nth_update_inv in N2. destruct N2 as [[-> ->]|[NI N2]]; eauto.
          - intros w' c l N2 P. rewrite update_length. destruct (CS w' c N2) as [[u ->]|N3]; [destruct P|eauto].
          - intros w' l z N2 N3 P. destruct (CS w' _ N2) as [[u Z]|N4]; [discriminate|].
            apply nth_update_inv in N3. destruct N3 as [[-> ->]|[NI N3]]; [|eauto].
            cbn in *. pose proof (x6 w' i x N4 N1 P) as W. rewrite Q in W. destruct W as [->|W]; [|exact W]. elim (NW _ N2). }
        unfold give. cbn [set_list Model.callers]. destruct (nth_error (callers s) w) as [c|] eqn:Nc.
        * destruct c; (apply G; [intros; auto|intros l0 Z; rewrite Nc in Z; discriminate]) || idtac.
          apply G.
          -- intros w' c N2. apply nth_update_inv in N2. destruct N2 as [[-> ->]|[NI N2]]; [left; eauto|auto].
          -- intros l' Z. rewrite (nth_update_same _ _ _ _ Nc) in Z. discriminate.
        * apply G; [auto|]. intros l Z. rewrite Nc in Z. discriminate.
    - injection E as <-. destruct H as [x1 x2 x3 x4 x5 x6].
      constructor; cbn [set_list set_writer Model.current Model.lists Model.writers Model.callers]; auto.
      + intros l C. destruct (x1 l C) as [z [z1 [z2 z3]]]. exists z. assert (NI : i <> l) by (intros ->; exact (z3 n _ N0 eq_refl)).
        split; [rewrite nth_update_other by exact NI; exact z1|]. split; [exact z2|].
        intros m y N1. apply nth_update_inv in N1. destruct N1 as [[-> ->]|[_ N1]]; [cbn; tauto|eauto].
      + intros m y l N1 O. apply nth_update_inv in N1. destruct N1 as [[-> ->]|[NI N1]]; [destruct O|].
        destruct (x2 m y l N1 O) as [z [z1 z2]]. exists z. split; [|exact z2]. rewrite nth_update_other; [exact z1|].
        intros ->. apply NI. symmetry. eapply x3; [exact N0|exact N1|reflexivity|exact O].
      + intros n1 n2 z z' l N1 N2 O O'. apply nth_update_inv in N1. apply nth_update_inv in N2.
        destruct N1 as [[-> ->]|[NI N1]]; [destruct O|]. destruct N2 as [[-> ->]|[NI' N2]]; [destruct O'|]. eauto.
      + intros l z N1 O. apply nth_update_inv in N1. destruct N1 as [[-> ->]|[NI N1]]; [discriminate|].
        destruct (x4 l z N1 O) as [Q|[m [y [Q1 Q2]]]]; [auto|right]. exists m, y. split; [|exact Q2].
        rewrite nth_update_other; [exact Q1|]. intros ->. rewrite N0 in Q1. injection Q1 as <-. cbn in Q2. congruence.
      + intros w c l. rewrite update_length. eauto.
      + intros w l z N1 N2 O. apply nth_update_inv in N2. destruct N2 as [[-> ->]|[NI N2]]; [discriminate|eauto].
    - injection E as <-. apply wf_add_writer; [apply wf_forget; exact H|cbn; tauto].
    - injection E as <-. eapply wf_writer; [apply wf_cached; exact H|exact N0|]. intros l. cbn. tauto.
    - injection E as <-. apply wf_cached. exact H.
  Qed.

  Lemma wf_start : wf start.
  Proof.
    constructor; cbn; try discriminate; try (intros [|] *; discriminate).
  Qed.

  Lemma run_app : forall es es' s, run (es ++ es') s = match run es s with Some s' => run es' s' | None => None end.
  Proof. induction es as [|e es IH]; intros es' s; cbn [app Model.run]; [reflexivity|]. destruct (step s e); auto. Qed.

  Lemma wf_run : forall es s s', wf s -> run es s = Some s' -> wf s'.
  Proof.
    induction es as [|e es IH]; cbn [Model.run]; intros s s' H E; [injection E as <-; exact H|].
    destruct (step s e) as [s1|] eqn:E1; [|discriminate]. eapply IH; [eapply wf_step; eauto|exact E].
  Qed.

  (** Something that holds of what happened and the state holds after every run, if every action keeps it. *)
  Lemma run_ind : forall (P : list event -> state -> Prop), P [] start ->
    (forall es s e s', run es start = Some s -> wf s -> P es s -> step s e = Some s' -> P (es ++ [e]) s') ->
    forall es s, run es start = Some s -> P es s.
  Proof.
    intros P P0 PS es. induction es as [|e es IH] using rev_ind; intros s E.
    - injection E as <-. exact P0.
    - rewrite run_app in E. destruct (run es start) as [s1|] eqn:E1; [|discriminate]. cbn [Model.run] in E.
      destruct (step s1 e) as [s2|] eqn:E2; [|discriminate]. injection E as <-.
      eapply PS; eauto. eapply wf_run; [exact wf_start|exact E1].
  Qed.
End Invariant.
