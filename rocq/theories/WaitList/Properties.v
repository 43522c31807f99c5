(** What callers of the cache get. *)
From Coq Require Import List Bool PeanoNat Lia.
From Verif.WaitList Require Import Model Spec Invariant.
Import ListNotations.

Section Properties.
  Variable V : Type.
  Variable cap : nat.

  Arguments Looking {V}. Arguments Missed {V}. Arguments Joining {V}. Arguments Waiting {V}. Arguments Cleaning {V}.
  Arguments Got {V}. Arguments Leads {V}. Arguments Empty {V}. Arguments Gone {V}.
  Arguments Storing {V}. Arguments Draining {V}. Arguments Closing {V}. Arguments Removing {V}. Arguments Done {V}.
  Arguments cached {V}. Arguments current {V}. Arguments lists {V}. Arguments callers {V}. Arguments writers {V}.
  Arguments Call {V}. Arguments Look {V}. Arguments Reserve {V}. Arguments Enqueue {V}. Arguments Fail {V}. Arguments Timeout {V}.
  Arguments Clean {V}. Arguments Cancel {V}. Arguments Insert {V}. Arguments Take {V}. Arguments Drain {V}. Arguments Close {V}.
  Arguments Remove {V}. Arguments Invalidate {V}. Arguments Expire {V}.
  Arguments set_caller {V}. Arguments set_writer {V}. Arguments set_list {V}. Arguments set_current {V}. Arguments set_cached {V}.
  Arguments add_writer {V}. Arguments forget {V}. Arguments give {V}.
  Arguments update {B}. Arguments count {V}. Arguments is_call {V}. Arguments renews {V}. Arguments called {V}. Arguments over {V}. Arguments leaders {V}.

  Notation event := (event V).
  Notation state := (state V).
  Notation caller := (caller V).
  Notation writer := (writer V).
  Notation step := (step V cap).
  Notation run := (run V cap).
  Notation start := (start V).

  Notation wf := (wf V).
  Notation holds := (holds V).

  (** ** What an action does to a caller *)

  Inductive moves (s : state) : event -> nat -> caller -> caller -> Prop :=
  | m_hit w v : cached s = Some v -> moves s (Look w) w Looking (Got v)
  | m_miss w : cached s = None -> moves s (Look w) w Looking Missed
  | m_join w l : current s = Some l -> moves s (Reserve w) w Missed (Joining l)
  | m_lead w : current s = None -> moves s (Reserve w) w Missed Leads
  | m_enqueue w l : moves s (Enqueue w) w (Joining l) (Waiting l)
  | m_fail w c l x : c = Joining l \/ c = Waiting l -> nth_error (lists s) l = Some x -> l_open x = false -> moves s (Fail w) w c (Cleaning l)
  | m_timeout w c l : c = Joining l \/ c = Waiting l -> moves s (Timeout w) w c (Cleaning l)
  | m_clean w l : moves s (Clean w) w (Cleaning l) Empty
  | m_cancel w c l : c = Joining l \/ c = Waiting l -> moves s (Cancel w) w c Gone
  | m_drain n w v l i x q : nth_error (writers s) n = Some (Draining v i) -> nth_error (lists s) i = Some x -> l_queue x = w :: q ->
      moves s (Drain n) w (Waiting l) (Got v).

  Lemma forget_callers : forall s : state, callers (forget s) = callers s.
  Proof. intros s. unfold forget. destruct (current s); reflexivity. Qed.

  Lemma step_callers : forall s e s' w c', step s e = Some s' -> nth_error (callers s') w = Some c' ->
    nth_error (callers s) w = Some c' \/ (e = Call /\ w = length (callers s) /\ c' = Looking)
    \/ exists c, nth_error (callers s) w = Some c /\ moves s e w c c'.
  Proof.
    intros s e s' w0 c' E N1.
    assert (U : forall w c d cs, nth_error (callers s) w = Some c -> moves s e w c d -> nth_error (update w d cs) w0 = Some c' -> cs = callers s ->
       nth_error (callers s) w0 = Some c' \/ (e = Call /\ w0 = length (callers s) /\ c' = Looking)
       \/ exists c, nth_error (callers s) w0 = Some c /\ moves s e w0 c c').
    { intros w c d cs Nc M Q ->. apply nth_update_inv in Q. destruct Q as [[-> ->]|[_ Q]]; [|auto]. right. right. exists c. auto. }
    destruct e as [|w|w|w|w|w|w|w|v|n|n|n| |n|]; cbn [Model.step] in E;
      try (unfold on_caller in E; destruct (nth_error (callers s) w) as [c|] eqn:N0; [|discriminate]; destruct c as [| |i|i|i|v| | |]; try discriminate);
      try (unfold on_writer in E; destruct (nth_error (writers s) n) as [y|] eqn:N0; [|discriminate]; destruct y as [v|v i|i| |]; try discriminate).
    - injection E as <-. cbn in N1. apply nth_snoc_inv in N1. destruct N1 as [N1|[-> ->]]; auto.
    - injection E as <-. cbn in N1. refine (U _ _ _ _ N0 _ N1 eq_refl). destruct (cached s) eqn:C; constructor; exact C.
    - destruct (current s) as [l|] eqn:C; injection E as <-; cbn in N1; (refine (U _ _ _ _ N0 _ N1 eq_refl)); constructor; exact C.
    - unfold on_list in E. destruct (nth_error (lists s) i) as [x|] eqn:N2; [|discriminate]. destruct (_ && _); [|discriminate].
      injection E as <-. cbn in N1. refine (U _ _ _ _ N0 _ N1 eq_refl). constructor.
    - unfold on_list in E. destruct (nth_error (lists s) i) as [x|] eqn:N2; [|discriminate]. destruct (l_open x) eqn:O; [discriminate|].
      injection E as <-. cbn in N1. refine (U _ _ _ _ N0 _ N1 eq_refl). econstructor; eauto.
    - unfold on_list in E. destruct (nth_error (lists s) i) as [x|] eqn:N2; [|discriminate]. destruct (l_open x) eqn:O; [discriminate|].
      injection E as <-. cbn in N1. refine (U _ _ _ _ N0 _ N1 eq_refl). econstructor; eauto.
    - injection E as <-. cbn in N1. refine (U _ _ _ _ N0 _ N1 eq_refl). constructor. auto.
    - injection E as <-. cbn in N1. refine (U _ _ _ _ N0 _ N1 eq_refl). constructor. auto.
    - injection E as <-. cbn [set_caller Model.callers] in N1. refine (U _ _ _ _ N0 _ N1 _); [econstructor|].
      destruct (current s) as [l|]; [destruct (Nat.eqb l i)|]; try reflexivity. apply forget_callers.
    - injection E as <-. cbn in N1. refine (U _ _ _ _ N0 _ N1 eq_refl). econstructor. left. reflexivity.
    - injection E as <-. cbn in N1. refine (U _ _ _ _ N0 _ N1 eq_refl). econstructor. right. reflexivity.
    - injection E as <-. auto.
    - injection E as <-. auto.
    - unfold on_list in E. destruct (nth_error (lists s) i) as [x|] eqn:N2; [|discriminate].
      destruct (l_queue x) as [|w q] eqn:Q; injection E as <-; [auto|].
      unfold give in N1. cbn [set_list Model.callers] in N1. destruct (nth_error (callers s) w) as [c|] eqn:Nc; [|auto].
      destruct c; auto. cbn in N1. refine (U _ _ _ _ Nc _ N1 eq_refl). econstructor; eauto.
    - injection E as <-. auto.
    - injection E as <-. cbn [add_writer Model.callers] in N1. rewrite forget_callers in N1. auto.
    - injection E as <-. auto.
    - injection E as <-. auto.
  Qed.

  Lemma forget_current : forall s : state, current (forget s) = None.
  Proof. intros s. unfold forget. destruct (current s) eqn:C; [reflexivity|exact C]. Qed.

  Lemma give_rest : forall v w (s : state), current (give v w s) = current s /\ cached (give v w s) = cached s /\ lists (give v w s) = lists s /\ writers (give v w s) = writers s.
  Proof. intros v w s. unfold give. destruct (nth_error (callers s) w) as [c|]; [|auto]. destruct c; auto. Qed.

  Lemma step_current : forall s e s' l, step s e = Some s' -> current s = Some l ->
    current s' = Some l \/ (exists n, e = Take n) \/ e = Remove \/ exists w, e = Clean w.
  Proof.
    intros s e s' l E C. destruct e as [|w|w|w|w|w|w|w|v|n|n|n| |n|]; eauto; left; cbn [Model.step] in E;
      try (unfold on_caller in E; destruct (nth_error (callers s) w) as [c|] eqn:N0; [|discriminate]; destruct c as [| |i|i|i|v| | |]; try discriminate);
      try (unfold on_writer in E; destruct (nth_error (writers s) n) as [y|] eqn:N0; [|discriminate]; destruct y as [v|v i|i| |]; try discriminate);
      try (injection E as <-; exact C).
    - rewrite C in E. injection E as <-. exact C.
    - unfold on_list in E. destruct (nth_error (lists s) i) as [x|]; [|discriminate]. destruct (_ && _); [|discriminate]. injection E as <-. exact C.
    - unfold on_list in E. destruct (nth_error (lists s) i) as [x|]; [|discriminate]. destruct (l_open x); [discriminate|]. injection E as <-. exact C.
    - unfold on_list in E. destruct (nth_error (lists s) i) as [x|]; [|discriminate]. destruct (l_open x); [discriminate|]. injection E as <-. exact C.
    - unfold on_list in E. destruct (nth_error (lists s) i) as [x|]; [|discriminate]. destruct (l_queue x); injection E as <-; [exact C|].
      rewrite (proj1 (give_rest _ _ _)). exact C.
  Qed.

  (** ** Values *)

  Definition carries (x : writer) (v : V) : Prop := match x with Storing v' | Draining v' _ => v' = v | _ => False end.

  Lemma step_writers : forall s e s' n y', step s e = Some s' -> nth_error (writers s') n = Some y' ->
    nth_error (writers s) n = Some y'
    \/ (exists v, e = Insert v /\ n = length (writers s) /\ y' = Storing v) \/ (e = Remove /\ n = length (writers s) /\ y' = Removing)
    \/ exists y, nth_error (writers s) n = Some y
       /\ ((e = Take n /\ exists v, y = Storing v /\ y' = match current s with Some l => Draining v l | None => Done end)
           \/ (e = Drain n /\ exists v i x, y = Draining v i /\ y' = Closing i /\ nth_error (lists s) i = Some x /\ l_queue x = [])
           \/ (e = Close n /\ exists i, y = Closing i /\ y' = Done) \/ (e = Invalidate n /\ y = Removing /\ y' = Done)).
  Proof.
    intros s e s' n0 y' E N1.
    destruct e as [|w|w|w|w|w|w|w|v|n|n|n| |n|]; cbn [Model.step] in E;
      try (unfold on_caller in E; destruct (nth_error (callers s) w) as [c|] eqn:N0; [|discriminate]; destruct c as [| |i|i|i|v| | |]; try discriminate);
      try (unfold on_writer in E; destruct (nth_error (writers s) n) as [y|] eqn:N0; [|discriminate]; destruct y as [v|v i|i| |]; try discriminate);
      try (injection E as <-; left; exact N1).
    - destruct (current s); injection E as <-; left; exact N1.
    - unfold on_list in E. destruct (nth_error (lists s) i) as [x|]; [|discriminate]. destruct (_ && _); [|discriminate]. injection E as <-. left. exact N1.
    - unfold on_list in E. destruct (nth_error (lists s) i) as [x|]; [|discriminate]. destruct (l_open x); [discriminate|]. injection E as <-. left. exact N1.
    - unfold on_list in E. destruct (nth_error (lists s) i) as [x|]; [|discriminate]. destruct (l_open x); [discriminate|]. injection E as <-. left. exact N1.
    - injection E as <-. left. cbn [set_caller Model.writers] in N1. destruct (current s) as [l|] eqn:C; [destruct (Nat.eqb l i)|]; try exact N1.
      unfold forget in N1. rewrite C in N1. exact N1.
    - injection E as <-. cbn in N1. apply nth_snoc_inv in N1. destruct N1 as [N1|[-> ->]]; [auto|]. right. left. exists v. auto.
    - injection E as <-. cbn in N1. apply nth_update_inv in N1. destruct N1 as [[-> ->]|[_ N1]]; [|auto].
      right. right. right. eexists. split; [exact N0|]. left. split; [reflexivity|]. exists v. auto.
    - unfold on_list in E. destruct (nth_error (lists s) i) as [x|] eqn:N2; [|discriminate]. destruct (l_queue x) eqn:Q; injection E as <-.
      + cbn in N1. apply nth_update_inv in N1. destruct N1 as [[-> ->]|[_ N1]]; [|auto].
        right. right. right. eexists. split; [exact N0|]. right. left. split; [reflexivity|]. exists v, i, x. auto.
      + left. rewrite (proj2 (proj2 (proj2 (give_rest _ _ _)))) in N1. exact N1.
    - injection E as <-. cbn in N1. apply nth_update_inv in N1. destruct N1 as [[-> ->]|[_ N1]]; [|auto].
      right. right. right. eexists. split; [exact N0|]. right. right. left. split; [reflexivity|]. exists i. auto.
    - injection E as <-. cbn [add_writer Model.writers] in N1. assert (W : writers (forget s) = writers s) by (unfold forget; destruct (current s); reflexivity).
      rewrite W in N1. apply nth_snoc_inv in N1. destruct N1 as [N1|[-> ->]]; [auto|]. right. right. left. auto.
    - injection E as <-. cbn in N1. apply nth_update_inv in N1. destruct N1 as [[-> ->]|[_ N1]]; [|auto].
      right. right. right. eexists. split; [exact N0|]. right. right. right. auto.
  Qed.

  Lemma step_cached : forall s e s' v, step s e = Some s' -> cached s' = Some v -> cached s = Some v \/ e = Insert v.
  Proof.
    intros s e s' v0 E N1.
    destruct e as [|w|w|w|w|w|w|w|v|n|n|n| |n|]; cbn [Model.step] in E;
      try (unfold on_caller in E; destruct (nth_error (callers s) w) as [c|] eqn:N0; [|discriminate]; destruct c as [| |i|i|i|v| | |]; try discriminate);
      try (unfold on_writer in E; destruct (nth_error (writers s) n) as [y|] eqn:N0; [|discriminate]; destruct y as [v|v i|i| |]; try discriminate);
      try (injection E as <-; left; exact N1).
    - destruct (current s); injection E as <-; left; exact N1.
    - unfold on_list in E. destruct (nth_error (lists s) i) as [x|]; [|discriminate]. destruct (_ && _); [|discriminate]. injection E as <-. left. exact N1.
    - unfold on_list in E. destruct (nth_error (lists s) i) as [x|]; [|discriminate]. destruct (l_open x); [discriminate|]. injection E as <-. left. exact N1.
    - unfold on_list in E. destruct (nth_error (lists s) i) as [x|]; [|discriminate]. destruct (l_open x); [discriminate|]. injection E as <-. left. exact N1.
    - injection E as <-. left. cbn [set_caller Model.cached] in N1. destruct (current s) as [l|] eqn:C; [destruct (Nat.eqb l i)|]; try exact N1.
      unfold forget in N1. rewrite C in N1. exact N1.
    - injection E as <-. cbn in N1. right. congruence.
    - unfold on_list in E. destruct (nth_error (lists s) i) as [x|] eqn:N2; [|discriminate]. destruct (l_queue x) eqn:Q; injection E as <-; [left; exact N1|].
      left. rewrite (proj1 (proj2 (give_rest _ _ _))) in N1. exact N1.
    - injection E as <-. left. cbn [add_writer Model.cached] in N1. unfold forget in N1. destruct (current s); exact N1.
    - injection E as <-. discriminate.
    - injection E as <-. discriminate.
  Qed.

  Lemma values : forall es s, run es start = Some s ->
      (forall v, cached s = Some v -> In (Insert v) es)
      /\ (forall n y v, nth_error (writers s) n = Some y -> carries y v -> In (Insert v) es)
      /\ (forall w v, nth_error (callers s) w = Some (Got v) -> In (Insert v) es).
  Proof.
    apply (run_ind V cap).
      - cbn. split; [discriminate|]. split; intros [|]; discriminate.
      - intros es s e s' _ _ [H1 [H2 H3]] E. split; [|split].
        + intros v C. apply in_or_app. destruct (step_cached _ _ _ _ E C) as [Q|Q]; [left; auto|right; left; exact Q].
        + intros n y v N0 Cv. apply in_or_app. destruct (step_writers _ _ _ _ _ E N0) as [Q|[[v' [-> [_ ->]]]|[[_ [_ ->]]|[y0 [Q1 Q2]]]]].
          * left. eauto.
          * right. left. cbn in Cv. congruence.
          * destruct Cv.
          * left. destruct Q2 as [[_ [v' [-> ->]]]|[[_ [v' [i [x [-> [-> _]]]]]]|[[_ [i [-> ->]]]|[_ [-> ->]]]]]; try (destruct Cv; fail).
            destruct (current s); [|destruct Cv]. cbn in Cv. subst v'. apply (H2 _ _ _ Q1). reflexivity.
        + intros w v N0. apply in_or_app. left. destruct (step_callers _ _ _ _ _ E N0) as [Q|[[_ [_ Q]]|[c [Q M]]]]; [eauto|discriminate|].
          inversion M as [w1 v1 Hc| | | | | | | | |n1 w1 v1 l1 i1 x1 q1 Hn _ _]; subst; [eauto|]. apply (H2 _ _ _ Hn). reflexivity.
  Qed.

  (** Whatever a caller is given was inserted. *)
  Theorem C113_value : forall es s w v, run es start = Some s -> nth_error (callers s) w = Some (Got v) -> In (Insert v) es.
  Proof.
    intros es s w v E N0. apply (values es s E) with (w := w). exact N0.
  Qed.

  (** ** Who is told to compute *)

  Lemma count_app : forall p (es es' : list event), count p (es ++ es') = count p es + count p es'.
  Proof. intros p es es'. induction es as [|e es IH]; cbn [app count]; [reflexivity|]. rewrite IH. lia. Qed.

  Lemma step_length : forall s e s', step s e = Some s' -> length (callers s') = length (callers s) + count is_call [e].
  Proof.
    intros s e s' E.
    destruct e as [|w|w|w|w|w|w|w|v|n|n|n| |n|]; cbn [Model.step] in E;
      try (unfold on_caller in E; destruct (nth_error (callers s) w) as [c|] eqn:N0; [|discriminate]; destruct c as [| |i|i|i|v| | |]; try discriminate);
      try (unfold on_writer in E; destruct (nth_error (writers s) n) as [y|] eqn:N0; [|discriminate]; destruct y as [v|v i|i| |]; try discriminate);
      cbn [count is_call]; try (injection E as <-; cbn; rewrite ?update_length, ?Nat.add_0_r; reflexivity).
    - injection E as <-. cbn. rewrite app_length. reflexivity.
    - destruct (current s); injection E as <-; cbn; rewrite update_length; lia.
    - unfold on_list in E. destruct (nth_error (lists s) i) as [x|]; [|discriminate]. destruct (_ && _); [|discriminate]. injection E as <-. cbn. rewrite update_length. lia.
    - unfold on_list in E. destruct (nth_error (lists s) i) as [x|]; [|discriminate]. destruct (l_open x); [discriminate|]. injection E as <-. cbn. rewrite update_length. lia.
    - unfold on_list in E. destruct (nth_error (lists s) i) as [x|]; [|discriminate]. destruct (l_open x); [discriminate|]. injection E as <-. cbn. rewrite update_length. lia.
    - injection E as <-. cbn [set_caller Model.callers]. rewrite update_length. destruct (current s) as [l|]; [destruct (Nat.eqb l i)|]; rewrite ?forget_callers; cbn; lia.
    - unfold on_list in E. destruct (nth_error (lists s) i) as [x|]; [|discriminate]. destruct (l_queue x); injection E as <-; [cbn; lia|].
      unfold give. cbn [set_list Model.callers]. destruct (nth_error (callers s) n0) as [c|]; [destruct c|]; cbn; rewrite ?update_length; lia.
    - injection E as <-. cbn [add_writer Model.callers]. rewrite forget_callers. cbn. lia.
  Qed.

  Definition cause (w : nat) (later : list event) : Prop := exists e, In e later /\ over w e.
  Definition any_cause (es : list event) : Prop := exists e, In e es /\ renews e = true.

  Definition told_ok (es : list event) (s : state) (w : nat) (c : caller) (later : list event) : Prop :=
    match c with
    | Joining l | Waiting l => current s = Some l \/ cause w later /\ any_cause es
    | Cleaning _ | Empty => cause w later /\ any_cause es
    | _ => True
    end.

  Lemma cause_snoc : forall w later e, cause w later -> cause w (later ++ [e]).
  Proof. intros w later e [e0 [Q1 Q2]]. exists e0. split; [apply in_or_app; auto|exact Q2]. Qed.
  Lemma any_snoc : forall es e, any_cause es -> any_cause (es ++ [e]).
  Proof. intros es e [e0 [Q1 Q2]]. exists e0. split; [apply in_or_app; auto|exact Q2]. Qed.
  Lemma cause_last : forall w later e, over w e -> cause w (later ++ [e]).
  Proof. intros w later e Q. exists e. split; [apply in_or_app; right; left; reflexivity|exact Q]. Qed.
  Lemma any_last : forall es e, renews e = true -> any_cause (es ++ [e]).
  Proof. intros es e Q. exists e. split; [apply in_or_app; right; left; reflexivity|exact Q]. Qed.

  Lemma told : forall es s, run es start = Some s ->
    length (callers s) = count is_call es
    /\ forall w c, nth_error (callers s) w = Some c -> exists before later, called w before later es /\ told_ok es s w c later.
  Proof.
    apply (run_ind V cap).
    - split; [reflexivity|]. intros [|] c Q; discriminate.
    - intros es s e s' R W [HL H] E. split.
      { rewrite (step_length _ _ _ E), HL, count_app. reflexivity. }
      intros w c' N0.
      assert (CS : forall before later, called w before later es -> called w before (later ++ [e]) (es ++ [e])).
      { intros before later [Q1 Q2]. split; [|exact Q2]. rewrite Q1, <- ?app_assoc. reflexivity. }
      (* the list of a waiting caller is still current, or something has happened *)
      assert (KW : forall l before later, nth_error (callers s) w = Some (Joining l) \/ nth_error (callers s) w = Some (Waiting l) -> called w before later es ->
                current s = Some l \/ cause w later /\ any_cause es ->
                current s' = Some l \/ cause w (later ++ [e]) /\ any_cause (es ++ [e])).
      { intros l before later Q QC [C|[C1 C2]]; [|right; split; [apply cause_snoc|apply any_snoc]; assumption].
        destruct (step_current _ _ _ _ E C) as [C'|[[n ->]|[->|[w' ->]]]]; [auto| | |]; right.
        - split; [apply cause_last; exact Logic.I|]. apply any_snoc. cbn [Model.step] in E. unfold on_writer in E.
          destruct (nth_error (writers s) n) as [y|] eqn:N1; [|discriminate]. destruct y as [v|v i|i| |]; try discriminate.
          exists (Insert v). split; [|reflexivity]. apply (proj1 (proj2 (values es s R)) n _ v N1). reflexivity.
        - split; [apply cause_last; exact Logic.I|apply any_last; reflexivity].
        - cbn [Model.step] in E. unfold on_caller in E. destruct (nth_error (callers s) w') as [c0|] eqn:N1; [|discriminate].
          destruct c0 as [| |i|i|i|v| | |]; try discriminate.
          split; [apply cause_last; cbn; intros ->; destruct Q; congruence|].
          destruct (H w' _ N1) as [b' [l' [_ [_ A]]]]. apply any_snoc. exact A. }
      destruct (step_callers _ _ _ _ _ E N0) as [Q|[[-> [-> ->]]|[c [Q M]]]].
      + destruct (H w c' Q) as [before [later [HC HT]]]. exists before, (later ++ [e]). split; [auto|].
        destruct c' as [| |i|i|i|v| | |]; cbn [told_ok] in *; auto.
        * eapply KW; eauto.
        * eapply KW; eauto.
        * destruct HT. split; [apply cause_snoc|apply any_snoc]; assumption.
        * destruct HT. split; [apply cause_snoc|apply any_snoc]; assumption.
      + exists es, []. split; [split; [reflexivity|symmetry; exact HL]|exact Logic.I].
      + destruct (H w c Q) as [before [later [HC HT]]]. exists before, (later ++ [e]). split; [auto|].
        assert (CL : forall l x, nth_error (lists s) l = Some x -> l_open x = false -> current s = Some l \/ cause w later /\ any_cause es -> cause w later /\ any_cause es).
        { intros l x N1 O [C|C]; [|exact C]. destruct (w_cur _ _ W l C) as [y [y1 [y2 _]]]. congruence. }
        inversion M; subst; cbn [told_ok] in *; auto.
        * left. destruct (step_current _ _ _ _ E H0) as [C'|[[n ?]|[?|[w' ?]]]]; [exact C'|discriminate|discriminate|discriminate].
        * eapply KW; eauto.
        * assert (Z : cause w later /\ any_cause es) by (destruct H0; subst c; eapply CL; eauto).
          destruct Z. split; [apply cause_snoc|apply any_snoc]; assumption.
        * split; [apply cause_last; reflexivity|apply any_last; reflexivity].
        * destruct HT. split; [apply cause_snoc|apply any_snoc]; assumption.
  Qed.

  (** Who gets nothing though somebody computes the value has timed out, or since it came a value was inserted, the value was removed, or another
      caller timed out. *)
  Theorem C113_told : forall es s w, run es start = Some s -> nth_error (callers s) w = Some Empty ->
    exists before later e, called w before later es /\ In e later /\ over w e.
  Proof.
    intros es s w E N0. destruct (told es s E) as [_ H]. destruct (H w _ N0) as [before [later [HC [[e [Q1 Q2]] _]]]].
    exists before, later, e. auto.
  Qed.

  (** ** How many *)

  Fixpoint cnt {B} (p : B -> bool) (l : list B) : nat := match l with [] => 0 | x :: l => (if p x then 1 else 0) + cnt p l end.

  Lemma cnt_update {B} (p : B -> bool) : forall l i x y, nth_error l i = Some y ->
    cnt p (update i x l) + (if p y then 1 else 0) = cnt p l + (if p x then 1 else 0).
  Proof.
    induction l; intros [|i] x y E; cbn [nth_error update cnt] in *; try discriminate.
    - injection E as ->. lia.
    - specialize (IHl i x y E). lia.
  Qed.

  Lemma cnt_le {B} (p q : B -> bool) : forall l, (forall x, p x = true -> q x = true) -> cnt p l <= cnt q l.
  Proof. induction l; intros H; cbn [cnt]; [lia|]. specialize (IHl H). destruct (p a) eqn:P; [rewrite (H _ P); lia|]. destruct (q a); lia. Qed.

  Lemma cnt_app {B} (p : B -> bool) : forall l l', cnt p (l ++ l') = cnt p l + cnt p l'.
  Proof. induction l; intros l'; cbn [app cnt]; [reflexivity|]. rewrite IHl. lia. Qed.

  Definition leads (c : caller) : bool := match c with Leads => true | _ => false end.
  Definition storing (x : writer) : bool := match x with Storing _ => true | _ => false end.
  Definition open_at (ls : list wait_list) (l : nat) : bool := match nth_error ls l with Some x => l_open x | None => false end.
  Definition cleaning (ls : list wait_list) (c : caller) : bool := match c with Cleaning l => open_at ls l | _ => false end.

  Lemma leaders_cnt : forall cs : list caller, leaders cs = cnt leads cs.
  Proof. induction cs as [|c cs IH]; [reflexivity|]. destruct c; cbn [leaders cnt leads]; rewrite IH; reflexivity. Qed.

  Definition one (c : option nat) : nat := match c with Some _ => 1 | None => 0 end.

  Definition bound (es : list event) (s : state) : Prop :=
    cnt leads (callers s) = length (lists s)
    /\ length (lists s) + cnt storing (writers s) + cnt (cleaning (lists s)) (callers s) <= one (current s) + count renews es.

  Lemma cleaning_close : forall ls l x cs, l_open x = false -> cnt (cleaning (update l x ls)) cs <= cnt (cleaning ls) cs.
  Proof.
    intros ls l x cs O. apply cnt_le. intros c. destruct c; cbn [cleaning]; auto. unfold open_at.
    destruct (nth_error (update l x ls) l0) as [z|] eqn:Q; [|discriminate]. apply nth_update_inv in Q. destruct Q as [[-> ->]|[_ Q]]; [congruence|].
    rewrite Q. auto.
  Qed.

  Lemma cleaning_same : forall ls l x y cs, nth_error ls l = Some y -> l_open x = l_open y -> cnt (cleaning (update l x ls)) cs <= cnt (cleaning ls) cs.
  Proof.
    intros ls l x y cs N0 O. apply cnt_le. intros c. destruct c; cbn [cleaning]; auto. unfold open_at.
    destruct (nth_error (update l x ls) l0) as [z|] eqn:Q; [|discriminate]. apply nth_update_inv in Q. destruct Q as [[-> ->]|[_ Q]]; [rewrite N0; congruence|].
    rewrite Q. auto.
  Qed.

  Lemma forget_bound : forall s : state, one (current s) + (length (lists (forget s)) + cnt (cleaning (lists (forget s))) (callers s))
    <= one (current s) + (length (lists s) + cnt (cleaning (lists s)) (callers s)).
  Proof.
    intros s. unfold forget. destruct (current s) as [l|]; [|lia]. cbn [set_current set_list Model.lists]. rewrite update_length.
    pose proof (cleaning_close (lists s) l dropped (callers s) eq_refl). lia.
  Qed.

  Lemma bounded : forall es s, run es start = Some s -> bound es s.
  Proof.
    apply (run_ind V cap).
    - split; cbn; lia.
    - intros es s e s' _ W [HL HB] E. unfold bound. rewrite count_app.
      destruct e as [|w|w|w|w|w|w|w|v|n|n|n| |n|]; cbn [Model.step] in E;
        try (unfold on_caller in E; destruct (nth_error (callers s) w) as [c|] eqn:N0; [|discriminate]; destruct c as [| |i|i|i|v| | |]; try discriminate);
        try (unfold on_writer in E; destruct (nth_error (writers s) n) as [y|] eqn:N0; [|discriminate]; destruct y as [v|v i|i| |]; try discriminate);
        cbn [count renews].
      + injection E as <-. cbn [Model.callers Model.lists Model.writers Model.current]. rewrite !cnt_app. cbn. split; lia.
      + injection E as <-. cbn [set_caller Model.callers Model.lists Model.writers Model.current].
        pose proof (cnt_update leads _ _ (match cached s with Some v => Got v | None => Missed end) _ N0) as A1.
        pose proof (cnt_update (cleaning (lists s)) _ _ (match cached s with Some v => Got v | None => Missed end) _ N0) as A2.
        destruct (cached s); cbn in A1, A2 |- *; lia.
      + destruct (current s) as [l|] eqn:C; injection E as <-; cbn [set_caller Model.callers Model.lists Model.writers Model.current].
        * pose proof (cnt_update leads _ _ (Joining l) _ N0) as A1. pose proof (cnt_update (cleaning (lists s)) _ _ (Joining l) _ N0) as A2. rewrite C. cbn in A1, A2, HB |- *. lia.
        * rewrite app_length. set (ls := lists s ++ _).
          pose proof (cnt_update leads _ _ Leads _ N0) as A1. pose proof (cnt_update (cleaning ls) _ _ Leads _ N0) as A2.
          assert (A3 : cnt (cleaning ls) (callers s) = cnt (cleaning (lists s)) (callers s)).
          { assert (WO : forall w c l, nth_error (callers s) w = Some c -> on _ c l -> l < length (lists s)) by apply (w_on _ _ W).
            clear - WO. revert WO. generalize (callers s). intros cs. induction cs as [|c cs IH]; intros WO; [reflexivity|]. cbn [cnt].
            rewrite IH by (intros w; apply (WO (S w))). f_equal. destruct c; cbn [cleaning]; try reflexivity. unfold open_at, ls.
            rewrite nth_error_app1; [reflexivity|]. apply (WO 0 _ l eq_refl). reflexivity. }
          cbn in A1, A2, HB |- *. lia.
      + unfold on_list in E. destruct (nth_error (lists s) i) as [x|] eqn:N1; [|discriminate]. destruct (l_open x) eqn:O; cbn [andb] in E; [|discriminate].
        destruct (Nat.ltb _ _); [|discriminate]. injection E as <-. cbn [set_caller set_list Model.callers Model.lists Model.writers Model.current]. rewrite update_length.
        set (ls := update i _ (lists s)).
        pose proof (cnt_update leads _ _ (Waiting i) _ N0) as A1. pose proof (cnt_update (cleaning ls) _ _ (Waiting i) _ N0) as A2.
        assert (A3 : cnt (cleaning ls) (callers s) <= cnt (cleaning (lists s)) (callers s)) by (eapply cleaning_same; [exact N1|cbn; congruence]).
        cbn in A1, A2 |- *. lia.
      + unfold on_list in E. destruct (nth_error (lists s) i) as [x|] eqn:N1; [|discriminate]. destruct (l_open x) eqn:O; [discriminate|].
        injection E as <-. cbn [set_caller Model.callers Model.lists Model.writers Model.current].
        pose proof (cnt_update leads _ _ (Cleaning i) _ N0) as A1. pose proof (cnt_update (cleaning (lists s)) _ _ (Cleaning i) _ N0) as A2.
        cbn [cleaning leads] in A1, A2. unfold open_at in A2. rewrite N1, O in A2. cbn. lia.
      + unfold on_list in E. destruct (nth_error (lists s) i) as [x|] eqn:N1; [|discriminate]. destruct (l_open x) eqn:O; [discriminate|].
        injection E as <-. cbn [set_caller Model.callers Model.lists Model.writers Model.current].
        pose proof (cnt_update leads _ _ (Cleaning i) _ N0) as A1. pose proof (cnt_update (cleaning (lists s)) _ _ (Cleaning i) _ N0) as A2.
        cbn [cleaning leads] in A1, A2. unfold open_at in A2. rewrite N1, O in A2. cbn. lia.
      + injection E as <-. cbn [set_caller Model.callers Model.lists Model.writers Model.current].
        pose proof (cnt_update leads _ _ (Cleaning i) _ N0) as A1. pose proof (cnt_update (cleaning (lists s)) _ _ (Cleaning i) _ N0) as A2.
        cbn [cleaning leads] in A1, A2. destruct (open_at (lists s) i); cbn; lia.
      + injection E as <-. cbn [set_caller Model.callers Model.lists Model.writers Model.current].
        pose proof (cnt_update leads _ _ (Cleaning i) _ N0) as A1. pose proof (cnt_update (cleaning (lists s)) _ _ (Cleaning i) _ N0) as A2.
        cbn [cleaning leads] in A1, A2. destruct (open_at (lists s) i); cbn; lia.
      + injection E as <-. cbn [set_caller Model.callers Model.lists Model.writers Model.current].
        pose proof (cnt_update leads _ _ Empty _ N0) as A1. pose proof (cnt_update (cleaning (lists s)) _ _ Empty _ N0) as A2. cbn [cleaning leads] in A1, A2.
        destruct (current s) as [l|] eqn:C; [destruct (Nat.eqb_spec l i) as [->|NI]|]; cbn [one] in HB.
        * rewrite forget_callers, forget_lists, forget_current.
          assert (WF : writers (forget s) = writers s) by (unfold forget; rewrite C; reflexivity). rewrite WF.
          destruct (w_cur _ _ W i C) as [x [N1 [O _]]]. unfold open_at in A2. rewrite N1, O in A2.
          assert (A3 : cnt (cleaning (lists (forget s))) (update w Empty (callers s)) <= cnt (cleaning (lists s)) (update w Empty (callers s))).
          { unfold forget. rewrite C. apply cleaning_close. reflexivity. }
          cbn [one]. split; lia.
        * rewrite C. cbn [one]. destruct (open_at (lists s) i); split; lia.
        * rewrite C. cbn [one]. destruct (open_at (lists s) i); split; lia.
      + injection E as <-. cbn [set_caller Model.callers Model.lists Model.writers Model.current].
        pose proof (cnt_update leads _ _ Gone _ N0) as A1. pose proof (cnt_update (cleaning (lists s)) _ _ Gone _ N0) as A2.
        cbn [cleaning leads] in A1, A2. cbn. lia.
      + injection E as <-. cbn [set_caller Model.callers Model.lists Model.writers Model.current].
        pose proof (cnt_update leads _ _ Gone _ N0) as A1. pose proof (cnt_update (cleaning (lists s)) _ _ Gone _ N0) as A2.
        cbn [cleaning leads] in A1, A2. cbn. lia.
      + injection E as <-. cbn [add_writer set_cached Model.callers Model.lists Model.writers Model.current]. rewrite cnt_app. cbn. lia.
      + injection E as <-. cbn [set_current set_writer Model.callers Model.lists Model.writers Model.current].
        pose proof (cnt_update storing _ _ (match current s with Some l => Draining v l | None => Done end) _ N0) as A1.
        destruct (current s); cbn in A1, HB |- *; lia.
      + unfold on_list in E. destruct (nth_error (lists s) i) as [x|] eqn:N1; [|discriminate]. destruct (l_queue x) as [|w q] eqn:Q; injection E as <-.
        * cbn [set_writer Model.callers Model.lists Model.writers Model.current]. pose proof (cnt_update storing _ _ (Closing i) _ N0) as A1. cbn in A1 |- *. lia.
        * set (ls := update i {| l_open := l_open x; l_queue := q |} (lists s)).
          assert (A3 : cnt (cleaning ls) (callers s) <= cnt (cleaning (lists s)) (callers s)) by (eapply cleaning_same; [exact N1|reflexivity]).
          assert (LL : length ls = length (lists s)) by apply update_length.
          assert (G : forall c d, nth_error (callers s) w = Some c -> leads c = leads d -> cleaning ls d = false ->
             cnt leads (update w d (callers s)) = length ls
             /\ length ls + cnt storing (writers s) + cnt (cleaning ls) (update w d (callers s)) <= one (current s) + (count renews es + (0 + 0))).
          { intros c d Nc A4 A5. pose proof (cnt_update leads _ _ d _ Nc) as A1. pose proof (cnt_update (cleaning ls) _ _ d _ Nc) as A2. rewrite A4 in A1. rewrite A5 in A2.
            destruct (leads d); lia. }
          unfold give. cbn [set_list Model.callers]. fold ls. destruct (nth_error (callers s) w) as [c|] eqn:Nc.
          -- destruct c; cbn [set_caller set_list Model.callers Model.lists Model.writers Model.current]; fold ls; try (split; lia).
             apply (G _ (Got v) eq_refl); reflexivity.
          -- cbn [set_list Model.callers Model.lists Model.writers Model.current]; fold ls. split; lia.
      + injection E as <-. cbn [set_list set_writer Model.callers Model.lists Model.writers Model.current]. rewrite update_length.
        pose proof (cnt_update storing _ _ Done _ N0) as A1. pose proof (cleaning_close (lists s) i dropped (callers s) eq_refl) as A2. cbn in A1 |- *. lia.
      + injection E as <-. cbn [add_writer Model.callers Model.lists Model.writers Model.current]. rewrite cnt_app, forget_callers, forget_lists, forget_current.
        assert (WF : writers (forget s) = writers s) by (unfold forget; destruct (current s); reflexivity). rewrite WF.
        pose proof (forget_bound s) as A1. rewrite forget_lists in A1. cbn. destruct (current s); cbn in HB; lia.
      + injection E as <-. cbn [set_cached set_writer Model.callers Model.lists Model.writers Model.current].
        pose proof (cnt_update storing _ _ Done _ N0) as A1. cbn in A1 |- *. lia.
      + injection E as <-. cbn [set_cached Model.callers Model.lists Model.writers Model.current]. lia.
  Qed.

  (** One caller is told to compute the value, and another one only after it was inserted or removed, or somebody timed out. *)
  Theorem C113_leaders : forall es s, run es start = Some s -> leaders (callers s) <= 1 + count renews es.
  Proof.
    intros es s E. destruct (bounded es s E) as [A1 A2]. rewrite leaders_cnt, A1. destruct (current s); cbn in A2; lia.
  Qed.

  (** Until a value is inserted or removed or somebody times out, at most one caller is told to compute it and all others wait. *)
  Theorem C113_quiet : forall es s, run es start = Some s -> count renews es = 0 ->
    leaders (callers s) <= 1 /\ forall w, nth_error (callers s) w <> Some Empty.
  Proof.
    intros es s E C. split; [pose proof (C113_leaders es s E); lia|]. intros w N0. destruct (told es s E) as [_ H].
    destruct (H w _ N0) as [_ [_ [_ [_ [e [Q1 Z]]]]]].
    clear - C Q1 Z. induction es as [|e0 es IH]; [destruct Q1|]. cbn [count] in C. destruct Q1 as [->|Q1]; [rewrite Z in C; discriminate|]. apply IH; [lia|exact Q1].
  Qed.

  (** A caller waits only for one that was told to compute the value, or for an [insert] that is about to give it. *)
  Theorem C113_waits : forall es s w c l, run es start = Some s -> nth_error (callers s) w = Some c -> c = Joining l \/ c = Waiting l ->
    current s = Some l \/ (exists n y, nth_error (writers s) n = Some y /\ y <> Done /\ y <> Removing) \/ step s (Fail w) <> None.
  Proof.
    intros es s w c l E N0 HC. pose proof (wf_run V cap _ _ _ (wf_start V) E) as W.
    assert (L : l < length (lists s)) by (apply (w_on _ _ W w c l N0); destruct HC; subst c; reflexivity).
    destruct (nth_error (lists s) l) as [x|] eqn:N1; [|apply nth_error_None in N1; lia].
    destruct (l_open x) eqn:O.
    - destruct (w_open _ _ W l x N1 O) as [Q|[n [y [Q1 Q2]]]]; [auto|]. right. left. exists n, y. split; [exact Q1|]. destruct y; cbn in Q2; try (destruct Q2; fail); split; discriminate.
    - right. right. cbn [Model.step]. unfold on_caller, on_list. rewrite N0. destruct HC; subst c; rewrite N1, O; discriminate.
  Qed.

  (** ** Who waits is served *)

  Definition queued (s : state) : Prop := forall l x w, nth_error (lists s) l = Some x -> In w (l_queue x) ->
    exists c, nth_error (callers s) w = Some c /\ match c with Looking | Missed | Joining _ => False | Waiting l' => l' = l | _ => True end.

  Lemma step_moved : forall s e s' w c, step s e = Some s' -> nth_error (callers s) w = Some c ->
    exists c', nth_error (callers s') w = Some c' /\ (c' = c \/ moves s e w c c').
  Proof.
    intros s e s' w c E N0. pose proof (step_length _ _ _ E) as L.
    destruct (nth_error (callers s') w) as [c'|] eqn:N1.
    - exists c'. split; [reflexivity|]. destruct (step_callers _ _ _ _ _ E N1) as [Q|[[_ [-> _]]|[c0 [Q M]]]].
      + left. congruence.
      + exfalso. assert (length (callers s) < length (callers s)) by (apply nth_error_Some; congruence). lia.
      + right. rewrite N0 in Q. injection Q as <-. exact M.
    - exfalso. apply nth_error_None in N1. assert (w < length (callers s)) by (apply nth_error_Some; congruence). lia.
  Qed.

  Lemma step_lists : forall s e s' l x w, step s e = Some s' -> nth_error (lists s') l = Some x -> In w (l_queue x) ->
    (exists x0, nth_error (lists s) l = Some x0 /\ In w (l_queue x0)) \/ (e = Enqueue w /\ nth_error (callers s) w = Some (Joining l)).
  Proof.
    intros s e s' l x w0 E N1 I1.
    assert (FG : forall s0 : state, lists s0 = lists s -> nth_error (lists (forget s0)) l = Some x -> exists x0, nth_error (lists s) l = Some x0 /\ In w0 (l_queue x0)).
    { intros s0 Q N2. unfold forget in N2. destruct (current s0); [|rewrite Q in N2; eauto]. cbn [set_current set_list Model.lists] in N2. rewrite Q in N2.
      apply nth_update_inv in N2. destruct N2 as [[-> ->]|[_ N2]]; [destruct I1|eauto]. }
    destruct e as [|w|w|w|w|w|w|w|v|n|n|n| |n|]; cbn [Model.step] in E;
      try (unfold on_caller in E; destruct (nth_error (callers s) w) as [c|] eqn:N0; [|discriminate]; destruct c as [| |i|i|i|v| | |]; try discriminate);
      try (unfold on_writer in E; destruct (nth_error (writers s) n) as [y|] eqn:N0; [|discriminate]; destruct y as [v|v i|i| |]; try discriminate);
      try (injection E as <-; left; exists x; split; [exact N1|exact I1]).
    - destruct (current s); injection E as <-; cbn in N1; [left; eauto|]. apply nth_snoc_inv in N1. destruct N1 as [N1|[-> ->]]; [eauto|destruct I1].
    - unfold on_list in E. destruct (nth_error (lists s) i) as [z|] eqn:N2; [|discriminate]. destruct (_ && _); [|discriminate]. injection E as <-. cbn in N1.
      apply nth_update_inv in N1. destruct N1 as [[-> ->]|[_ N1]]; [|eauto]. cbn in I1. apply in_app_or in I1. destruct I1 as [I1|[->|[]]]; [eauto|auto].
    - unfold on_list in E. destruct (nth_error (lists s) i) as [z|]; [|discriminate]. destruct (l_open z); [discriminate|]. injection E as <-. left. eauto.
    - unfold on_list in E. destruct (nth_error (lists s) i) as [z|]; [|discriminate]. destruct (l_open z); [discriminate|]. injection E as <-. left. eauto.
    - injection E as <-. left. cbn [set_caller Model.lists] in N1. destruct (current s) as [k|] eqn:C; [destruct (Nat.eqb k i)|]; eauto.
    - unfold on_list in E. destruct (nth_error (lists s) i) as [z|] eqn:N2; [|discriminate]. destruct (l_queue z) as [|w q] eqn:Q; injection E as <-; [left; eauto|].
      left. assert (N3 : nth_error (update i {| l_open := l_open z; l_queue := q |} (lists s)) l = Some x).
      { rewrite (proj1 (proj2 (proj2 (give_rest _ _ _)))) in N1. exact N1. }
      apply nth_update_inv in N3. destruct N3 as [[-> ->]|[_ N3]]; [|eauto]. exists z. split; [exact N2|]. rewrite Q. right. exact I1.
    - injection E as <-. left. cbn [set_list set_writer Model.lists] in N1. apply nth_update_inv in N1. destruct N1 as [[-> ->]|[_ N1]]; [destruct I1|eauto].
    - injection E as <-. left. cbn [add_writer Model.lists] in N1. eauto.
  Qed.

  Lemma queued_run : forall es s, run es start = Some s -> queued s.
  Proof.
    apply (run_ind V cap (fun _ s => queued s)).
    - intros [|] x w E; discriminate.
    - intros _ s e s' _ W H E l x w N1 I1. destruct (step_lists _ _ _ _ _ _ E N1 I1) as [[x0 [Q1 Q2]]|[-> Q]].
      + destruct (H l x0 w Q1 Q2) as [c [Nc M]]. destruct (step_moved _ _ _ _ _ E Nc) as [c' [N2 [->|M2]]]; exists c' || exists c; (split; [exact N2|]); [exact M|].
        inversion M2; subst; cbn in *; auto; try (destruct M; fail).
      + destruct (step_moved _ _ _ _ _ E Q) as [c' [N2 [->|M2]]]; exists c' || eexists; (split; [exact N2|]); cbn.
        * cbn [Model.step] in E. unfold on_caller, on_list in E. rewrite Q in E. destruct (nth_error (lists s) l); [|discriminate]. destruct (_ && _); [|discriminate].
          injection E as <-. cbn in N2. rewrite (nth_update_same _ _ _ _ Q) in N2. discriminate.
        * inversion M2; subst. reflexivity.
  Qed.

  (** Who waits when an [insert] takes the list gets its value, unless it times out or is dropped before. *)
  Theorem C113_served : forall es s es' s' w l n v,
    run es start = Some s -> run (Take n :: es') s = Some s' ->
    nth_error (callers s) w = Some (Waiting l) -> current s = Some l -> nth_error (writers s) n = Some (Storing v) ->
    ~ In (Timeout w) es' -> ~ In (Cancel w) es' -> nth_error (writers s') n = Some Done ->
    nth_error (callers s') w = Some (Got v).
  Proof.
    intros es s es' s' w l n v E E' Nw C Nn NT NC ND.
    set (Q := fun s : state => nth_error (callers s) w = Some (Got v) \/ nth_error (callers s) w = Some (Waiting l) /\ nth_error (writers s) n = Some (Draining v l)).
    assert (ST : forall es s e s', run es start = Some s -> step s e = Some s' -> e <> Timeout w -> e <> Cancel w -> Q s -> Q s').
    { clear. intros es s e s' E St NT NC [G|[Nw Nn]].
      - left. destruct (step_moved _ _ _ _ _ St G) as [c' [N1 [->|M]]]; [exact N1|]. inversion M; subst; destruct H; discriminate.
      - pose proof (wf_run V cap _ _ _ (wf_start V) E) as W.
        destruct (w_held _ _ W n _ l Nn eq_refl) as [x [Nx O]].
        destruct (step_moved _ _ _ _ _ St Nw) as [c' [N1 [->|M]]].
        + right. split; [exact N1|].
          assert (Iw : In w (l_queue x)) by (eapply (w_wait _ _ W); eauto).
          destruct (nth_error (writers s') n) as [y'|] eqn:N2.
          * destruct (step_writers _ _ _ _ _ St N2) as [R|[[v' [_ [R _]]]|[[_ [R _]]|[y [R1 R2]]]]].
            -- congruence.
            -- assert (n < length (writers s)) by (apply nth_error_Some; congruence). lia.
            -- assert (n < length (writers s)) by (apply nth_error_Some; congruence). lia.
            -- rewrite Nn in R1. injection R1 as <-. destruct R2 as [[_ [v' [R _]]]|[[_ [v' [i [z [R [_ [R1 R2]]]]]]]|[[_ [i [R _]]]|[_ [R _]]]]]; try discriminate.
               injection R as <- <-. rewrite Nx in R1. injection R1 as <-. rewrite R2 in Iw. destruct Iw.
          * exfalso. apply nth_error_None in N2. assert (n < length (writers s)) by (apply nth_error_Some; congruence).
            assert (length (writers s) <= length (writers s')).
            { clear - St. destruct e as [|w|w|w|w|w|w|w|v|n|n|n| |n|]; cbn [Model.step] in St;
              try (unfold on_caller in St; destruct (nth_error (callers s) w) as [c|] eqn:N0; [|discriminate]; destruct c as [| |i|i|i|v| | |]; try discriminate);
              try (unfold on_writer in St; destruct (nth_error (writers s) n) as [y|] eqn:N0; [|discriminate]; destruct y as [v|v i|i| |]; try discriminate);
              try (injection St as <-; cbn; rewrite ?update_length, ?app_length; lia).
              - destruct (current s); injection St as <-; cbn; lia.
              - unfold on_list in St. destruct (nth_error (lists s) i) as [z|]; [|discriminate]. destruct (_ && _); [|discriminate]. injection St as <-. cbn. lia.
              - unfold on_list in St. destruct (nth_error (lists s) i) as [z|]; [|discriminate]. destruct (l_open z); [discriminate|]. injection St as <-. cbn. lia.
              - unfold on_list in St. destruct (nth_error (lists s) i) as [z|]; [|discriminate]. destruct (l_open z); [discriminate|]. injection St as <-. cbn. lia.
              - injection St as <-. cbn [set_caller Model.writers]. destruct (current s) as [k|] eqn:C; [destruct (Nat.eqb k i)|]; unfold forget; rewrite ?C; cbn; lia.
              - unfold on_list in St. destruct (nth_error (lists s) i) as [z|]; [|discriminate]. destruct (l_queue z); injection St as <-; [cbn; rewrite update_length; lia|].
                rewrite (proj2 (proj2 (proj2 (give_rest _ _ _)))). cbn. lia.
              - injection St as <-. cbn [add_writer Model.writers]. rewrite app_length. unfold forget. destruct (current s); cbn; lia. }
            lia.
        + inversion M as [| | | | |w1 c1 l1 x1 HC N3 O3|w1 c1 l1 HC| |w1 c1 l1 HC|n1 w1 v1 l1 i1 x1 q1 N3 N4 Q4]; subst.
          * destruct HC as [HC|HC]; [discriminate|]. injection HC as <-. congruence.
          * elim NT. reflexivity.
          * elim NC. reflexivity.
          * left. destruct (queued_run es s E i1 x1 w N4) as [c [Nc Mc]]; [rewrite Q4; left; reflexivity|].
            rewrite Nw in Nc. injection Nc as <-. subst i1.
            assert (n1 = n) by (eapply (w_one _ _ W); [exact N3|exact Nn|reflexivity|reflexivity]). subst n1. congruence. }
    assert (RN : forall es' es s s', run es start = Some s -> run es' s = Some s' -> ~ In (Timeout w) es' -> ~ In (Cancel w) es' -> Q s -> Q s').
    { induction es'0 as [|e es'0 IH]; cbn [Model.run]; intros es0 s0 s1 E0 E1 NT0 NC0 Q0; [injection E1 as <-; exact Q0|].
      destruct (step s0 e) as [s2|] eqn:E2; [|discriminate].
      eapply (IH (es0 ++ [e])); [|exact E1| | |].
      - rewrite run_app, E0. cbn [Model.run]. rewrite E2. reflexivity.
      - intros R. apply NT0. right. exact R.
      - intros R. apply NC0. right. exact R.
      - eapply ST; [exact E0|exact E2| | |exact Q0]; intros ->; [apply NT0|apply NC0]; left; reflexivity. }
    cbn [Model.run] in E'. destruct (step s (Take n)) as [s1|] eqn:E1; [|discriminate].
    assert (Q1 : Q s1).
    { right. cbn [Model.step] in E1. unfold on_writer in E1. rewrite Nn, C in E1. injection E1 as <-. cbn [set_current set_writer Model.callers Model.writers].
      split; [exact Nw|]. eapply nth_update_same. exact Nn. }
    assert (Q2 : Q s').
    { eapply (RN es' (es ++ [Take n])); [|exact E'|exact NT|exact NC|exact Q1]. rewrite run_app, E. cbn [Model.run]. rewrite E1. reflexivity. }
    destruct Q2 as [G|[_ G]]; [exact G|congruence].
  Qed.
End Properties.
