(** C115: what the gateway serves when the schema file and the configuration change. *)
From Coq Require Import List Bool PeanoNat Lia.
From Verif.Reload Require Import Model Spec Invariant Pipeline.
Import ListNotations.

Section Properties.
  Variable G C : Type.
  Variable c0 : C.
  Variable cap : nat.

  Notation run prompt := (run G C cap prompt).
  Notation start := (start G C c0).
  Notation latest_graph := (latest_graph G C).
  Notation latest_conf := (latest_conf G C c0).

  (** Whatever is served is a schema together with the configuration that was current with it: never the schema of one
      moment with the configuration of another. *)
  Theorem C115_pairs : forall prompt es s log l1 g c l2, run prompt es start = Some (s, log) -> log = l1 ++ Serves G C g c :: l2 ->
    exists l0 l0', l1 = l0 ++ l0' /\ latest_graph l0 = Some g /\ latest_conf l0 = c.
  Proof.
    intros prompt es s log l1 g c l2 E Q. destruct (i_log _ _ _ _ _ _ (inv_run _ _ _ _ _ _ _ _ E) _ _ _ _ Q) as [l0 [l0' [H1 [H2 [H3 _]]]]]. eauto.
  Qed.

  (** If aborted tasks stop at once, whatever is served is the last the reloader was told. *)
  Theorem C115_current : forall es s log l1 g c l2, run true es start = Some (s, log) -> log = l1 ++ Serves G C g c :: l2 ->
    latest_graph l1 = Some g /\ latest_conf l1 = c.
  Proof.
    intros es s log l1 g c l2 E Q. destruct (i_log _ _ _ _ _ _ (inv_run _ _ _ _ _ _ _ _ E) _ _ _ _ Q) as [l0 [l0' [_ [_ [_ H]]]]]. auto.
  Qed.

  Lemma put_length : forall i (x : task G C) l, length (put G C i x l) = length l.
  Proof. induction i as [|i IH]; intros x [|y l]; cbn; auto. Qed.
  Lemma put_nth : forall i (x : task G C) l j t, nth_error (put G C i x l) j = Some t -> (j = i /\ t = x) \/ nth_error l j = Some t.
  Proof.
    induction i as [|i IH]; intros x [|y l] [|j] t H; cbn in *; try discriminate; auto.
    - injection H as <-. auto.
    - destruct (IH _ _ _ _ H) as [[-> ->]|H']; auto.
  Qed.

  Definition lasts (ts : list (task G C)) : Prop := forall i t, nth_error ts i = Some t -> live G C t -> S i = length ts.

  Lemma lasts_put : forall ts i t x, lasts ts -> nth_error ts i = Some t -> (live G C x -> live G C t) -> lasts (put G C i x ts).
  Proof.
    intros ts i t x L E H j t' E' L'. rewrite put_length. apply put_nth in E'. destruct E' as [[-> ->]|E']; [exact (L i t E (H L'))|exact (L j t' E' L')].
  Qed.

  Lemma lasts_spawn : forall ts x, lasts (map (abort G C) ts ++ [x]).
  Proof.
    intros ts x i t E [_ L]. rewrite app_length, map_length. cbn [length]. destruct (Nat.lt_ge_cases i (length ts)) as [H|H].
    - rewrite nth_error_app1 in E by (rewrite map_length; exact H). apply nth_error_In in E. apply abort_in in E. destruct E as [t0 [_ [_ [_ [_ E]]]]]. congruence.
    - assert (i < length (map (abort G C) ts ++ [x])) by (apply nth_error_Some; congruence). rewrite app_length, map_length in H0. cbn in H0. lia.
  Qed.

  Lemma lasts_run : forall prompt es s log, run prompt es start = Some (s, log) -> lasts (tasks G C s).
  Proof.
    intros prompt. apply (run_ind G C c0 cap prompt (fun _ _ s => lasts (tasks G C s))); [intros [|i] t H; discriminate|].
    intros es log s e s' l L E. destruct e as [g| | | | |ok| |c| | | |ok|i ok|i|i]; cbn [step] in E.
    - injection E as <- <-. exact L.
    - injection E as <- <-. exact L.
    - destruct (poll _ _ s); try discriminate. injection E as <- <-. exact L.
    - destruct (poll _ _ s); try discriminate. injection E as <- <-. exact L.
    - destruct (poll _ _ s); try discriminate. injection E as <- <-. destruct (file _ _ s) as [[n z]|]; [destruct (same _ _)|]; exact L.
    - destruct (poll _ _ s); try discriminate. injection E as <- <-. exact L.
    - unfold quiet, push in E. destruct (poll _ _ s); try discriminate; destruct (Nat.ltb _ _); try discriminate; injection E as <- <-; exact L.
    - injection E as <- <-. exact L.
    - destruct (Nat.ltb _ _); [|discriminate]. destruct (pass _ _ s); try discriminate; injection E as <- <-; exact L.
    - unfold quiet, push in E. destruct (pass _ _ s); try discriminate; destruct (Nat.ltb _ _); try discriminate; injection E as <- <-; exact L.
    - destruct (queue _ _ s) as [|u q]; [discriminate|]. unfold recv in E. destruct (reload _ _ _); destruct u; try discriminate; injection E as <- <-; try exact L; apply lasts_spawn.
    - destruct (reload _ _ s); try discriminate. destruct ok; injection E as <- <-; exact L.
    - destruct (nth_error _ _) as [t|] eqn:NT; [|discriminate]. destruct (t_stage _ _ t) eqn:ST; try discriminate. destruct (stopped _ _ _ t); [discriminate|].
      destruct ok; injection E as <- <-; (eapply lasts_put; [exact L|exact NT|]); intros [H1 H2]; (split; [congruence|exact H2]).
    - destruct (nth_error _ _) as [t|] eqn:NT; [|discriminate]. destruct (t_stage _ _ t) eqn:ST; try discriminate. destruct (stopped _ _ _ t); [discriminate|].
      injection E as <- <-. eapply lasts_put; [exact L|exact NT|]. intros [H1 H2]. split; [congruence|exact H2].
    - destruct (nth_error _ _) as [t|] eqn:NT; [|discriminate].
      destruct (t_stage _ _ t) eqn:ST; [destruct (t_aborted _ _ t); [|discriminate]|destruct (stopped _ _ _ t); [|discriminate]|discriminate]; injection E as <- <-;
        (eapply lasts_put; [exact L|exact NT|]); intros [H1 H2]; (split; [congruence|exact H2]).
  Qed.

  (** At most one engine is built that wasn't given up, and it is for the last the reloader was told. *)
  Theorem C115_single : forall prompt es s log i t, run prompt es start = Some (s, log) -> nth_error (tasks G C s) i = Some t ->
    t_stage G C t <> Over -> t_aborted G C t = false ->
    latest_graph log = Some (t_graph G C t) /\ latest_conf log = t_conf G C t
    /\ forall j t', nth_error (tasks G C s) j = Some t' -> t_stage G C t' <> Over -> t_aborted G C t' = false -> i = j.
  Proof.
    intros prompt es s log i t E N1 S1 A1. pose proof (inv_run _ _ _ _ _ _ _ _ E) as IV.
    pose proof (i_live _ _ _ _ _ _ IV t (nth_error_In _ _ N1) (conj S1 A1)) as R1. pose proof (i_rel _ _ _ _ _ _ IV) as R. rewrite R1 in R. destruct R as [R2 R3].
    split; [exact R2|]. split; [exact R3|]. intros j t' N2 S2 A2. pose proof (lasts_run _ _ _ _ E) as L.
    pose proof (L i t N1 (conj S1 A1)). pose proof (L j t' N2 (conj S2 A2)). lia.
  Qed.

  (** When nothing is on its way and no engine failed to be built, what is served is the last the reloader was told. *)
  Theorem C115_settled : forall es s log g c, run true es start = Some (s, log) -> ~ In (Fails G C) log ->
    (forall t, In t (tasks G C s) -> t_stage G C t = Over) -> reload G C s = RLoop G C g c ->
    served G C s = Some (g, c) /\ latest_graph log = Some g /\ latest_conf log = c.
  Proof.
    intros es s log g c E NF TS R. pose proof (inv_run _ _ _ _ _ _ _ _ E) as IV. pose proof (i_rel _ _ _ _ _ _ IV) as R1. rewrite R in R1. split; [|exact R1].
    destruct (i_served _ _ _ _ _ _ IV eq_refl NF g c R) as [H|[t [H [L _]]]]; [exact H|]. elim L. apply TS, H.
  Qed.

  (** Once everything is calm, the schema of the file is served. *)
  Theorem C115_file : forall es s log n g, run true es start = Some (s, log) -> ~ In (Fails G C) log -> calm G C s ->
    undisturbed G C es -> ~ In (Read G C false) es -> file G C s = Some (n, Some g) ->
    option_map fst (served G C s) = Some g.
  Proof.
    intros es s log n g E NF [K1 K2 K3 K4 [g' [c' K5]]] U NR F. destruct (C115_settled _ _ _ _ _ E NF K4 K5) as [-> [H _]]. cbn.
    pose proof (f_file _ _ _ _ _ (finv_run _ _ _ _ _ _ _ _ E) (conj U NR) n g F) as H1. rewrite K1, F in H1. specialize (H1 eq_refl). unfold way_graph in H1. rewrite K3 in H1.
    cbn [map] in H1. rewrite app_nil_r in H1. congruence.
  Qed.

  (** Once everything is calm, the configuration is served, if it changed after a change was noticed. *)
  Theorem C115_config : forall es s log, run true es start = Some (s, log) -> ~ In (Fails G C) log -> calm G C s -> noticed G C es ->
    option_map snd (served G C s) = Some (conf G C s).
  Proof.
    intros es s log E NF [K1 [K2 K2'] K3 K4 [g' [c' K5]]] NO. destruct (C115_settled _ _ _ _ _ E NF K4 K5) as [-> [_ H]]. cbn. f_equal.
    pose proof (cinv_run _ _ _ _ _ _ _ _ E) as [I1 I2 I3 I4 I5]. unfold way_conf in *. rewrite K3 in *. cbn [map] in *. rewrite app_nil_r in *.
    destruct NO as [NO|[e1 [e2 [c [-> NO]]]]].
    - destruct (I3 NO) as [_ [Q1 Q2]]. destruct (I2 Q2) as [_ [Q3 _]]. congruence.
    - destruct (pass G C s) as [| |c1] eqn:PA.
      + destruct (I2 eq_refl) as [_ [_ Q]]. elim Q. apply in_or_app. right. left. reflexivity.
      + destruct (I4 eq_refl K2) as [Q|[a1 [a2 [Q [N1 [N2 N3]]]]]]; [congruence|]. exfalso.
        assert (SP : forall (a b x y : list (event G C)) k, ~ In k a -> ~ In k b -> x ++ k :: y = a ++ k :: b -> y = b).
        { clear. induction a as [|z a IH]; intros b x y k NA NB Q; destruct x as [|w x]; cbn in Q.
          - injection Q as ->. reflexivity.
          - injection Q as -> Q. elim NB. rewrite <- Q. apply in_or_app. right. left. reflexivity.
          - injection Q as -> Q. elim NA. left. reflexivity.
          - injection Q as -> Q. eapply IH; [|exact NB|exact Q]. intros K. apply NA. right. exact K. }
        pose proof (SP _ _ _ _ _ N1 N2 Q) as ->. exact (N3 c NO).
      + elim (K2' c1). reflexivity.
  Qed.
End Properties.
