(** From the file and the configuration to what the reloader is told. *)
From Coq Require Import List Bool PeanoNat Lia.
From Verif.Reload Require Import Model Spec Invariant.
Import ListNotations.

Section Pipeline.
  Variable G C : Type.
  Variable c0 : C.
  Variable cap : nat.
  Variable prompt : bool.

  Notation state := (state G C).
  Notation entry := (entry G C).
  Notation event := (event G C).
  Notation step := (step G C cap prompt).
  Notation run := (run G C cap prompt).
  Notation start := (start G C c0).
  Notation latest_graph := (latest_graph G C).
  Notation latest_conf := (latest_conf G C c0).
  Arguments file {G C}. Arguments clock {G C}. Arguments poll {G C}. Arguments conf {G C}. Arguments version {G C}. Arguments seen {G C}. Arguments pass {G C}.
  Arguments queue {G C}. Arguments reload {G C}. Arguments tasks {G C}. Arguments served {G C}.
  Arguments Told {G C}. Arguments Serves {G C}. Arguments Fails {G C}. Arguments Graph {G C}. Arguments Conf {G C}.
  Arguments PStart {G}. Arguments PSend0 {G}. Arguments PFirst {G}. Arguments PIdle {G}. Arguments PSeen {G}. Arguments PSend {G}. Arguments PDead {G}.
  Arguments BDrop {C}. Arguments BWait {C}. Arguments BSend {C}.

  (** The last graph and configuration on their way. *)
  Definition way_graph (log : list entry) (s : state) : option G := latest_graph (log ++ map Told (queue s)).
  Definition way_conf (log : list entry) (s : state) : C := latest_conf (log ++ map Told (queue s)).

  Definition silent (e : entry) : Prop := match e with Told _ => False | _ => True end.

  Lemma graph_from : forall (l : list entry) a e, silent e ->
    fold_left (fun a e => match e with Told (Graph g) => Some g | _ => a end) (e :: l) a = fold_left (fun a e => match e with Told (Graph g) => Some g | _ => a end) l a.
  Proof. intros l a [u|g c|] H; [destruct H| |]; reflexivity. Qed.

  Lemma silent_graph : forall (log : list entry) e l, silent e -> latest_graph ((log ++ [e]) ++ l) = latest_graph (log ++ l).
  Proof. intros log e l H. unfold Spec.latest_graph. rewrite !fold_left_app. destruct e as [u|g c|]; [destruct H| |]; reflexivity. Qed.
  Lemma silent_conf : forall (log : list entry) e l, silent e -> latest_conf ((log ++ [e]) ++ l) = latest_conf (log ++ l).
  Proof. intros log e l H. unfold Spec.latest_conf. rewrite !fold_left_app. destruct e as [u|g c|]; [destruct H| |]; reflexivity. Qed.

  (** What a step of the reloader or of a task leaves alone. *)
  Definition inner (e : event) : bool :=
    match e with Recv _ _ | InitBuilt _ _ _ | Built _ _ _ _ | Publish _ _ _ | Drop _ _ _ => true | _ => false end.

  Lemma inner_step : forall log s e s' l, inner e = true -> step s e = Some (s', l) ->
    file s' = file s /\ clock s' = clock s /\ poll s' = poll s /\ conf s' = conf s /\ version s' = version s /\ seen s' = seen s /\ pass s' = pass s
    /\ way_graph (log ++ l) s' = way_graph log s /\ way_conf (log ++ l) s' = way_conf log s.
  Proof.
    intros log s e s' l HI E. unfold way_graph, way_conf.
    destruct e as [g| | | | |ok| |c| | | |ok|i ok|i|i]; try discriminate HI; cbn [Model.step] in E.
    - destruct (queue s) as [|u q] eqn:Q; [discriminate|]. unfold recv in E. cbn [set_queue Model.reload] in E.
      destruct (reload s) as [c|g c|g c|]; destruct u as [g'|c']; try discriminate; injection E as <- <-;
        cbn [spawn set_reload set_queue set_tasks Model.file Model.clock Model.poll Model.conf Model.version Model.seen Model.pass Model.queue map];
        rewrite <- !app_assoc; cbn [app]; auto 12.
    - destruct (reload s) as [c|g c|g c|]; try discriminate. destruct ok; injection E as <- <-; rewrite silent_graph, silent_conf; auto 12; exact Logic.I.
    - destruct (nth_error _ _) as [t|]; [|discriminate]. destruct (t_stage _ _ t); try discriminate. destruct (stopped _ _ _ t); [discriminate|].
      destruct ok; injection E as <- <-; [rewrite app_nil_r; auto 12|rewrite silent_graph, silent_conf; auto 12; exact Logic.I].
    - destruct (nth_error _ _) as [t|]; [|discriminate]. destruct (t_stage _ _ t); try discriminate. destruct (stopped _ _ _ t); [discriminate|].
      injection E as <- <-. rewrite silent_graph, silent_conf; auto 12; exact Logic.I.
    - destruct (nth_error _ _) as [t|]; [|discriminate].
      destruct (t_stage _ _ t); [destruct (t_aborted _ _ t); [|discriminate]|destruct (stopped _ _ _ t); [|discriminate]|discriminate]; injection E as <- <-; rewrite app_nil_r; auto 12.
  Qed.

  Lemma push_graph : forall log q u, latest_graph (log ++ map Told (q ++ [u])) = match u with Graph g => Some g | Conf _ => latest_graph (log ++ map Told q) end.
  Proof. intros log q u. rewrite map_app, app_assoc. cbn [map]. rewrite graph_snoc. destruct u; reflexivity. Qed.
  Lemma push_conf : forall log q u, latest_conf (log ++ map Told (q ++ [u])) = match u with Conf c => c | Graph _ => latest_conf (log ++ map Told q) end.
  Proof. intros log q u. rewrite map_app, app_assoc. cbn [map]. rewrite conf_snoc. destruct u; reflexivity. Qed.

  (** ** The file *)

  Definition sane (es : list event) : Prop := undisturbed G C es /\ ~ In (Read G C false) es.

  Definition early (p : poller G) : Prop := match p with PSend0 _ | PFirst => True | _ => False end.

  Record finv (es : list event) (log : list entry) (s : state) : Prop := {
    f_clock : match file s with Some (n, _) => n < clock s | None => True end
              /\ match poll s with PIdle (Some n) | PSeen n | PSend n _ => n < clock s | _ => True end;
    f_read : poll s <> PStart -> In (InitRead G C) es;
    f_finger : early (poll s) \/ poll s = PStart \/ poll s = PDead -> ~ In (Finger G C) es;
    f_file : sane es -> forall n g, file s = Some (n, Some g) ->
      match poll s with
      | PSend0 g' => g' = g
      | PFirst => way_graph log s = Some g
      | PIdle m => m = Some n -> way_graph log s = Some g
      | PSend n' g' => n' = n -> g' = g
      | PStart | PSeen _ | PDead => True
      end
  }.

  Lemma sane_prefix : forall es e, sane (es ++ [e]) -> sane es.
  Proof.
    intros es e [H1 H2]. split.
    - intros e1 e2 g ->. eapply (H1 e1 (e2 ++ [e])). rewrite <- app_assoc. reflexivity.
    - intros H. apply H2, in_or_app. auto.
  Qed.

  Lemma in_snoc {B} : forall (l : list B) x y, In x (l ++ [y]) <-> In x l \/ x = y.
  Proof. intros l x y. rewrite in_app_iff. cbn. intuition auto. Qed.

  Lemma finv_step : forall es log s e s' l, finv es log s -> step s e = Some (s', l) -> finv (es ++ [e]) (log ++ l) s'.
  Proof.
    intros es log s e s' l [F1 F2 F3 F4] E.
    destruct (inner e) eqn:HI.
    { destruct (inner_step log _ _ _ _ HI E) as [Q1 [Q2 [Q3 [_ [_ [_ [_ [Q4 _]]]]]]]]. constructor; rewrite ?Q1, ?Q2, ?Q3, ?Q4.
      - exact F1.
      - intros H. apply in_snoc. auto.
      - intros H K. apply in_snoc in K. destruct K as [K|K]; [exact (F3 H K)|subst e; discriminate].
      - intros H. apply F4. eapply sane_prefix; eauto. }
    destruct e as [g| | | | |ok| |c| | | |ok|i ok|i|i]; try discriminate HI; clear HI; cbn [Model.step] in E.
    - (* Write *) injection E as <- <-. rewrite app_nil_r. constructor; cbn [set_file Model.file Model.clock Model.poll].
      + split; [lia|]. destruct F1 as [_ F1]. destruct (poll s) as [| | |[n|]| | |]; auto.
      + intros H. apply in_snoc. auto.
      + intros H K. apply in_snoc in K. destruct K as [K|K]; [exact (F3 H K)|discriminate].
      + intros SN n g' Q. injection Q as <- ->. destruct F1 as [_ F1].
        assert (NE : ~ early (poll s)).
        { intros H. destruct SN as [SN _]. apply (F3 (or_introl H)). apply (SN es [] (Some g')); [reflexivity|]. apply F2. intros Q. rewrite Q in H. exact H. }
        destruct (poll s) as [|g0| |m|n0|n0 g0|]; cbn in NE; try tauto.
        * intros ->. lia.
        * intros ->. lia.
    - (* Delete *) injection E as <- <-. rewrite app_nil_r. constructor; cbn [set_file Model.file Model.clock Model.poll].
      + split; [exact Logic.I|]. destruct F1 as [_ F1]. destruct (poll s) as [| | |[n|]| | |]; auto.
      + intros H. apply in_snoc. auto.
      + intros H K. apply in_snoc in K. destruct K as [K|K]; [exact (F3 H K)|discriminate].
      + discriminate.
    - (* InitRead *) destruct (poll s) eqn:PO; try discriminate. injection E as <- <-. rewrite app_nil_r. constructor; cbn [set_poll Model.file Model.clock Model.poll].
      + split; [apply F1|]. destruct (file s) as [[n [g|]]|]; exact Logic.I.
      + intros _. apply in_snoc. auto.
      + intros _ K. apply in_snoc in K. destruct K as [K|K]; [apply (F3 (or_intror (or_introl eq_refl)) K)|discriminate].
      + intros SN n g Q. rewrite Q. reflexivity.
    - (* Finger *) destruct (poll s) eqn:PO; try discriminate. injection E as <- <-. rewrite app_nil_r. constructor; cbn [set_poll Model.file Model.clock Model.poll].
      + split; [apply F1|]. destruct (file s) as [[n g]|]; cbn; [apply F1|exact Logic.I].
      + intros _. apply in_snoc. left. apply F2. discriminate.
      + intros [[]|[H|H]]; discriminate.
      + intros SN n g Q _. exact (F4 (sane_prefix _ _ SN) n g Q).
    - (* Tick *) destruct (poll s) as [|g0| |m|n0|n0 g0|] eqn:PO; try discriminate. injection E as <- <-. rewrite app_nil_r.
      assert (KEEP : finv (es ++ [Tick G C]) log s).
      { constructor; rewrite ?PO.
        - exact F1.
        - intros _. apply in_snoc. left. apply F2. discriminate.
        - intros [[]|[H|H]]; discriminate.
        - intros SN. apply F4. eapply sane_prefix; eauto. }
      destruct (file s) as [[n z]|] eqn:FI; [|exact KEEP]. destruct (same m (Some n)); [exact KEEP|].
      constructor; cbn [set_poll Model.file Model.clock Model.poll]; rewrite ?FI.
      + split; apply F1.
      + intros _. apply in_snoc. left. apply F2. discriminate.
      + intros [[]|[H|H]]; discriminate.
      + intros; exact Logic.I.
    - (* Read *) destruct (poll s) as [|g0| |m|n0|n0 g0|] eqn:PO; try discriminate. injection E as <- <-. rewrite app_nil_r. constructor; cbn [set_poll Model.file Model.clock Model.poll].
      + split; [apply F1|]. destruct F1 as [_ F1]. destruct ok; [|exact F1]. destruct (file s) as [[n [g|]]|]; exact F1.
      + intros _. apply in_snoc. left. apply F2. discriminate.
      + intros [H|[H|H]] _; destruct ok; destruct (file s) as [[n [g|]]|]; try discriminate; exact H.
      + intros [_ NR] n g Q. destruct ok; [|elim NR; apply in_snoc; auto]. rewrite Q. reflexivity.
    - (* Push *) unfold quiet, push in E. destruct (poll s) as [|g0| |m|n0|n0 g0|] eqn:PO; try discriminate; cbn [set_poll Model.queue] in E; destruct (Nat.ltb _ _); try discriminate; injection E as <- <-; rewrite app_nil_r.
      + constructor; unfold way_graph; cbn [set_poll set_queue Model.file Model.clock Model.poll Model.queue].
        * exact F1.
        * intros _. apply in_snoc. left. apply F2. discriminate.
        * intros _ K. apply in_snoc in K. destruct K as [K|K]; [apply (F3 (or_introl Logic.I) K)|discriminate].
        * intros SN n g Q. rewrite push_graph. f_equal. exact (F4 (sane_prefix _ _ SN) n g Q).
      + constructor; unfold way_graph; cbn [set_poll set_queue Model.file Model.clock Model.poll Model.queue].
        * exact F1.
        * intros _. apply in_snoc. left. apply F2. discriminate.
        * intros [[]|[H|H]]; discriminate.
        * intros SN n g Q Z. injection Z as Z. rewrite push_graph. f_equal. exact (F4 (sane_prefix _ _ SN) n g Q Z).
    - (* Config *) injection E as <- <-. rewrite app_nil_r. constructor; cbn [set_conf Model.file Model.clock Model.poll].
      + exact F1.
      + intros H. apply in_snoc. auto.
      + intros H K. apply in_snoc in K. destruct K as [K|K]; [exact (F3 H K)|discriminate].
      + intros SN. apply F4. eapply sane_prefix; eauto.
    - (* Changed *) destruct (Nat.ltb _ _); [|discriminate].
      assert (FR : file s' = file s /\ clock s' = clock s /\ poll s' = poll s /\ queue s' = queue s /\ l = []) by (destruct (pass s); try discriminate; injection E as <- <-; auto).
      destruct FR as [Q1 [Q2 [Q3 [Q4 ->]]]]. rewrite app_nil_r. unfold way_graph in *. constructor; unfold way_graph; rewrite ?Q1, ?Q2, ?Q3, ?Q4.
      + exact F1.
      + intros H. apply in_snoc. auto.
      + intros H K. apply in_snoc in K. destruct K as [K|K]; [exact (F3 H K)|discriminate].
      + intros SN. apply F4. eapply sane_prefix; eauto.
    - (* Pass *) unfold quiet, push in E. destruct (pass s); try discriminate. cbn [set_pass Model.queue] in E. destruct (Nat.ltb _ _); try discriminate. injection E as <- <-. rewrite app_nil_r.
      unfold way_graph in *. constructor; unfold way_graph; cbn [set_pass set_queue Model.file Model.clock Model.poll Model.queue].
      + exact F1.
      + intros H. apply in_snoc. auto.
      + intros H K. apply in_snoc in K. destruct K as [K|K]; [exact (F3 H K)|discriminate].
      + intros SN. rewrite push_graph. apply F4. eapply sane_prefix; eauto.
  Qed.

  Lemma finv_run : forall es s log, run es start = Some (s, log) -> finv es log s.
  Proof.
    apply (run_ind G C c0 cap prompt finv).
    - constructor; cbn.
      + auto.
      + congruence.
      + auto.
      + discriminate.
    - intros es log s e s' l. apply finv_step.
  Qed.

  (** ** The configuration *)

  Record cinv (es : list event) (log : list entry) (s : state) : Prop := {
    c_seen : seen s <= version s;
    c_first : pass s = BDrop -> seen s = 0 /\ way_conf log s = c0 /\ ~ In (Changed G C) es;
    c_never : (forall c, ~ In (Config G C c) es) -> version s = 0 /\ conf s = c0 /\ pass s = BDrop;
    c_wait : pass s = BWait -> seen s = version s -> way_conf log s = conf s
             \/ exists e1 e2, es = e1 ++ Changed G C :: e2 /\ ~ In (Changed G C) e1 /\ ~ In (Changed G C) e2 /\ forall c, ~ In (Config G C c) e2;
    c_send : forall c, pass s = BSend c -> seen s = version s -> c = conf s
  }.

  Definition outer (e : event) : bool :=
    match e with Config _ _ _ | Changed _ _ | Pass _ _ => false | _ => true end.

  Lemma outer_step : forall log s e s' l, outer e = true -> step s e = Some (s', l) ->
    conf s' = conf s /\ version s' = version s /\ seen s' = seen s /\ pass s' = pass s /\ way_conf (log ++ l) s' = way_conf log s.
  Proof.
    intros log s e s' l HO E. destruct (inner e) eqn:HI.
    { destruct (inner_step log _ _ _ _ HI E) as [_ [_ [_ [Q1 [Q2 [Q3 [Q4 [_ Q5]]]]]]]]. auto. }
    unfold way_conf.
    destruct e as [g| | | | |ok| |c| | | |ok|i ok|i|i]; try discriminate HI; try discriminate HO; cbn [Model.step] in E.
    - injection E as <- <-. rewrite app_nil_r. auto.
    - injection E as <- <-. rewrite app_nil_r. auto.
    - destruct (poll s); try discriminate. injection E as <- <-. rewrite app_nil_r. auto.
    - destruct (poll s); try discriminate. injection E as <- <-. rewrite app_nil_r. auto.
    - destruct (poll s); try discriminate. injection E as <- <-. rewrite app_nil_r. destruct (file s) as [[n z]|]; [destruct (same _ _)|]; auto.
    - destruct (poll s); try discriminate. injection E as <- <-. rewrite app_nil_r. auto.
    - unfold quiet, push in E. destruct (poll s); try discriminate; cbn [set_poll Model.queue] in E; destruct (Nat.ltb _ _); try discriminate; injection E as <- <-; rewrite app_nil_r;
        cbn [set_poll set_queue Model.conf Model.version Model.seen Model.pass Model.queue]; rewrite push_conf; auto.
  Qed.

  Lemma cinv_step : forall es log s e s' l, cinv es log s -> step s e = Some (s', l) -> cinv (es ++ [e]) (log ++ l) s'.
  Proof.
    intros es log s e s' l [C1 C2 C3 C4 C5] E.
    destruct (outer e) eqn:HO.
    { destruct (outer_step log _ _ _ _ HO E) as [Q1 [Q2 [Q3 [Q4 Q5]]]]. constructor; rewrite ?Q1, ?Q2, ?Q3, ?Q4, ?Q5.
      - exact C1.
      - intros H. destruct (C2 H) as [H1 [H2 H3]]. split; [exact H1|]. split; [exact H2|]. intros K. apply in_snoc in K. destruct K as [K|K]; [exact (H3 K)|subst e; discriminate].
      - intros H. apply C3. intros c K. apply (H c), in_snoc. auto.
      - intros H1 H2. destruct (C4 H1 H2) as [H|[e1 [e2 [-> [H3 [H4 H5]]]]]]; [auto|]. right. exists e1, (e2 ++ [e]). split; [rewrite <- app_assoc; reflexivity|]. split; [exact H3|].
        split; [intros K|intros c K]; apply in_snoc in K; destruct K as [K|K]; try (subst e; discriminate); [exact (H4 K)|exact (H5 c K)].
      - exact C5. }
    destruct e as [g| | | | |ok| |c| | | |ok|i ok|i|i]; try discriminate HO; cbn [Model.step] in E.
    - injection E as <- <-. rewrite app_nil_r. constructor; cbn [set_conf Model.conf Model.version Model.seen Model.pass].
      + lia.
      + intros H. destruct (C2 H) as [H1 [H2 H3]]. split; [exact H1|]. split; [exact H2|]. intros K. apply in_snoc in K. destruct K as [K|K]; [exact (H3 K)|discriminate].
      + intros H. elim (H c). apply in_snoc. auto.
      + intros _ H. lia.
      + intros c' _ H. lia.
    - destruct (Nat.ltb (seen s) (version s)) eqn:LT; [|discriminate]. apply Nat.ltb_lt in LT.
      assert (NV : (forall c, ~ In (Config G C c) (es ++ [Changed G C])) -> False).
      { intros H. destruct C3 as [H1 _]; [|lia]. intros c K. apply (H c), in_snoc. auto. }
      destruct (pass s) as [| |c] eqn:PA; try discriminate; injection E as <- <-; rewrite app_nil_r; (constructor; cbn [set_pass Model.conf Model.version Model.seen Model.pass]).
      + lia.
      + discriminate.
      + intros H. elim (NV H).
      + intros _ _. right. exists es, []. split; [reflexivity|]. split; [apply C2; reflexivity|]. cbn. auto.
      + discriminate.
      + lia.
      + discriminate.
      + intros H. elim (NV H).
      + discriminate.
      + intros c Q _. injection Q as <-. reflexivity.
    - unfold quiet, push in E. destruct (pass s) as [| |c] eqn:PA; try discriminate. cbn [set_pass Model.queue] in E. destruct (Nat.ltb _ _); [|discriminate]. injection E as <- <-. rewrite app_nil_r.
      constructor; unfold way_conf; cbn [set_pass set_queue Model.conf Model.version Model.seen Model.pass Model.queue].
      + exact C1.
      + discriminate.
      + intros H. destruct C3 as [_ [_ H1]]; [|discriminate]. intros c' K. apply (H c'), in_snoc. auto.
      + intros _ H. left. rewrite push_conf. apply (C5 c eq_refl H).
      + discriminate.
  Qed.

  Lemma cinv_run : forall es s log, run es start = Some (s, log) -> cinv es log s.
  Proof.
    apply (run_ind G C c0 cap prompt cinv).
    - constructor; cbn; auto; discriminate.
    - intros es log s e s' l. apply cinv_step.
  Qed.
End Pipeline.
