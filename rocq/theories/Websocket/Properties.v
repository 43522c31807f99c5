(** C81: a websocket connection of a client. *)
From Coq Require Import List Bool Arith NArith Lia.
From Verif.Websocket Require Import Model Spec Proofs.
Import ListNotations.
Local Open Scope nat_scope.
Local Open Scope list_scope.

Lemma run_snoc : forall l i, run (l ++ [i]) = step (run l) i.
Proof. intros l i. unfold run. rewrite fold_left_app. reflexivity. Qed.

(** What one input sends to the client. *)
Lemma out_finish : forall s, s_out (finish s) = s_out s. Proof. reflexivity. Qed.
Lemma out_answer : forall m s, s_out (answer m s) = s_out s.
Proof. intros m s. unfold answer. destruct (s_pump s); [| reflexivity]. destruct (room s); [| reflexivity]. destruct m; reflexivity. Qed.
Lemma out_handle : forall e s, s_out (handle e s) = s_out s.
Proof. intros [| i r | i | |] s; cbn [handle]; try apply out_answer; [| | reflexivity]; destruct (find_sub i (s_subs s)); try reflexivity. apply out_answer. Qed.
Lemma out_task : forall k m st s, s_out (task_sends k m st s) = s_out s.
Proof. intros k m st s. unfold task_sends. destruct (nth_error (s_tasks s) k) as [t |]; [| reflexivity]. destruct (t_status t); try reflexivity; destruct (s_pump s); try reflexivity; destruct (room s); reflexivity. Qed.
Lemma step_out : forall s i, s_out (step s i) = s_out s \/
  exists m, s_out (step s i) = s_out s ++ [m] /\
    (In m (s_queue s) \/ (s_phase s = Waiting \/ s_phase s = Creating) /\ (m = (None, MPing) \/ exists c, m = (None, MClose c)) \/ m = (None, MAck) /\ i = Session true true /\ s_phase s = Creating).
Proof.
  intros s i. destruct i as [m sent | ok sent | | k r | k | k | ok |]; cbn [step].
  - unfold receive. destruct (s_phase s) as [| | [b |] |] eqn:Hph; destruct m as [[e |] | | | |]; try (left; reflexivity).
    + destruct e as [| i r | i | |]; cbn [accept]; try (left; reflexivity); destruct sent; try (left; reflexivity).
      * right. exists (None, MClose 4401). split; [reflexivity |]. right. left. split; [left; reflexivity | right; exists 4401%N; reflexivity].
      * right. exists (None, MPing). split; [reflexivity |]. right. left. split; [left; reflexivity | left; reflexivity].
    + left. rewrite out_handle. reflexivity.
  - destruct (s_phase s) eqn:Hph; try (left; reflexivity). destruct ok, sent; try (left; reflexivity).
    + right. exists (None, MAck). split; [reflexivity |]. right. right. split; [reflexivity | split; reflexivity].
    + right. exists (None, MClose 4403). split; [reflexivity |]. right. left. split; [right; reflexivity | right; exists 4403%N; reflexivity].
  - destruct (s_phase s) eqn:Hph; try (left; reflexivity); right; exists (None, MClose 4408); (split; [reflexivity |]); right; left; split; [left; reflexivity | right; exists 4408%N; reflexivity | right; reflexivity | right; exists 4408%N; reflexivity].
  - left. apply out_task.
  - left. apply out_task.
  - left. destruct (nth_error (s_tasks s) k) as [t |]; [| reflexivity]. destruct (t_status t); reflexivity.
  - destruct (s_pump s); [| left; reflexivity]. destruct (s_queue s) as [| m q] eqn:Eq; [left; reflexivity |]. destruct (ok && negb (closed s)); [| left; reflexivity].
    right. exists m. split; [reflexivity |]. left. left. reflexivity.
  - left. destruct (s_phase s) as [| | [m |] |]; try reflexivity. apply out_answer.
Qed.
Lemma not_creating : forall s i, s_phase s <> Creating -> s_phase (step s i) = Creating -> exists b, i = Receive (Text (Some Init)) b.
Proof.
  intros s i H1 H2. assert (A : forall m s, s_phase (answer m s) <> Creating).
  { intros m0 s0. unfold answer. destruct (s_pump s0); [| discriminate]. destruct (room s0); [| discriminate]. destruct m0; discriminate. }
  destruct i as [m sent | ok sent | | k r | k | k | ok |]; cbn [step] in H2.
  - unfold receive in H2. destruct (s_phase s) as [| | [b |] |] eqn:Hph; destruct m as [[e |] | | | |]; cbn in H2; try discriminate; try congruence.
    + destruct e as [| i r | i | |]; cbn [accept] in H2; try congruence; [exists sent; reflexivity | destruct sent; discriminate | destruct sent; [cbn [write s_phase] in H2; congruence | discriminate]].
    + exfalso. destruct e as [| i r | i | |]; cbn [handle] in H2.
      * exact (A _ _ H2).
      * destruct (find_sub i (s_subs (hear (Subscribe i r) s))); [exact (A _ _ H2) |]. cbn in H2. congruence.
      * destruct (find_sub i (s_subs (hear (Complete i) s))); cbn in H2; congruence.
      * exact (A _ _ H2).
      * cbn in H2. congruence.
  - destruct (s_phase s) eqn:Hph; try congruence.
  - destruct (s_phase s) eqn:Hph; try congruence; discriminate.
  - exfalso. unfold task_sends in H2. destruct (nth_error (s_tasks s) k) as [t |]; [| congruence]. destruct (t_status t), (s_pump s), (room s); cbn in H2; congruence.
  - exfalso. unfold task_sends in H2. destruct (nth_error (s_tasks s) k) as [t |]; [| congruence]. destruct (t_status t), (s_pump s), (room s); cbn in H2; congruence.
  - exfalso. destruct (nth_error (s_tasks s) k) as [t |]; [| congruence]. destruct (t_status t); cbn in H2; congruence.
  - exfalso. destruct (s_pump s); [| congruence]. destruct (s_queue s); [congruence |]. destruct (ok && negb (closed s)); cbn in H2; congruence.
  - exfalso. destruct (s_phase s) as [| | [m |] |] eqn:Hph; congruence.
Qed.
Lemma creating_init : forall l, s_phase (run l) = Creating -> exists a b c, l = a ++ Receive (Text (Some Init)) b :: c.
Proof.
  induction l as [| i l IH] using rev_ind; intro H; [discriminate |]. rewrite run_snoc in H.
  destruct (s_phase (run l)) eqn:Hph.
  - destruct (not_creating (run l) i) as [b ->]; [congruence | exact H |]. exists l, b, []. reflexivity.
  - destruct (IH eq_refl) as (a & b & c & ->). exists a, b, (c ++ [i]). rewrite <- app_assoc. reflexivity.
  - destruct (not_creating (run l) i) as [b ->]; [congruence | exact H |]. exists l, b, []. reflexivity.
  - destruct (not_creating (run l) i) as [b ->]; [congruence | exact H |]. exists l, b, []. reflexivity.
Qed.
Lemma queue_ack : forall s t, Inv s -> ~ In (t, MAck) (s_queue s).
Proof.
  intros s t V H. destruct t as [k |].
  - assert (X : k < List.length (s_tasks s)) by (apply (v_tags _ V k MAck), in_or_app; right; exact H).
    destruct (nth_error (s_tasks s) k) as [t |] eqn:Et; [| apply nth_error_None in Et; lia]. assert (Hs := v_handed _ V _ _ Et). unfold handed in Hs.
    destruct (s_pump s) eqn:Ep; [| rewrite (v_empty _ V Ep) in H; destruct H].
    assert (In MAck (t_sent t)) as Hi. { rewrite <- Hs. apply in_or_app. right. unfold of_task. apply in_map_iff. exists (Some k, MAck). split; [reflexivity |]. apply filter_In. split; [exact H | apply Nat.eqb_refl]. }
    destruct (v_shape _ V _ (nth_error_In _ _ Et)) as (rs & e & E & H'). rewrite E in Hi. apply in_app_or in Hi as [Hi | Hi]; [apply in_map_iff in Hi as ([r | r] & Hi & _); discriminate |]. destruct H' as [-> | [-> _]]; [destruct Hi | destruct Hi as [Hi | []]; discriminate].
  - destruct (v_own _ V _ H) as [C | C]; [discriminate | destruct C].
Qed.
Lemma ack_session : forall l t, In (t, MAck) (s_out (run l)) -> exists a b c d, l = a ++ Receive (Text (Some Init)) b :: c ++ Session true true :: d.
Proof.
  induction l as [| i l IH] using rev_ind; intros t H; [destruct H |]. rewrite run_snoc in H.
  assert (K : In (t, MAck) (s_out (run l)) -> exists a b c d, l ++ [i] = a ++ Receive (Text (Some Init)) b :: c ++ Session true true :: d).
  { intro X. destruct (IH _ X) as (a & b & c & d & ->). exists a, b, c, (d ++ [i]). rewrite <- !app_assoc. cbn [app]. rewrite <- app_assoc. reflexivity. }
  destruct (step_out (run l) i) as [E | (m & E & Hm)]; rewrite E in H; [exact (K H) |]. apply in_app_or in H as [H | [-> | []]]; [exact (K H) |].
  destruct Hm as [Hm | [[_ [Hm | (c & Hm)]] | (_ & -> & Hc)]]; [destruct (queue_ack _ _ (run_inv l) Hm) | discriminate | discriminate |].
  destruct (creating_init _ Hc) as (a & b & c & ->). exists a, b, c, []. rewrite <- app_assoc. reflexivity.
Qed.

(** Operations and their answers come after the acknowledgement, which is given once, for a session that was created
    after an initialisation. *)
Theorem C81_ack : forall inputs, let s := run inputs in
  (forall a t m b, s_out s = a ++ (t, m) :: b -> m = MPing \/ is_close m \/ (exists a1 a2, a ++ [(t, m)] = a1 ++ (None, MAck) :: a2 /\ (forall x, In x a1 -> x = (None, MPing)))) /\
  (s_executed s <> [] -> In (None, MAck) (s_out s)) /\
  (forall t, In (t, MAck) (s_out s) -> exists a b c d, inputs = a ++ Receive (Text (Some Init)) b :: c ++ Session true true :: d) /\
  (forall a t b, s_out s = a ++ (t, MAck) :: b -> forall t', ~ In (t', MAck) (a ++ b)).
Proof.
  intros inputs s. assert (V := run_inv inputs). fold s in V.
  assert (P : acked (s_out s) \/ pings (s_out s) \/ exists a c, s_out s = a ++ [(None, MClose c)] /\ pings a).
  { assert (X := v_phase _ V). destruct (s_phase s); [right; left; apply X | right; left; apply X | left; exact X |]. destruct X as [X | (_ & _ & _ & X)]; [left; exact X | right; exact X]. }
  assert (Q : forall l t m, pings l -> In (t, m) l -> m = MPing) by (intros l t m H1 H2; unfold pings in H1; rewrite Forall_forall in H1; specialize (H1 _ H2); congruence).
  split; [| split; [| split]].
  - intros a t m b E. destruct P as [(a' & c' & E' & Hp & _) | [P | (a' & c & E' & P)]].
    + rewrite E' in E. clear E'. revert a E. induction a' as [| x a' IH]; intros a E.
      * destruct a as [| y a]; [injection E as <- <- _; right; right; exists [], []; split; [reflexivity | intros x []] |]. injection E as <- _. right. right. exists [], (a ++ [(t, m)]). split; [reflexivity | intros x []].
      * inversion Hp as [| ? ? Hx Hp']; subst x. destruct a as [| y a].
        -- injection E as <- <- _. left. reflexivity.
        -- injection E as <- E. destruct (IH Hp' a E) as [Hz | [Hz | (a1 & a2 & Z1 & Z2)]]; [left; exact Hz | right; left; exact Hz |]. right. right. exists ((None, MPing) :: a1), a2. split; [cbn [app]; rewrite Z1; reflexivity |]. intros x [<- | Hz]; [reflexivity | exact (Z2 _ Hz)].
    + left. apply (Q (s_out s) t); [exact P |]. rewrite E. apply in_or_app. right. left. reflexivity.
    + rewrite E' in E. apply snoc_split in E as [(_ & _ & E) | (b' & _ & E)]; [injection E as <- <-; right; left; exact Logic.I |]. left. apply (Q a' t); [exact P |]. rewrite E. apply in_or_app. right. left. reflexivity.
  - intros H. destruct (v_acked_tasks _ V) as (a & c & E & _); [| rewrite E; apply in_or_app; right; left; reflexivity]. intro C. assert (X := v_ids _ V). rewrite C in X. destruct (s_executed s); [contradiction | discriminate].
  - intros t. apply ack_session.
  - intros a t b E t' H. destruct P as [(a' & c' & E' & Hp & Hn) | [P | (a' & c & E' & P)]].
    + assert (X : a' = a /\ c' = b).
      { rewrite E' in E. clear E' H. revert a E. induction a' as [| x a' IH]; intros [| y a] E.
        - injection E as _ ->. split; reflexivity.
        - injection E as <- E. destruct (Hn t). rewrite E. apply in_or_app. right. left. reflexivity.
        - injection E as -> _. inversion Hp. discriminate.
        - injection E as <- E. inversion Hp. destruct (IH ltac:(assumption) a E) as [-> ->]. split; reflexivity. }
      destruct X as [-> ->]. apply in_app_or in H as [H | H]; [specialize (Q _ _ _ Hp H); discriminate | exact (Hn _ H)].
    + assert (X : In (t, MAck) (s_out s)) by (rewrite E; apply in_or_app; right; left; reflexivity). specialize (Q _ _ _ P X). discriminate.
    + rewrite E' in E. assert (X : In (t, MAck) (a' ++ [(None, MClose c)])) by (rewrite E; apply in_or_app; right; left; reflexivity). apply in_app_or in X as [X | [X | []]]; [specialize (Q _ _ _ P X); discriminate | discriminate].
Qed.

(** What is sent of an operation: its responses in order, and at their end one completion; nothing of it is lost or
    repeated while messages can be sent. *)
Theorem C81_streams : forall inputs k t, let s := run inputs in nth_error (s_tasks s) k = Some t ->
  (exists rs e, t_sent t = map (message_of (t_id t)) rs ++ e /\ (e = [] \/ e = [MComplete (t_id t)] /\ t_status t = Over)) /\
  prefix (of_task k (s_out s)) (t_sent t) /\
  (s_pump s = true -> of_task k (s_out s ++ s_queue s) = t_sent t) /\
  (forall r, t_status t <> Over -> s_pump s = true -> List.length (s_queue s) < 16 ->
    exists t', nth_error (s_tasks (step s (Yield k r))) k = Some t' /\ t_sent t' = t_sent t ++ [message_of (t_id t) r]) /\
  (t_status t <> Over -> s_pump s = true -> List.length (s_queue s) < 16 ->
    exists t', nth_error (s_tasks (step s (Finish k))) k = Some t' /\ t_sent t' = t_sent t ++ [MComplete (t_id t)]).
Proof.
  intros inputs k t s Ht. assert (V := run_inv inputs). fold s in V. assert (Hh := v_handed _ V _ _ Ht).
  split; [exact (v_shape _ V _ (nth_error_In _ _ Ht)) |]. split; [| split; [| split]].
  - unfold handed in Hh. destruct (s_pump s); [| exact Hh]. exists (of_task k (s_queue s)). symmetry. exact Hh.
  - intros E. unfold handed in Hh. rewrite E in Hh. rewrite of_task_app. exact Hh.
  - intros r H1 H2 H3. cbn [step]. unfold task_sends. rewrite Ht, H2. unfold room. rewrite (proj2 (Nat.ltb_lt _ _) H3). exists (add_sent (message_of (t_id t) r) (t_status t) t). split; [| reflexivity].
    destruct (t_status t); [| | contradiction]; cbn [enqueue with_tasks s_tasks]; rewrite nth_update, Nat.eqb_refl, Ht; reflexivity.
  - intros H1 H2 H3. cbn [step]. unfold task_sends. rewrite Ht, H2. unfold room. rewrite (proj2 (Nat.ltb_lt _ _) H3). exists (add_sent (MComplete (t_id t)) Over t). split; [| reflexivity].
    destruct (t_status t); [| | contradiction]; cbn [enqueue with_tasks s_tasks]; rewrite nth_update, Nat.eqb_refl, Ht; reflexivity.
Qed.

(** At most one operation of an id runs at a time. *)
Theorem C81_ids : forall inputs k k' t t', let s := run inputs in
  nth_error (s_tasks s) k = Some t -> nth_error (s_tasks s) k' = Some t' -> t_status t = Running -> t_status t' = Running -> t_id t = t_id t' -> k = k'.
Proof.
  intros inputs k k' t t' s H1 H2 R1 R2 E. assert (V := run_inv inputs). fold s in V.
  assert (I1 := v_run _ V _ _ H1 R1). assert (I2 := v_run _ V _ _ H2 R2). rewrite <- E in I2.
  assert (N := v_nodup _ V). revert N I1 I2. generalize (s_subs s) as l. induction l as [| [i j] l IH]; intros N I1 I2; [destruct I1 |].
  cbn [map fst] in N. inversion N as [| ? ? Hn N']; subst. destruct I1 as [I1 | I1], I2 as [I2 | I2].
  - congruence.
  - injection I1 as -> ->. destruct Hn. apply (in_map fst) in I2. exact I2.
  - injection I2 as -> ->. destruct Hn. apply (in_map fst) in I1. exact I1.
  - exact (IH N' I1 I2).
Qed.

Lemma step_heard : forall s i, s_heard (step s i) = s_heard s ++
  match s_phase s, i with Open None, Receive (Text (Some e)) _ => [e] | _, _ => [] end.
Proof.
  assert (A : forall m s, s_heard (answer m s) = s_heard s).
  { intros m0 s0. unfold answer. destruct (s_pump s0); [| reflexivity]. destruct (room s0); [| reflexivity]. destruct m0; reflexivity. }
  assert (T : forall k m st s, s_heard (task_sends k m st s) = s_heard s).
  { intros k m st s. unfold task_sends. destruct (nth_error (s_tasks s) k) as [t |]; [| reflexivity]. destruct (t_status t), (s_pump s), (room s); reflexivity. }
  intros s i. destruct i as [m sent | ok sent | | k r | k | k | ok |]; cbn [step].
  - unfold receive. destruct (s_phase s) as [| | [b |] |] eqn:Hph; destruct m as [[e |] | | | |]; cbn; rewrite ?app_nil_r; try reflexivity.
    + destruct e; cbn [accept]; try reflexivity; destruct sent; reflexivity.
    + destruct e as [| i r | i | |]; cbn [handle]; try (rewrite A; reflexivity); try reflexivity.
      * destruct (find_sub i (s_subs (hear (Subscribe i r) s))); [rewrite A; reflexivity | reflexivity].
      * destruct (find_sub i (s_subs (hear (Complete i) s))); reflexivity.
  - destruct (s_phase s) as [| | [b |] |]; rewrite app_nil_r; try reflexivity. destruct ok, sent; reflexivity.
  - destruct (s_phase s) as [| | [b |] |]; rewrite app_nil_r; reflexivity.
  - rewrite T. destruct (s_phase s) as [| | [b |] |]; rewrite app_nil_r; reflexivity.
  - rewrite T. destruct (s_phase s) as [| | [b |] |]; rewrite app_nil_r; reflexivity.
  - destruct (s_phase s) as [| | [b |] |]; rewrite app_nil_r; (destruct (nth_error (s_tasks s) k) as [t |]; [| reflexivity]; destruct (t_status t); reflexivity).
  - destruct (s_phase s) as [| | [b |] |]; rewrite app_nil_r; (destruct (s_pump s); [| reflexivity]; destruct (s_queue s); [reflexivity |]; destruct (ok && negb (closed s)); reflexivity).
  - destruct (s_phase s) as [| | [b |] |]; rewrite app_nil_r; try reflexivity. apply A.
Qed.

(** The operations that are executed: those of the subscribe events whose id the client has not subscribed already, or
    has completed since.  Another closes the connection, as soon as there's room for the message, with 4409; so does a
    second initialisation with 4429. *)
Theorem C81_executed : forall inputs, let s := run inputs in
  s_executed s = operations [] (s_heard s) /\
  map fst (s_executed s) = map t_id (s_tasks s) /\
  (forall i, s_heard (step s i) = s_heard s ++ match s_phase s, i with Open None, Receive (Text (Some e)) _ => [e] | _, _ => [] end) /\
  (forall e sent, s_phase s = Open None -> match e with Subscribe i _ => in_use i (s_heard s) = true | Init => True | _ => False end ->
    s_phase (step s (Receive (Text (Some e)) sent)) = Ended \/
    exists c, s_phase (step s (Receive (Text (Some e)) sent)) = Open (Some (MClose c)) /\ c = match e with Init => 4429%N | _ => 4409%N end) /\
  (forall e sent, s_phase s = Open None -> s_pump s = true -> List.length (s_queue s) < 16 ->
    match e with Subscribe i _ => in_use i (s_heard s) = true | Init => True | _ => False end ->
    s_queue (step s (Receive (Text (Some e)) sent)) = s_queue s ++ [(None, MClose (match e with Init => 4429%N | _ => 4409%N end))]).
Proof.
  intros inputs s. assert (V := run_inv inputs). fold s in V.
  assert (F : forall i, in_use i (s_heard s) = true -> exists k, find_sub i (s_subs s) = Some k) by (intros i H; apply find_sub_some, (v_use _ V), H).
  split; [exact (v_exec _ V) |]. split; [exact (v_ids _ V) |]. split; [apply step_heard |]. split.
  - intros e sent Hph He. cbn [step]. unfold receive. rewrite Hph. destruct e as [| i r | i | |]; try contradiction; cbn [handle].
    + unfold answer. destruct (s_pump (hear Init s)); [| left; reflexivity]. destruct (room (hear Init s)); [left; reflexivity |]. right. exists 4429%N. split; reflexivity.
    + destruct (F _ He) as [k Hk]. change (s_subs (hear (Subscribe i r) s)) with (s_subs s). rewrite Hk.
      unfold answer. destruct (s_pump (hear (Subscribe i r) s)); [| left; reflexivity]. destruct (room (hear (Subscribe i r) s)); [left; reflexivity |]. right. exists 4409%N. split; reflexivity.
  - intros e sent Hph Hp Hr He. cbn [step]. unfold receive. rewrite Hph. destruct e as [| i r | i | |]; try contradiction; cbn [handle].
    + unfold answer, room. cbn [hear s_pump s_queue]. rewrite Hp, (proj2 (Nat.ltb_lt _ _) Hr). reflexivity.
    + destruct (F _ He) as [k Hk]. change (s_subs (hear (Subscribe i r) s)) with (s_subs s). rewrite Hk. unfold answer, room. cbn [hear s_pump s_queue]. rewrite Hp, (proj2 (Nat.ltb_lt _ _) Hr). reflexivity.
Qed.

Lemma over_step : forall s i k t, nth_error (s_tasks s) k = Some t -> t_status t = Over -> nth_error (s_tasks (step s i)) k = Some t.
Proof.
  assert (U : forall (f : task -> task) j l k t, nth_error l k = Some t -> f t = t -> nth_error (update j f l) k = Some t).
  { intros f j l k t H1 H2. rewrite nth_update, H1. destruct (Nat.eqb k j); [cbn; rewrite H2; reflexivity | reflexivity]. }
  assert (Fi : forall s k t, nth_error (s_tasks s) k = Some t -> t_status t = Over -> nth_error (s_tasks (finish s)) k = Some t).
  { intros s k t H1 H2. cbn [finish with_phase with_tasks s_tasks]. erewrite map_nth_error by exact H1. unfold abort. rewrite H2. reflexivity. }
  assert (A : forall m s k t, nth_error (s_tasks s) k = Some t -> t_status t = Over -> nth_error (s_tasks (answer m s)) k = Some t).
  { intros m s k t H1 H2. unfold answer. destruct (s_pump s); [| apply Fi; assumption]. destruct (room s); [| exact H1]. destruct m; try exact H1. apply Fi; assumption. }
  assert (T : forall j m st s k t, nth_error (s_tasks s) k = Some t -> t_status t = Over -> nth_error (s_tasks (task_sends j m st s)) k = Some t).
  { intros j m st s k t H1 H2. unfold task_sends. destruct (nth_error (s_tasks s) j) as [t0 |] eqn:E; [| exact H1].
    destruct (Nat.eqb j k) eqn:Ek; [apply Nat.eqb_eq in Ek as ->; rewrite H1 in E; injection E as <-; rewrite H2; exact H1 |].
    assert (W : forall f, nth_error (update j f (s_tasks s)) k = Some t) by (intro f; rewrite nth_update, Nat.eqb_sym, Ek; exact H1).
    destruct (t_status t0); try exact H1; (destruct (s_pump s); [destruct (room s); [apply W | exact H1] | apply W]). }
  intros s i k t H1 H2. destruct i as [m sent | ok sent | | j r | j | j | ok |]; cbn [step].
  - unfold receive. destruct (s_phase s) as [| | [b |] |] eqn:Hph; destruct m as [[e |] | | | |]; try exact H1; try (apply Fi; assumption).
    + destruct e; cbn [accept]; try exact H1; destruct sent; exact H1.
    + destruct e as [| i r | i | |]; cbn [handle]; try (apply A; assumption); try exact H1.
      * destruct (find_sub i (s_subs (hear (Subscribe i r) s))); [apply A; assumption |]. cbn [s_tasks hear]. rewrite nth_error_app1; [exact H1 | apply nth_error_Some; rewrite H1; discriminate].
      * destruct (find_sub i (s_subs (hear (Complete i) s))); [| exact H1]. cbn [with_tasks s_tasks hear]. apply U; [exact H1 |]. unfold abort. rewrite H2. reflexivity.
  - destruct (s_phase s); try exact H1. destruct ok, sent; exact H1.
  - destruct (s_phase s); exact H1.
  - apply T; assumption.
  - apply T; assumption.
  - destruct (nth_error (s_tasks s) j) as [t0 |] eqn:E; [| exact H1]. destruct (t_status t0) eqn:Es; try exact H1. cbn [with_tasks s_tasks].
    rewrite nth_update, H1. destruct (Nat.eqb k j) eqn:Ek; [| reflexivity]. apply Nat.eqb_eq in Ek as ->. congruence.
  - destruct (s_pump s); [| exact H1]. destruct (s_queue s); [exact H1 |]. destruct (ok && negb (closed s)); exact H1.
  - destruct (s_phase s) as [| | [m |] |]; try exact H1. apply A; assumption.
Qed.
(** After the client's completion the operation does not run: it is dropped when it next yields to the runtime, and then
    it sends nothing more.  The same holds of every operation once the connection has ended. *)
Theorem C81_complete : forall inputs, let s := run inputs in
  (forall i sent k t, s_phase s = Open None -> nth_error (s_tasks (step s (Receive (Text (Some (Complete i))) sent))) k = Some t -> t_id t = i -> t_status t <> Running) /\
  (forall k t, s_phase s = Ended -> nth_error (s_tasks s) k = Some t -> t_status t <> Running) /\
  (forall k t, nth_error (s_tasks s) k = Some t -> t_status t = Stopping -> exists t', nth_error (s_tasks (step s (Dropped k))) k = Some t' /\ t_status t' = Over) /\
  (forall more k t, nth_error (s_tasks s) k = Some t -> t_status t = Over -> nth_error (s_tasks (run (inputs ++ more))) k = Some t).
Proof.
  intros inputs s. assert (V := run_inv inputs). fold s in V. split; [| split; [| split]].
  - intros i sent k t Hph Hk Hi Hr. rewrite <- (run_snoc inputs) in Hk. assert (W := run_inv (inputs ++ [Receive (Text (Some (Complete i))) sent])).
    assert (X := v_run _ W _ _ Hk Hr). apply (in_map fst) in X. cbn [fst] in X. apply (v_use _ W) in X. rewrite run_snoc, step_heard in X. fold s in X. rewrite Hph, in_use_snoc, Hi, Nat.eqb_refl in X. discriminate.
  - intros k t E. apply (v_ended _ V E).
  - intros k t H1 H2. cbn [step]. rewrite H1, H2. cbn [with_tasks s_tasks]. rewrite nth_update, Nat.eqb_refl, H1. eexists. split; reflexivity.
  - intros more k t H1 H2. unfold run. rewrite fold_left_app. fold (run inputs). fold s. clear V. revert H1. clearbody s. revert s. induction more as [| i more IH]; intros s H1; [exact H1 |]. apply IH, over_step; assumption.
Qed.

(** Nothing follows a close frame. *)
Theorem C81_close : forall inputs a t m b, s_out (run inputs) = a ++ (t, m) :: b -> is_close m -> b = [].
Proof. intros inputs a t m b. apply (v_close _ (run_inv inputs)). Qed.

(** A connection: an initialisation, two operations with their answers, a completion by the client, a ping. *)
Definition opened : list input := [Receive (Text (Some Init)) true; Session true true].
Definition talk : list input :=
  opened ++ [Receive (Text (Some (Subscribe 7 70))) true; Receive (Text (Some (Subscribe 8 80))) true;
             Yield 0 (Other 1); Yield 1 (Other 2); Yield 0 (Other 3); Finish 0; Receive (Text (Some Ping)) true;
             Receive (Text (Some (Complete 8))) true; Dropped 1; Pump true; Pump true; Pump true; Pump true; Pump true].
Example C81_talk_example : let s := run talk in
  map snd (s_out s) = [MAck; MNext 7 1; MNext 8 2; MNext 7 3; MComplete 7; MPong] /\
  s_executed s = [(7, 70); (8, 80)] /\ map t_status (s_tasks s) = [Over; Over] /\ s_phase s = Open None /\ s_pump s = true /\
  of_task 0 (s_out s) = [MNext 7 1; MNext 7 3; MComplete 7].
Proof. vm_compute. repeat split. Qed.
(** An id that is used twice at once. *)
Example C81_twice_example : let s := run (opened ++ [Receive (Text (Some (Subscribe 7 70))) true; Receive (Text (Some (Subscribe 7 71))) true; Pump true; Yield 0 (Other 1); Pump true]) in
  map snd (s_out s) = [MAck; MClose 4409] /\ s_executed s = [(7, 70)] /\ s_phase s = Ended /\ s_pump s = false.
Proof. vm_compute. repeat split. Qed.
(** Before the acknowledgement. *)
Example C81_early_example :
  map snd (s_out (run [Receive (Text (Some (Subscribe 7 70))) true])) = [MClose 4401] /\
  map snd (s_out (run [Elapsed])) = [MClose 4408] /\
  map snd (s_out (run [Receive (Text (Some Init)) true; Session false true])) = [MClose 4403] /\
  s_executed (run [Receive (Text (Some (Subscribe 7 70))) true]) = [].
Proof. vm_compute. repeat split. Qed.
(** Seventeen messages: the last waits. *)
Example C81_room_example : let s := run (opened ++ Receive (Text (Some (Subscribe 7 70))) true :: repeat (Yield 0 (Other 1)) 16 ++ [Receive (Text (Some Ping)) true]) in
  List.length (s_queue s) = 16 /\ s_phase s = Open (Some MPong) /\ s_phase (step (step s (Pump true)) Room) = Open None.
Proof. vm_compute. repeat split. Qed.

(** The protocol lets the client use an id again once the server has completed it; here the connection is closed with
    "Subscriber for <id> already exists" (4409) although no operation of that id runs. *)
Theorem C81_reuse_refuted : exists inputs i r, let s := run inputs in
  s_phase s = Open None /\ In (Some 0, MComplete i) (s_out s) /\ (forall k t, nth_error (s_tasks s) k = Some t -> t_status t = Over) /\
  let s' := run (inputs ++ [Receive (Text (Some (Subscribe i r))) true; Pump true]) in
  s_phase s' = Ended /\ In (None, MClose 4409) (s_out s') /\ s_executed s' = s_executed s.
Proof.
  exists (opened ++ [Receive (Text (Some (Subscribe 7 70))) true; Yield 0 (Other 1); Finish 0; Pump true; Pump true]), 7, 71. cbv zeta.
  split; [reflexivity |]. split; [right; right; left; reflexivity |]. split.
  - intros [| [| k]] t H; vm_compute in H; try discriminate. injection H as <-. reflexivity.
  - split; [reflexivity |]. split; [| reflexivity]. vm_compute. right. right. right. left. reflexivity.
Qed.
(** The protocol's error message ends an operation; here a completion follows it. *)
Theorem C81_error_refuted : exists inputs i r, map snd (s_out (run inputs)) = [MAck; MError i r; MComplete i].
Proof. exists (opened ++ [Receive (Text (Some (Subscribe 7 70))) true; Yield 0 (Refused 1); Finish 0; Pump true; Pump true]), 7, 1. reflexivity. Qed.
(** Before the acknowledgement a ping is answered with a ping, not a pong; a text that is not an event ends the connection
    without a close frame (the protocol: 4400), and later it is ignored. *)
Theorem C81_ping_refuted : exists inputs, inputs = [Receive (Text (Some Ping)) true] /\ s_out (run inputs) = [(None, MPing)].
Proof. eexists. split; reflexivity. Qed.
Theorem C81_invalid_refuted :
  (exists inputs, inputs = [Receive (Text None) true] /\ s_phase (run inputs) = Ended /\ s_out (run inputs) = []) /\
  (exists inputs, inputs = opened ++ [Receive (Text None) true] /\ run inputs = run opened /\ s_phase (run inputs) = Open None).
Proof. split; eexists; (split; [reflexivity |]); split; reflexivity. Qed.
(** A message of an operation the client has completed may come after the client subscribed its id anew, and says nothing
    of which of the two it belongs to. *)
Theorem C81_stale_refuted : exists inputs, let s := run inputs in
  s_heard s = [Subscribe 7 70; Complete 7; Subscribe 7 71] /\ s_out s = [(None, MAck); (Some 0, MNext 7 1)] /\
  map t_status (s_tasks s) = [Over; Running].
Proof.
  exists (opened ++ [Receive (Text (Some (Subscribe 7 70))) true; Yield 0 (Other 1); Receive (Text (Some (Complete 7))) true; Dropped 0; Receive (Text (Some (Subscribe 7 71))) true; Pump true]).
  vm_compute. repeat split.
Qed.
