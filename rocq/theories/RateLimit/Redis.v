(** The rate limiter in Redis (C31).

    Modelled code: crates/runtime-local/src/rate_limiting/redis.rs
    - limit_inner (97-166): the two windows, the average, the decision
    - incr_counter (169-195): counting, in a task of its own

    Simplifications: time is in nanoseconds and the same for the gateways and Redis.
    The comparison of the average with the limit is made in floating point; all that is
    assumed of it is that the average is not below the counter of the current window
    (rounding is monotonic); with exact arithmetic this is so ([exact_current]).  One
    key (see C32).  The duration is at most 2^64 - 1 nanoseconds. *)

From Coq Require Import List NArith Bool Lia.
From Verif.RateLimit Require Import Memory.
Import ListNotations.
Local Open Scope N_scope.

Section Redis.
  Variable c : config.

  Notation L := (limit c).
  Notation D := (duration c).

  (** Whether the average of this counter of the previous window, this one of the
      current window, this long after its beginning, is below the limit. *)
  Variable below : N -> N -> N -> bool.

  (** The counters and when they expire. *)
  Definition counters := N -> option (N * N).

  Definition count (m : counters) (b now : N) : N :=
    match m b with
    | Some (n, e) => if now <? e then n else 0
    | None => 0
    end.

  Definition bucket (t : N) : N := t - t mod D.

  Record rstate := MkR {
    r_counters : counters;
    (** the windows of accepted requests that are not counted yet *)
    r_pending : list N;
    (** the times of accepted requests, newest first *)
    r_accepted : list N
  }.

  Inductive event :=
  | Decide (t : N)
  (** an increment is made *)
  | Incr (i : nat) (t : N)
  (** or fails *)
  | Lose (i : nat).

  Fixpoint remove_nth {A} (n : nat) (l : list A) : list A :=
    match l, n with
    | [], _ => []
    | _ :: r, O => r
    | y :: r, S n' => y :: remove_nth n' r
    end.

  Definition step (s : rstate) (e : event) : rstate :=
    match e with
    | Decide t =>
        let b := bucket t in
        let previous := N.min (count (r_counters s) ((b + 2 ^ 64 - D) mod 2 ^ 64) t) L in
        let current := N.min (count (r_counters s) b t) L in
        if below previous current (t mod D)
        then MkR (r_counters s) (r_pending s ++ [b]) (t :: r_accepted s)
        else s
    | Incr i t =>
        match nth_error (r_pending s) i with
        | None => s
        | Some b =>
            let n := count (r_counters s) b t + 1 in
            MkR (fun b' => if b =? b' then Some (n, t + D / second * 2 * second) else r_counters s b')
              (remove_nth i (r_pending s)) (r_accepted s)
        end
    | Lose i => MkR (r_counters s) (remove_nth i (r_pending s)) (r_accepted s)
    end.

  Definition run (es : list event) : rstate := fold_left step es (MkR (fun _ => None) [] []).

  (** ** Specification *)

  Definition time (e : event) : option N := match e with Decide t | Incr _ t => Some t | Lose _ => None end.

  Fixpoint in_order (from : N) (es : list event) : Prop :=
    match es with
    | [] => True
    | e :: r => match time e with Some t => from <= t /\ in_order t r | None => in_order from r end
    end.

  Definition nothing_lost (es : list event) : Prop := forall i, ~ In (Lose i) es.

  (** At most [p] accepted requests are waiting to be counted at any moment. *)
  Definition at_most_pending (p : N) (es : list event) : Prop :=
    forall es1 es2, es = es1 ++ es2 -> N.of_nat (length (r_pending (run es1))) <= p.

  (** ** Proofs *)

  Definition in_bucket (b : N) (ts : list N) : N := N.of_nat (length (filter (fun t => bucket t =? b) ts)).
  Definition waiting (b : N) (bs : list N) : N := N.of_nat (length (filter (N.eqb b) bs)).

  Lemma waiting_le : forall b bs, waiting b bs <= N.of_nat (length bs).
  Proof. intros b bs. unfold waiting. induction bs as [|x bs IH]; cbn [filter length]; [lia|]. destruct (b =? x); cbn [length]; lia. Qed.

  Lemma waiting_app : forall b xs ys, waiting b (xs ++ ys) = waiting b xs + waiting b ys.
  Proof. intros. unfold waiting. rewrite filter_app, app_length. lia. Qed.

  Lemma waiting_one : forall b x, waiting b [x] = if b =? x then 1 else 0.
  Proof. intros. unfold waiting. cbn. destruct (b =? x); reflexivity. Qed.

  Lemma waiting_cons : forall b x bs, waiting b (x :: bs) = (if b =? x then 1 else 0) + waiting b bs.
  Proof. intros. unfold waiting. cbn. destruct (b =? x); cbn [length]; lia. Qed.

  Lemma waiting_remove : forall b i bs x, nth_error bs i = Some x ->
    waiting b bs = waiting b (remove_nth i bs) + (if b =? x then 1 else 0).
  Proof.
    intros b. induction i as [|i IH]; intros [|y bs] x H; try discriminate; cbn in H.
    - injection H as ->. cbn [remove_nth]. rewrite waiting_cons. lia.
    - cbn [remove_nth]. rewrite !waiting_cons, (IH bs x H). lia.
  Qed.

  Lemma remove_in : forall A i (l : list A) x, In x (remove_nth i l) -> In x l.
  Proof.
    induction i as [|i IH]; intros [|y l] x H; cbn in *; try contradiction; auto.
    destruct H as [H|H]; [auto|right; apply IH; exact H].
  Qed.

  Lemma in_bucket_cons : forall b t ts, in_bucket b (t :: ts) = (if bucket t =? b then 1 else 0) + in_bucket b ts.
  Proof. intros. unfold in_bucket. cbn. destruct (bucket t =? b); cbn [length]; lia. Qed.

  Hypothesis below_current : forall p n r, below p n r = true -> n < L.
  Hypothesis long : second <= D.

  Lemma expiry_long : D <= D / second * 2 * second.
  Proof.
    pose proof (N.div_mod D second ltac:(discriminate)) as E. pose proof (N.mod_lt D second ltac:(discriminate)).
    assert (0 < D / second) by (apply N.div_str_pos; split; [reflexivity|exact long]). nia.
  Qed.

  (** After the events up to a time. *)
  Definition inv (p : N) (last : N) (s : rstate) : Prop :=
    (forall b now, last <= now -> now < b + D ->
       in_bucket b (r_accepted s) <= count (r_counters s) b now + waiting b (r_pending s)) /\
    (forall b, In b (r_pending s) -> b <= last) /\
    (forall b, in_bucket b (r_accepted s) <= L + p).

  Lemma inv_later : forall p last last' s, last <= last' -> inv p last s -> inv p last' s.
  Proof.
    intros p last last' s H (A & B & C). split; [|split; [|exact C]].
    - intros b now X Y. apply A; lia.
    - intros b X. specialize (B b X). lia.
  Qed.

  Lemma inv_step : forall p last s e, inv p last s -> N.of_nat (length (r_pending s)) <= p -> (forall i, e <> Lose i) ->
    (match time e with Some t => last <= t | None => True end) ->
    inv p (match time e with Some t => t | None => last end) (step s e).
  Proof.
    intros p last s e I P Nl H.
    assert (Dp : 0 < D) by (unfold second in long; lia).
    destruct e as [t|i t|i]; cbn [time] in *.
    - apply (inv_later p last t s H) in I. destruct I as (A & B & C). cbn [step]. cbv zeta.
      destruct (below _ _ _) eqn:Bl; [|split; [exact A|split; [exact B|exact C]]].
      apply below_current in Bl.
      assert (Bt : bucket t <= t) by apply N.le_sub_l.
      assert (Et : t < bucket t + D).
      { unfold bucket. pose proof (N.mod_lt t D ltac:(lia)). pose proof (N.mod_le t D ltac:(lia)). lia. }
      unfold inv. cbn [r_accepted r_counters r_pending]. split; [|split].
      + intros b now X Y. rewrite in_bucket_cons, waiting_app, waiting_one. specialize (A b now X Y).
        rewrite (N.eqb_sym b (bucket t)). destruct (bucket t =? b); lia.
      + intros b X. apply in_app_iff in X. destruct X as [X|[<-|[]]]; [apply B; exact X|exact Bt].
      + intros b. rewrite in_bucket_cons. destruct (bucket t =? b) eqn:Eb; [|specialize (C b); lia].
        apply N.eqb_eq in Eb. subst b. specialize (A (bucket t) t ltac:(lia) Et).
        pose proof (waiting_le (bucket t) (r_pending s)). lia.
    - apply (inv_later p last t s H) in I. destruct I as (A & B & C). cbn [step].
      destruct (nth_error (r_pending s) i) as [b0|] eqn:N0; [|split; [exact A|split; [exact B|exact C]]]. cbv zeta.
      pose proof (B b0 (nth_error_In _ _ N0)) as B0.
      unfold inv. cbn [r_accepted r_counters r_pending]. split; [|split; [|exact C]].
      + intros b now X Y. specialize (A b). rewrite (waiting_remove b i _ b0 N0) in A. unfold count at 1.
        rewrite (N.eqb_sym b b0) in A. destruct (b0 =? b) eqn:Eb.
        * apply N.eqb_eq in Eb. subst b0. pose proof expiry_long.
          rewrite (proj2 (N.ltb_lt now (t + D / second * 2 * second))) by lia.
          specialize (A t ltac:(lia) ltac:(lia)). lia.
        * specialize (A now X Y). unfold count in A. lia.
      + intros b X. apply B. eapply remove_in. exact X.
    - exfalso. apply (Nl i). reflexivity.
  Qed.

  Fixpoint last_time (from : N) (es : list event) : N :=
    match es with
    | [] => from
    | e :: r => last_time (match time e with Some t => t | None => from end) r
    end.

  Lemma last_time_app : forall es from e, last_time from (es ++ [e]) = match time e with Some t => t | None => last_time from es end.
  Proof.
    induction es as [|x es IH]; intros from e; cbn.
    - destruct (time e); reflexivity.
    - apply IH.
  Qed.

  Lemma in_order_app : forall es from e, in_order from (es ++ [e]) ->
    in_order from es /\ match time e with Some t => last_time from es <= t | None => True end.
  Proof.
    induction es as [|x es IH]; intros from e H; cbn in *.
    - destruct (time e); [split; [exact Logic.I|apply H]|auto].
    - destruct (time x) as [t|].
      + destruct H as [H H']. apply IH in H'. tauto.
      + apply IH in H. exact H.
  Qed.

  Lemma inv_run : forall p es, in_order 0 es -> nothing_lost es -> at_most_pending p es -> inv p (last_time 0 es) (run es).
  Proof.
    intros p es. induction es as [|e es IH] using rev_ind; intros O NL P.
    - split; [|split].
      + intros b now _ _. cbn. lia.
      + intros b [].
      + intros b. cbn. lia.
    - apply in_order_app in O. destruct O as [O Oe].
      assert (NL' : nothing_lost es) by (intros i X; apply (NL i), in_or_app; left; exact X).
      assert (P' : at_most_pending p es).
      { intros es1 es2 E. apply (P es1 (es2 ++ [e])). rewrite E, app_assoc. reflexivity. }
      specialize (IH O NL' P'). rewrite last_time_app. unfold run. rewrite fold_left_app. cbn [fold_left]. fold (run es).
      apply inv_step; [exact IH| | |exact Oe].
      + apply (P es [e]). reflexivity.
      + intros i ->. apply (NL i), in_or_app. right. left. reflexivity.
  Qed.

  Lemma window_two : forall x ts, in_window x D ts <= in_bucket (bucket x) ts + in_bucket (bucket x + D) ts.
  Proof.
    intros x ts. assert (Dp : 0 < D) by (unfold second in long; lia).
    induction ts as [|t ts IH]; [cbn; lia|]. rewrite in_window_cons, !in_bucket_cons.
    destruct (within x D t) eqn:W; [|lia]. unfold within in W. apply andb_true_iff in W. destruct W as [W1 W2].
    apply N.leb_le in W1. apply N.ltb_lt in W2.
    assert (Or : bucket t = bucket x \/ bucket t = bucket x + D).
    { unfold bucket.
      pose proof (N.div_mod t D ltac:(lia)) as Et. pose proof (N.mod_lt t D ltac:(lia)).
      pose proof (N.div_mod x D ltac:(lia)) as Ex. pose proof (N.mod_lt x D ltac:(lia)).
      assert (Bt : t - t mod D = D * (t / D)) by (rewrite Et at 1; apply N.add_sub).
      assert (Bx : x - x mod D = D * (x / D)) by (rewrite Ex at 1; apply N.add_sub).
      rewrite Bt, Bx.
      assert (x / D <= t / D) by (apply N.div_le_mono; lia).
      assert (t / D < x / D + 2) by (apply N.div_lt_upper_bound; [lia|]; rewrite N.mul_add_distr_l; lia).
      assert (Q : t / D = x / D \/ t / D = x / D + 1) by lia.
      destruct Q as [Q|Q]; rewrite Q; [left; reflexivity|right; lia]. }
    destruct Or as [->| ->].
    - rewrite N.eqb_refl. lia.
    - rewrite N.eqb_refl. destruct (bucket x + D =? bucket x); lia.
  Qed.

  (** With a duration of at least a second: no window has more than twice the limit
      plus twice the number of accepted requests that may be waiting to be counted. *)
  Theorem C31_redis_partial : forall p es x, in_order 0 es -> nothing_lost es -> at_most_pending p es ->
    in_window x D (r_accepted (run es)) <= 2 * (L + p).
  Proof.
    intros p es x O NL P. destruct (inv_run p es O NL P) as (_ & _ & C).
    pose proof (window_two x (r_accepted (run es))). pose proof (C (bucket x)). pose proof (C (bucket x + D)). lia.
  Qed.
End Redis.

(** The comparison in exact arithmetic. *)
Definition exact (c : config) (p n r : N) : bool := p * (duration c - r) + n * duration c <? limit c * duration c.

Lemma exact_current : forall c p n r, exact c p n r = true -> n < limit c.
Proof. intros c p n r H. unfold exact in H. apply N.ltb_lt in H. nia. Qed.

(** Any number of requests is accepted if they come before the first is counted. *)
Theorem C31_redis_pending_refuted : forall n,
  in_window 0 second (r_accepted (run (MkCfg 1 second) (exact (MkCfg 1 second)) (repeat (Decide 0) n))) = N.of_nat n.
Proof.
  intros n.
  assert (G : forall k s, (forall b, r_counters s b = None) ->
    r_accepted (fold_left (step (MkCfg 1 second) (exact (MkCfg 1 second))) (repeat (Decide 0) k) s) = repeat 0 k ++ r_accepted s).
  { induction k as [|k IH]; intros s H; [reflexivity|]. cbn [repeat fold_left].
    assert (E : step (MkCfg 1 second) (exact (MkCfg 1 second)) s (Decide 0) =
      MkR (r_counters s) (r_pending s ++ [0]) (0 :: r_accepted s)).
    { cbn [step]. unfold count. rewrite !H. reflexivity. }
    rewrite E, IH by exact H. cbn [r_accepted]. change (0 :: r_accepted s) with ([0] ++ r_accepted s).
    rewrite app_assoc. f_equal. clear. induction k as [|k IH]; [reflexivity|]. cbn. f_equal. exact IH. }
  unfold run. rewrite G by reflexivity. cbn [r_accepted]. rewrite app_nil_r. apply in_window_repeat. reflexivity.
Qed.

(** With a duration below a second the counters expire at once. *)
Theorem C31_redis_short_refuted : forall n,
  let c := MkCfg 1 (second / 2) in
  in_window 0 (second / 2) (r_accepted (run c (exact c) (flat_map (fun _ => [Decide 0; Incr 0 0]) (repeat tt n)))) = N.of_nat n.
Proof.
  intros n. cbv zeta.
  assert (G : forall k s, r_pending s = [] -> (forall b, count (r_counters s) b 0 = 0) ->
    r_accepted (fold_left (step (MkCfg 1 (second / 2)) (exact (MkCfg 1 (second / 2)))) (flat_map (fun _ => [Decide 0; Incr 0 0]) (repeat tt k)) s) =
      repeat 0 k ++ r_accepted s).
  { induction k as [|k IH]; intros s Hp H; [reflexivity|]. cbn [repeat flat_map app fold_left].
    assert (E : step (MkCfg 1 (second / 2)) (exact (MkCfg 1 (second / 2))) s (Decide 0) =
      MkR (r_counters s) [0] (0 :: r_accepted s)).
    { cbn [step]. rewrite !H, Hp. reflexivity. }
    rewrite E. cbn [step r_pending nth_error r_counters r_accepted remove_nth]. rewrite IH.
    - cbn [r_accepted]. change (0 :: r_accepted s) with ([0] ++ r_accepted s).
      rewrite app_assoc. f_equal. clear. induction k as [|k IH]; [reflexivity|]. cbn. f_equal. exact IH.
    - reflexivity.
    - intros b. cbn [r_counters]. unfold count. destruct (0 =? b); [reflexivity|]. apply H. }
  unfold run. rewrite G; [|reflexivity|reflexivity]. cbn [r_accepted]. rewrite app_nil_r. apply in_window_repeat. reflexivity.
Qed.

(** Two requests per second, counted at once. *)
Example C31_redis_example :
  let c := MkCfg 2 second in
  let t := 1000 * second in
  rev (r_accepted (run c (exact c) (flat_map (fun t => [Decide t; Incr 0 t])
    [t; t + 1; t + 2; t + second; t + second + second / 2; t + second + second / 2 + 1; t + 2 * second]))) =
  [t; t + 1; t + second + second / 2; t + second + second / 2 + 1].
Proof. vm_compute. reflexivity. Qed.
