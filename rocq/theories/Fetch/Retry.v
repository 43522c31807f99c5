(** Sending a request to a subgraph, and sending it again when it fails (C47).

    Modelled code: crates/engine/src/resolver/graphql/request/execute.rs:
    retrying_fetch 227-284, rate_limited_fetch 286-321, the classification of
    responses 131-137 and what is made of the result 158-196.

    The rate limiter, the subgraph and the retry budget (tower's TpsBudget) are
    oracles: what they say the n-th time they are asked. Telemetry is left out, and
    the random factor of the waiting time: only its base is kept. *)

From Coq Require Import List Bool NArith Lia PeanoNat.
Import ListNotations.
Local Open Scope list_scope.

Section Retry.

Variable body : Type.

(** What comes back from the network. *)
Inductive reply :=
| Unreachable
| Response (status : N) (b : body).

(** n-th attempt: does the rate limiter let it through, and what is the reply. *)
Variable allowed : nat -> bool.
Variable reply_of : nat -> reply.
(** n-th withdrawal from the budget. *)
Variable granted : nat -> bool.

(** *** Model *)

Inductive error :=
| RateLimited
| Network
| InvalidStatus (status : N) (response : option body).

Inductive result :=
| Done (status : N) (b : body)
| Failed (e : error).

(** Observable actions, in order. *)
Inductive action :=
| Asked                    (** the rate limiter *)
| Sent (n : nat)           (** the n-th attempt goes out *)
| Withdrew (ok : bool)
| Slept (base : N)         (** milliseconds, before the random factor *)
| Deposited.

(** 131-137. *)
Definition classify (r : reply) : result :=
  match r with
  | Unreachable => Failed Network
  | Response s b =>
      if (500 <=? s)%N && (s <? 600)%N then Failed (InvalidStatus s (Some b))
      else if (s =? 429)%N then Failed (InvalidStatus s None)
      else Done s b
  end.

(** rate_limited_fetch, 286-321. *)
Definition attempt (n : nat) : result * list action :=
  if allowed n then (classify (reply_of n), [Asked; Sent n]) else (Failed RateLimited, [Asked]).

(** 260: u64 arithmetic of a release build. *)
Definition backoff (counter : nat) : N := (100 * (2 ^ N.of_nat counter mod 2 ^ 64)) mod 2 ^ 64.

(** 241-283. None: out of fuel. *)
Fixpoint retry_loop (fuel counter : nat) (r : result) (log : list action) : option (result * list action) :=
  match fuel with
  | O => None
  | S fuel =>
      match r with
      | Done s b => Some (Done s b, log ++ [Deposited])
      | Failed e =>
          if granted counter then
            let (r', l) := attempt (S counter) in
            retry_loop fuel (S counter) r' (log ++ Withdrew true :: Slept (backoff counter) :: l)
          else Some (Failed e, log ++ [Withdrew false])
      end
  end.

(** retrying_fetch, 227-284. *)
Definition retrying_fetch (budget : bool) (fuel : nat) : option (result * list action) :=
  let (r, l) := attempt 0 in
  if negb budget then Some (r, l) else retry_loop fuel 0 r l.

(** 158-196: what the response is made of. *)
Inductive ingested := Body (b : body) | Error (e : error).
Definition ingest (r : result) : ingested :=
  match r with
  | Done _ b => Body b
  | Failed (InvalidStatus _ (Some b)) => Body b
  | Failed e => Error e
  end.

(** *** Specification *)

Definition failed (r : result) : Prop := match r with Failed _ => True | Done _ _ => False end.

(** The numbers of the attempts that went out. *)
Definition sends (log : list action) : list nat :=
  flat_map (fun a => match a with Sent n => [n] | _ => [] end) log.
Definition count (p : action -> bool) (log : list action) : nat := length (filter p log).
Definition is_asked (a : action) : bool := match a with Asked => true | _ => false end.
Definition is_deposit (a : action) : bool := match a with Deposited => true | _ => false end.
Definition withdrawals (log : list action) : list bool :=
  flat_map (fun a => match a with Withdrew x => [x] | _ => [] end) log.
Definition sleeps (log : list action) : list N :=
  flat_map (fun a => match a with Slept t => [t] | _ => [] end) log.

(** Result of the n-th attempt, from the oracles alone: which replies count as
    failures. *)
Definition good (n : nat) (s : N) (b : body) : Prop :=
  allowed n = true /\ reply_of n = Response s b /\ (s < 500 \/ 600 <= s)%N /\ s <> 429%N.

(** *** Proofs *)

Lemma attempt_good : forall n s b, fst (attempt n) = Done s b <-> good n s b.
Proof.
  intros n s b. unfold attempt, good. destruct (allowed n); cbn [fst].
  - unfold classify. destruct (reply_of n) as [|s' b']; [split; [discriminate|intros (_ & H & _); discriminate]|].
    destruct (N.leb_spec 500 s'); destruct (N.ltb_spec s' 600); cbn [andb].
    1: split; [discriminate|intros (_ & E & F & _); injection E as -> ->; lia].
    all: destruct (N.eqb_spec s' 429); split; intros Q;
      try discriminate; try (destruct Q as (_ & E & F & G); injection E as -> ->; congruence);
      injection Q as -> ->; repeat split; auto; lia.
  - split; [discriminate|intros [H _]; discriminate].
Qed.

Lemma attempt_log : forall n, exists r, attempt n = (r, Asked :: if allowed n then [Sent n] else []).
Proof. intros n. unfold attempt. destruct (allowed n); eexists; reflexivity. Qed.

Definition passed (l : list nat) : list nat := filter allowed l.

(** The state of the loop when it is at attempt k. *)
Record at_attempt (k : nat) (r : result) (log : list action) : Prop := {
  a_result : r = fst (attempt k);
  a_failed : forall n, n < k -> failed (fst (attempt n)) /\ granted n = true;
  a_sends : sends log = passed (seq 0 (S k));
  a_asked : count is_asked log = S k;
  a_withdrawals : withdrawals log = repeat true k;
  a_deposits : count is_deposit log = 0;
  a_sleeps : sleeps log = map backoff (seq 0 k)
}.

Lemma first_attempt : forall r l, attempt 0 = (r, l) -> at_attempt 0 r l.
Proof.
  intros r l H. destruct (attempt_log 0) as [r' E]. rewrite H in E. injection E as -> ->.
  constructor; [rewrite H; reflexivity|intros; lia| | | | |]; cbn; destruct (allowed 0); reflexivity.
Qed.

Lemma seq_S : forall k, seq 0 (S k) = seq 0 k ++ [k].
Proof. intros k. replace (S k) with (k + 1) by lia. rewrite seq_app. reflexivity. Qed.

Lemma repeat_snoc {A} (x : A) k : repeat x k ++ [x] = repeat x (S k).
Proof. induction k; cbn; [reflexivity|]. rewrite IHk. reflexivity. Qed.

Lemma next_attempt : forall k r log r' l, at_attempt k r log -> failed r -> granted k = true -> attempt (S k) = (r', l) ->
  at_attempt (S k) r' (log ++ Withdrew true :: Slept (backoff k) :: l).
Proof.
  intros k r log r' l V F G H. destruct (attempt_log (S k)) as [r0 E]. rewrite H in E. injection E as -> ->.
  destruct V. constructor.
  - rewrite H. reflexivity.
  - intros n Hn. destruct (Nat.eq_dec n k) as [->|Nn]; [subst r; auto|apply a_failed0; lia].
  - unfold sends in *. rewrite flat_map_app, a_sends0. rewrite (seq_S (S k)). unfold passed. rewrite filter_app.
    cbn [flat_map filter app]. destruct (allowed (S k)); reflexivity.
  - unfold count in *. rewrite filter_app, app_length, a_asked0. cbn [filter is_asked length].
    destruct (allowed (S k)); cbn; lia.
  - unfold withdrawals in *. rewrite flat_map_app, a_withdrawals0. rewrite <- repeat_snoc. f_equal.
    destruct (allowed (S k)); reflexivity.
  - unfold count in *. rewrite filter_app, app_length, a_deposits0. destruct (allowed (S k)); reflexivity.
  - unfold sleeps in *. rewrite flat_map_app, a_sleeps0. rewrite (seq_S k), map_app. f_equal.
    destruct (allowed (S k)); reflexivity.
Qed.

Lemma loop_spec : forall fuel k r log res out, at_attempt k r log -> retry_loop fuel k r log = Some (res, out) ->
  exists n log', at_attempt n res log' /\
    ((failed res /\ granted n = false /\ out = log' ++ [Withdrew false]) \/ (~ failed res /\ out = log' ++ [Deposited])).
Proof.
  induction fuel as [|fuel IH]; intros k r log res out V H; [discriminate|]. cbn [retry_loop] in H.
  destruct r as [s b|e].
  - injection H as <- <-. exists k, log. split; [exact V|]. right. split; [intros []|reflexivity].
  - destruct (granted k) eqn:G.
    + destruct (attempt (S k)) as [r' l] eqn:A. eapply IH; [|exact H]. eapply next_attempt; eauto. exact I.
    + injection H as <- <-. exists k, log. split; [exact V|]. left. repeat split; auto.
Qed.

(** *** C47 *)

(** With a budget: after attempts 0..n, where all but the last one failed and each
    failure was paid for from the budget, the result is the last attempt's; it is a
    failure only if the budget has refused, and a success goes into the budget. *)
Theorem C47_retries : forall fuel res out, retrying_fetch true fuel = Some (res, out) -> exists n,
  (forall k, k < n -> (forall s b, ~ good k s b) /\ granted k = true) /\
  (forall s b, res = Done s b <-> good n s b) /\
  sends out = filter allowed (seq 0 (S n)) /\
  count is_asked out = S n /\
  withdrawals out = repeat true n ++ (match res with Failed _ => [false] | Done _ _ => [] end) /\
  sleeps out = map backoff (seq 0 n) /\
  (failed res -> granted n = false) /\
  count is_deposit out = (match res with Failed _ => 0 | Done _ _ => 1 end).
Proof.
  intros fuel res out H. unfold retrying_fetch in H. destruct (attempt 0) as [r l] eqn:A. cbn [negb] in H.
  destruct (loop_spec _ _ _ _ _ _ (first_attempt _ _ A) H) as (n & log' & V & C). exists n. destruct V.
  split; [|split].
  - intros k Hk. destruct (a_failed0 k Hk) as [F G]. split; [|exact G].
    intros s b Q. apply attempt_good in Q. rewrite Q in F. exact F.
  - intros s b. rewrite a_result0. apply attempt_good.
  - unfold sends, withdrawals, sleeps, count in *. destruct C as [(F & G & ->)|(F & ->)].
    + rewrite !flat_map_app, !filter_app, !app_length, a_sends0, a_asked0, a_withdrawals0, a_deposits0, a_sleeps0.
      destruct res as [s b|e]; [contradiction|]. cbn. rewrite !app_nil_r.
      split; [reflexivity|]. split; [lia|]. auto.
    + rewrite !flat_map_app, !filter_app, !app_length, a_sends0, a_asked0, a_withdrawals0, a_deposits0, a_sleeps0.
      destruct res as [s b|e]; [|destruct F; exact I]. cbn. rewrite !app_nil_r.
      split; [reflexivity|]. split; [lia|]. split; [reflexivity|]. split; [reflexivity|]. split; [contradiction|reflexivity].
Qed.

(** Without a budget there is one attempt. *)
Theorem C47_once : forall fuel, exists res out, retrying_fetch false fuel = Some (res, out) /\
  (forall s b, res = Done s b <-> good 0 s b) /\
  sends out = filter allowed [0] /\ withdrawals out = [] /\ count is_deposit out = 0 /\ count is_asked out = 1.
Proof.
  intros fuel. unfold retrying_fetch. destruct (attempt 0) as [r l] eqn:A. cbn [negb]. exists r, l.
  split; [reflexivity|]. destruct (first_attempt _ _ A).
  split; [intros; rewrite a_result0; apply attempt_good|].
  split; [exact a_sends0|]. split; [exact a_withdrawals0|]. split; [exact a_deposits0|exact a_asked0].
Qed.

(** The attempts end if one succeeds or the budget refuses once. *)
Theorem C47_ends : forall n, (exists s b, good n s b) \/ granted n = false ->
  retrying_fetch true (S n) <> None.
Proof.
  intros n H. unfold retrying_fetch. destruct (attempt 0) as [r l] eqn:A. cbn [negb].
  assert (G : forall fuel k r l, at_attempt k r l -> n < k + fuel -> k <= n -> retry_loop fuel k r l <> None).
  { induction fuel as [|fuel IH]; intros k r0 l0 V L Le; [lia|]. cbn [retry_loop].
    destruct r0 as [s b|e]; [discriminate|]. destruct (granted k) eqn:G; [|discriminate].
    destruct (attempt (S k)) as [r' l'] eqn:A'.
    assert (Nk : k <> n).
    { intros ->. destruct H as [(s & b & H)|H]; [|congruence].
      apply attempt_good in H. destruct V. rewrite H in a_result0. discriminate. }
    apply IH; [eapply next_attempt; eauto; exact I|lia|lia]. }
  apply (G _ 0 r l (first_attempt _ _ A)); lia.
Qed.

(** What is read as the response is the body the subgraph has sent last; there is
    an error if it hasn't been reached, or said that there were too many requests. *)
Theorem C47_ingested : forall budget fuel res out, retrying_fetch budget fuel = Some (res, out) -> exists n,
  match ingest res with
  | Body b => allowed n = true /\ exists s, reply_of n = Response s b /\ s <> 429%N
  | Error e =>
      (e = RateLimited /\ allowed n = false) \/ (e = Network /\ allowed n = true /\ reply_of n = Unreachable) \/
      (e = InvalidStatus 429 None /\ allowed n = true /\ exists b, reply_of n = Response 429 b)
  end /\ forall m, In m (sends out) -> m <= n.
Proof.
  intros budget fuel res out H.
  assert (V : exists n, res = fst (attempt n) /\ sends out = filter allowed (seq 0 (S n))).
  { destruct budget.
    - unfold retrying_fetch in H. destruct (attempt 0) as [r l] eqn:A. cbn [negb] in H.
      destruct (loop_spec _ _ _ _ _ _ (first_attempt _ _ A) H) as (n & log' & V & C). exists n. destruct V.
      split; [assumption|]. fold (passed (seq 0 (S n))). rewrite <- a_sends0. unfold sends.
      destruct C as [(_ & _ & ->)|(_ & ->)]; rewrite flat_map_app; cbn; apply app_nil_r.
    - unfold retrying_fetch in H. destruct (attempt 0) as [r l] eqn:A. cbn [negb] in H. injection H as -> ->.
      destruct (first_attempt _ _ A). exists 0. rewrite A. split; [reflexivity|exact a_sends0]. }
  destruct V as (n & E & L). exists n. split.
  - subst res. unfold attempt. destruct (allowed n) eqn:G; cbn [fst].
    + unfold classify. destruct (reply_of n) as [|s b] eqn:R; cbn; [right; left; auto|].
      destruct (N.leb_spec 500 s); destruct (N.ltb_spec s 600); cbn [andb].
      * cbn. split; [reflexivity|]. exists s. split; [reflexivity|lia].
      * destruct (N.eqb_spec s 429); [lia|]. cbn. split; [reflexivity|]. exists s. auto.
      * destruct (N.eqb_spec s 429) as [->|]; cbn.
        -- right. right. split; [reflexivity|]. split; [reflexivity|]. exists b. reflexivity.
        -- split; [reflexivity|]. exists s. auto.
      * lia.
    + cbn. left. auto.
  - intros m. rewrite L, filter_In, in_seq. lia.
Qed.

End Retry.

(** The base of the waiting time doubles. *)
Theorem C47_backoff : forall n, n < 57 -> backoff n = (100 * 2 ^ N.of_nat n)%N.
Proof.
  intros n H. unfold backoff.
  assert (E : (2 ^ N.of_nat n <= 2 ^ 56)%N) by (apply N.pow_le_mono_r; lia).
  assert (L : (2 ^ 56 * 100 < 2 ^ 64)%N) by reflexivity.
  assert (L' : (2 ^ 56 < 2 ^ 64)%N) by reflexivity.
  rewrite (N.mod_small (2 ^ N.of_nat n)) by lia. apply N.mod_small. lia.
Qed.

(** Not for ever: after 64 retries there is no wait any more. *)
Theorem C47_backoff_refuted : exists n, backoff n = 0%N.
Proof. exists 64. vm_compute. reflexivity. Qed.

(** Two failures, then a success; the second attempt is stopped by the rate limiter. *)
Example C47_retries_example :
  retrying_fetch nat (fun n => negb (Nat.eqb n 1)) (fun n => if Nat.eqb n 0 then Response nat 503 1 else Response nat 200 2)
    (fun _ => true) true 10 =
  Some (Done nat 200 2, [Asked; Sent 0; Withdrew true; Slept 100; Asked; Withdrew true; Slept 200; Asked; Sent 2; Deposited]).
Proof. reflexivity. Qed.

Example C47_ingested_example :
  option_map (fun x => ingest nat (fst x)) (retrying_fetch nat (fun _ => true) (fun _ => Response nat 503 1) (fun n => Nat.ltb n 3) true 10)
    = Some (Body nat 1) /\
  option_map (fun x => ingest nat (fst x)) (retrying_fetch nat (fun _ => true) (fun _ => Response nat 429 1) (fun n => Nat.ltb n 3) true 10)
    = Some (Error nat (InvalidStatus nat 429 None)).
Proof. split; reflexivity. Qed.

Example C47_once_example :
  retrying_fetch nat (fun _ => true) (fun _ => Response nat 503 1) (fun _ => true) false 0 =
  Some (Failed nat (InvalidStatus nat 503 (Some 1)), [Asked; Sent 0]).
Proof. reflexivity. Qed.
