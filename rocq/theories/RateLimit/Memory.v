(** The rate limiter in memory (C31).

    Modelled code: crates/runtime-local/src/rate_limiting/in_memory/key_based.rs
    - create_limiter (92-104): from the configuration to requests per second
    - limit (107-121): no limiter, no limit
    - runtime_with_watcher (68-88): the limiters start afresh on a new configuration
    and of the crate governor, which is not part of the repository: Quota::per_second
    and its generic cell rate algorithm (the theoretical arrival time is at first now plus
    the interval; a request is accepted unless it comes earlier than that time minus the
    burst, and moves it by an interval).

    Simplifications: time is in nanoseconds and does not go back; one key. *)

From Coq Require Import List NArith Bool Lia.
Import ListNotations.
Local Open Scope N_scope.

Definition second : N := 1000000000.

Record config := MkCfg {
  (** usize *)
  limit : N;
  (** in nanoseconds *)
  duration : N
}.

(** The burst and the interval between two requests. *)
Record quota := MkQ { burst : N; interval : N }.

Definition per_second (n : N) : quota := MkQ n (second / n).

Definition create_limiter (c : config) : option quota :=
  let secs := duration c / second in
  if secs =? 0 then None
  else
    let q := (limit c / secs) mod 2 ^ 32 in
    if q =? 0 then None else Some (per_second q).

(** The theoretical arrival time, [None] before the first request. *)
Definition state := option N.

Definition check (q : quota) (s : state) (now : N) : state * bool :=
  let tat := match s with Some t => t | None => now + interval q end in
  if now <? tat - burst q * interval q then (Some tat, false)
  else (Some (N.max tat now + interval q), true).

Inductive op :=
| Request (t : N)
(** the configuration file was changed, not necessarily this limit *)
| Reload.

(** The times of the accepted requests. *)
Fixpoint accepted_from (q : quota) (s : state) (ops : list op) : list N :=
  match ops with
  | [] => []
  | Request t :: r => let '(s', ok) := check q s t in (if ok then [t] else []) ++ accepted_from q s' r
  | Reload :: r => accepted_from q None r
  end.

Fixpoint times (ops : list op) : list N :=
  match ops with
  | [] => []
  | Request t :: r => t :: times r
  | Reload :: r => times r
  end.

Definition accepted (c : config) (ops : list op) : list N :=
  match create_limiter c with
  | None => times ops
  | Some q => accepted_from q None ops
  end.

(** ** Specification *)

(** How many of the times are in a window. *)
Definition within (x d : N) (t : N) : bool := (x <=? t) && (t <? x + d).
Definition in_window (x d : N) (ts : list N) : N := N.of_nat (length (filter (within x d) ts)).

(** ** Proofs *)

Lemma in_window_cons : forall x d t ts, in_window x d (t :: ts) = (if within x d t then 1 else 0) + in_window x d ts.
Proof. intros. unfold in_window. cbn. destruct (within x d t); cbn [length]; lia. Qed.

(** Every accepted request of the window moves the arrival time by an interval, from the
    beginning of the window at least, and this time is at most a burst after the last of
    them. *)
Lemma gcra_bound : forall q x d ops s k, ~ In Reload ops ->
  (k = 0 \/ exists tat, s = Some tat /\ x + k * interval q <= tat) ->
  let m := in_window x d (accepted_from q s ops) in
  m = 0 \/ (k + m) * interval q < d + (burst q + 1) * interval q \/ interval q = 0.
Proof.
  intros q x d. induction ops as [|[t|] ops IH]; intros s k Nr I; cbn [accepted_from].
  - left. reflexivity.
  - assert (Nr' : ~ In Reload ops) by (intros X; apply Nr; right; exact X).
    destruct (N.eq_dec (interval q) 0) as [Z|Z]; [auto|]. unfold check.
    set (tat := match s with Some t0 => t0 | None => t + interval q end).
    assert (I' : k = 0 \/ x + k * interval q <= tat).
    { destruct I as [I|(t0 & -> & I)]; [auto|right; exact I]. }
    destruct (t <? tat - burst q * interval q) eqn:Lt.
    + apply IH; [exact Nr'|]. destruct I' as [I'|I']; [auto|]. right. exists tat. auto.
    + apply N.ltb_ge in Lt. cbn [app]. rewrite in_window_cons.
      destruct (within x d t) eqn:W.
      * unfold within in W. apply andb_true_iff in W. destruct W as [W1 W2]. apply N.leb_le in W1. apply N.ltb_lt in W2.
        right. left. specialize (IH (Some (N.max tat t + interval q)) (k + 1) Nr').
        assert (Bk : k * interval q < d + burst q * interval q) by (destruct I' as [->|I']; lia).
        destruct IH as [IH|[IH|IH]].
        -- right. exists (N.max tat t + interval q). split; [reflexivity|]. destruct I' as [->|I']; lia.
        -- rewrite IH. lia.
        -- lia.
        -- contradiction.
      * apply (IH (Some (N.max tat t + interval q)) k Nr').
        destruct I' as [I'|I']; [auto|]. right. exists (N.max tat t + interval q). split; [reflexivity|]. lia.
  - exfalso. apply Nr. left. reflexivity.
Qed.

(** When the limit is at least one request a second and at most 10^9, and the duration a
    second or more: at most five times the limit, as long as the configuration does not
    change. *)
Theorem C31_memory_partial : forall c ops x, ~ In Reload ops ->
  second <= duration c -> duration c / second <= limit c -> limit c <= second * (duration c / second) ->
  in_window x (duration c) (accepted c ops) <= 5 * limit c.
Proof.
  intros c ops x Nr D L U. unfold accepted, create_limiter. cbv zeta.
  set (secs := duration c / second) in *.
  assert (Sp : 0 < secs) by (apply N.div_str_pos; split; [reflexivity|exact D]).
  rewrite (proj2 (N.eqb_neq secs 0)) by lia.
  assert (Q1 : limit c / secs <= second) by (apply N.div_le_upper_bound; lia).
  assert (Q0 : 0 < limit c / secs) by (apply N.div_str_pos; lia).
  rewrite N.mod_small by (unfold second in Q1; lia).
  rewrite (proj2 (N.eqb_neq (limit c / secs) 0)) by lia.
  set (b := limit c / secs) in *.
  pose proof (gcra_bound (per_second b) x (duration c) ops None 0 Nr (or_introl eq_refl)) as G. cbn in G.
  set (n := in_window x (duration c) (accepted_from (per_second b) None ops)) in *.
  assert (Bl : b * secs <= limit c) by (rewrite N.mul_comm; apply N.mul_div_le; lia).
  assert (Bl1 : b <= limit c) by nia.
  set (T := second / b) in *.
  assert (Tp : 0 < T) by (apply N.div_str_pos; lia).
  assert (T2 : second < 2 * b * T).
  { pose proof (N.div_mod second b ltac:(lia)) as E. pose proof (N.mod_lt second b ltac:(lia)). fold T in E. nia. }
  assert (Du : duration c < (secs + 1) * second).
  { pose proof (N.div_mod (duration c) second ltac:(discriminate)) as E. pose proof (N.mod_lt (duration c) second ltac:(discriminate)). fold secs in E. lia. }
  destruct G as [->|[G|G]]; [lia| |lia].
  assert (n < (secs + 1) * (2 * b) + (b + 1)).
  { assert ((secs + 1) * second <= (secs + 1) * (2 * b * T)) by (apply N.mul_le_mono_l; lia).
    assert (n * T < ((secs + 1) * (2 * b) + (b + 1)) * T) by lia.
    apply (N.mul_lt_mono_pos_r T); assumption. }
  nia.
Qed.

(** Below one request a second, or with a duration below a second, there is no limit. *)
Theorem C31_memory_unlimited : forall c ops, duration c < second \/ limit c < duration c / second -> accepted c ops = times ops.
Proof.
  intros c ops H. unfold accepted, create_limiter. cbv zeta. destruct H as [H|H].
  - rewrite (N.div_small _ _ H). reflexivity.
  - destruct (duration c / second =? 0) eqn:Z; [reflexivity|]. apply N.eqb_neq in Z.
    rewrite (N.div_small _ _ H). reflexivity.
Qed.

Lemma times_repeat : forall n, times (repeat (Request 0) n) = repeat 0 n.
Proof. induction n as [|n IH]; cbn; [reflexivity|]. f_equal. exact IH. Qed.

Lemma in_window_repeat : forall d n, 0 < d -> in_window 0 d (repeat 0 n) = N.of_nat n.
Proof.
  intros d n H. induction n as [|n IH]; [reflexivity|]. cbn [repeat]. rewrite in_window_cons, IH.
  unfold within. rewrite (proj2 (N.ltb_lt 0 (0 + d))) by lia. change (0 <=? 0) with true. cbn [andb]. lia.
Qed.

(** So 100 requests per 500ms, or 10 requests per minute, allow any number at once. *)
Theorem C31_memory_refuted : forall n, exists ops,
  in_window 0 (second / 2) (accepted (MkCfg 100 (second / 2)) ops) = N.of_nat n /\
  in_window 0 (60 * second) (accepted (MkCfg 10 (60 * second)) ops) = N.of_nat n.
Proof.
  intros n. exists (repeat (Request 0) n).
  assert (A : accepted (MkCfg 100 (second / 2)) (repeat (Request 0) n) = times (repeat (Request 0) n))
    by (apply C31_memory_unlimited; left; vm_compute; reflexivity).
  assert (B : accepted (MkCfg 10 (60 * second)) (repeat (Request 0) n) = times (repeat (Request 0) n))
    by (apply C31_memory_unlimited; right; vm_compute; reflexivity).
  rewrite A, B. clear A B.
  rewrite times_repeat. split; apply in_window_repeat; vm_compute; reflexivity.
Qed.

Fixpoint reloads (n : nat) : list op := match n with O => [] | S n' => Request 0 :: Reload :: reloads n' end.

(** Any number of requests are accepted at once if the configuration is reloaded in
    between. *)
Theorem C31_reload_refuted : forall n, in_window 0 second (accepted (MkCfg 1 second) (reloads n)) = N.of_nat n.
Proof.
  intros n. change (accepted (MkCfg 1 second) (reloads n)) with (accepted_from (MkQ 1 second) None (reloads n)).
  induction n as [|n IH]; [reflexivity|]. cbn [reloads accepted_from].
  change (check (MkQ 1 second) None 0) with (Some (2 * second), true).
  cbn [app accepted_from]. rewrite in_window_cons, IH. change (within 0 second 0) with true. cbv iota. lia.
Qed.

(** 100 requests per 10s: ten at once, then one every 100ms. *)
Example C31_memory_example :
  let c := MkCfg 100 (10 * second) in
  accepted c (repeat (Request 5) 12) = repeat 5 10 /\
  accepted c (repeat (Request 5) 12 ++ [Request 100000004; Request 100000005; Request 100000006]) = repeat 5 10 ++ [100000005].
Proof. split; vm_compute; reflexivity. Qed.
