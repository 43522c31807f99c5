(** The stores of the entity cache (C27).

    Modelled code (crates/runtime-local/src/entity_cache):
    - memory.rs 24-53: get and put, entries with the moment they expire
    - redis.rs 22-52: SET with an expiry in seconds or milliseconds, GET

    Simplifications: time is a number of nanoseconds, the same for everyone (the
    gateways and the Redis server).  Evictions, including the one of an expired entry
    after it was read, are events that may happen at any time.  Redis removes entries
    when they expire, and rejects an expiry of 0 or one beyond 2^63-1. *)

From Coq Require Import List NArith Bool Lia.
From Verif.OpCache Require Import Tiered.
Import ListNotations.
Local Open Scope N_scope.

Section Store.
  Variable V : Type.
  (** For how long something stored for a time is kept; [None]: it is not. *)
  Variable granted : N -> option N.
  (** Whether it is still given when this time has just passed. *)
  Variable inclusive : bool.

  Record state := MkSt {
    now : N;
    entries : bytes -> option (V * N)
  }.

  Inductive event :=
  | EPut (k : bytes) (v : V) (ttl : N)
  | EGet (k : bytes)
  | EEvict (k : bytes)
  | ETick (d : N).

  Definition set (m : bytes -> option (V * N)) (k : bytes) (x : option (V * N)) : bytes -> option (V * N) :=
    fun k' => if beqb k k' then x else m k'.

  Definition get (s : state) (k : bytes) : option V :=
    match entries s k with
    | Some (v, e) => if (if inclusive then now s <=? e else now s <? e) then Some v else None
    | None => None
    end.

  Definition step (s : state) (e : event) : state :=
    match e with
    | EPut k v ttl =>
        match granted ttl with
        | Some d => MkSt (now s) (set (entries s) k (Some (v, now s + d)))
        | None => s
        end
    | EGet _ => s
    | EEvict k => MkSt (now s) (set (entries s) k None)
    | ETick d => MkSt (now s + d) (entries s)
    end.

  Definition run (es : list event) : state := fold_left step es (MkSt 0 (fun _ => None)).

  (** ** Specification *)

  (** The time after a history. *)
  Fixpoint elapsed (es : list event) : N :=
    match es with
    | [] => 0
    | ETick d :: r => d + elapsed r
    | _ :: r => elapsed r
    end.

  (** [v] is the last value accepted under [k], for [ttl], and [es'] came after. *)
  Definition last_stored (es : list event) (k : bytes) (v : V) (ttl : N) (es' : list event) : Prop :=
    exists es0, es = es0 ++ EPut k v ttl :: es' /\ granted ttl <> None /\
      forall v' ttl', granted ttl' <> None -> ~ In (EPut k v' ttl') es'.

  Hypothesis granted_le : forall ttl d, granted ttl = Some d -> d <= ttl.

  (** ** Proofs *)

  Lemma elapsed_app : forall a b, elapsed (a ++ b) = elapsed a + elapsed b.
  Proof. induction a as [|e a IH]; intros b; cbn; [reflexivity|]. destruct e; rewrite IH; lia. Qed.

  Lemma now_run : forall es, now (run es) = elapsed es.
  Proof.
    intros es. induction es as [|e es IH] using rev_ind; [reflexivity|].
    unfold run in *. rewrite fold_left_app, elapsed_app. cbn [fold_left elapsed]. destruct e; cbn; try lia.
    destruct (granted ttl); cbn; lia.
  Qed.

  Lemma entry_stored : forall es k v e, entries (run es) k = Some (v, e) ->
    exists ttl d es', last_stored es k v ttl es' /\ granted ttl = Some d /\ elapsed es + d = e + elapsed es'.
  Proof.
    intros es. induction es as [|ev es IH] using rev_ind; intros k v e H; [discriminate|].
    unfold run in H. rewrite fold_left_app in H. cbn [fold_left] in H. fold (run es) in H. rewrite elapsed_app.
    assert (Keep : entries (run es) k = Some (v, e) -> (forall v' t', granted t' <> None -> ev <> EPut k v' t') ->
      exists ttl d es', last_stored (es ++ [ev]) k v ttl es' /\ granted ttl = Some d /\
        elapsed es + elapsed [ev] + d = e + elapsed es').
    { intros H' Ne. destruct (IH k v e H') as (ttl & d & es' & (es0 & E & G & F) & Gd & El).
      exists ttl, d, (es' ++ [ev]). split; [|split; [exact Gd|rewrite elapsed_app; lia]].
      exists es0. split; [rewrite E, <- app_assoc; reflexivity|]. split; [exact G|].
      intros v' ttl' Gt I. apply in_app_iff in I. destruct I as [I|[I|[]]]; [eapply F; eauto|eapply Ne; eauto]. }
    destruct ev as [k' v' ttl|k'|k'|d]; cbn [step] in H.
    - destruct (granted ttl) as [d|] eqn:G; cbn [entries] in H.
      + unfold set in H. destruct (beqb k' k) eqn:B.
        * apply beqb_eq in B. subst k'. injection H as <- <-. exists ttl, d, []. cbn [elapsed]. rewrite now_run.
          split; [|split; [exact G|lia]]. exists es. split; [reflexivity|]. split; [congruence|]. intros ? ? ? [].
        * apply Keep; [exact H|]. intros v0 t0 G0 X. injection X as <- _ _. rewrite beqb_refl in B. discriminate.
      + apply Keep; [exact H|]. intros v0 t0 G0 X. injection X as <- _ <-. congruence.
    - apply Keep; [exact H|discriminate].
    - cbn [entries] in H. unfold set in H. destruct (beqb k' k); [discriminate|]. apply Keep; [exact H|discriminate].
    - cbn [entries] in H. apply Keep; [exact H|discriminate].
  Qed.

  (** What is read is the last value stored under that key, not longer ago than it
      was stored for. *)
  Theorem C27_fresh : forall es k v, get (run es) k = Some v ->
    exists ttl es', last_stored es k v ttl es' /\ elapsed es' <= ttl.
  Proof.
    intros es k v H. unfold get in H. destruct (entries (run es) k) as [[v' e]|] eqn:E; [|discriminate].
    destruct (entry_stored es k v' e E) as (ttl & d & es' & L & G & El). rewrite now_run in H.
    assert (Le : elapsed es <= e).
    { destruct inclusive.
      - destruct (N.leb_spec (elapsed es) e); [assumption|discriminate].
      - destruct (N.ltb_spec (elapsed es) e); [lia|discriminate]. }
    exists ttl, es'. split.
    - destruct inclusive; [destruct (elapsed es <=? e)|destruct (elapsed es <? e)]; try discriminate; injection H as <-; exact L.
    - pose proof (granted_le ttl d G). lia.
  Qed.

  (** And it is read until then, unless it is evicted. *)
  Theorem C27_found : forall es k v ttl d es', last_stored es k v ttl es' -> granted ttl = Some d -> elapsed es' < d ->
    ~ In (EEvict k) es' -> get (run es) k = Some v.
  Proof.
    intros es k v ttl d es' (es0 & -> & _ & F) G L Ev.
    assert (H : entries (run (es0 ++ EPut k v ttl :: es')) k = Some (v, elapsed es0 + d)).
    { clear L. induction es' as [|e es' IH] using rev_ind.
      - unfold run. rewrite fold_left_app. cbn [fold_left]. fold (run es0). cbn [step]. rewrite G. cbn [entries].
        unfold set. rewrite beqb_refl, now_run. reflexivity.
      - assert (IH' : entries (run (es0 ++ EPut k v ttl :: es')) k = Some (v, elapsed es0 + d)).
        { apply IH.
          - intros v' t' Gt I. apply (F v' t' Gt). apply in_or_app. left. exact I.
          - intros I. apply Ev. apply in_or_app. left. exact I. }
        replace (es0 ++ EPut k v ttl :: es' ++ [e]) with ((es0 ++ EPut k v ttl :: es') ++ [e]) by (rewrite <- app_assoc; reflexivity).
        unfold run. rewrite fold_left_app. cbn [fold_left]. fold (run (es0 ++ EPut k v ttl :: es')).
        destruct e as [k' v' t'|k'|k'|d']; cbn [step]; auto.
        + destruct (granted t') as [d'|] eqn:G'; [|exact IH']. cbn [entries]. unfold set. destruct (beqb k' k) eqn:B; [|exact IH'].
          exfalso. apply beqb_eq in B. subst. apply (F v' t'); [congruence|]. apply in_or_app. right. left. reflexivity.
        + cbn [entries]. unfold set. destruct (beqb k' k) eqn:B; [|exact IH']. exfalso. apply beqb_eq in B. subst.
          apply Ev. apply in_or_app. right. left. reflexivity. }
    unfold get. rewrite H, now_run, elapsed_app. cbn [elapsed].
    destruct inclusive.
    - destruct (N.leb_spec (elapsed es0 + elapsed es') (elapsed es0 + d)); [reflexivity|lia].
    - destruct (N.ltb_spec (elapsed es0 + elapsed es') (elapsed es0 + d)); [reflexivity|lia].
  Qed.
End Store.

Arguments EPut {V}. Arguments EGet {V}. Arguments EEvict {V}. Arguments ETick {V}.

(** memory.rs: [expires_at < now] is expired. *)
Definition memory_granted (ttl : N) : option N := Some ttl.

(** redis.rs 44-50: [SET .. PX], [SET .. EX] *)
Definition redis_granted (ttl : N) : option N :=
  let secs := ttl / 1000000000 in
  let millis := (ttl / 1000000) mod 2 ^ 64 in
  if 60 <? secs
  then if (millis =? 0) || (2 ^ 63 <=? millis) then None else Some (millis * 1000000)
  else if secs =? 0 then None else Some (secs * 1000000000).

Lemma redis_granted_le : forall ttl d, redis_granted ttl = Some d -> d <= ttl.
Proof.
  intros ttl d H. unfold redis_granted in H.
  destruct (60 <? ttl / 1000000000).
  - destruct (_ || _); [discriminate|]. injection H as <-.
    pose proof (N.mod_le (ttl / 1000000) (2 ^ 64) ltac:(discriminate)).
    pose proof (N.mul_div_le ttl 1000000 ltac:(discriminate)). lia.
  - destruct (_ =? 0); [discriminate|]. injection H as <-.
    pose proof (N.mul_div_le ttl 1000000000 ltac:(discriminate)). lia.
Qed.

Definition memory_get {V} (es : list (event V)) (k : bytes) : option V := get V true (run V memory_granted es) k.
Definition redis_get {V} (es : list (event V)) (k : bytes) : option V := get V false (run V redis_granted es) k.

Theorem C27_memory : forall V (es : list (event V)) k v, memory_get es k = Some v ->
  exists ttl es', last_stored V memory_granted es k v ttl es' /\ elapsed V es' <= ttl.
Proof. intros V es k v H. eapply C27_fresh; [|exact H]. intros ttl d E. injection E as <-. lia. Qed.

Theorem C27_redis : forall V (es : list (event V)) k v, redis_get es k = Some v ->
  exists ttl es', last_stored V redis_granted es k v ttl es' /\ elapsed V es' <= ttl.
Proof. intros V es k v H. eapply C27_fresh; [|exact H]. exact redis_granted_le. Qed.

(** redis.rs 40-42: the keys of gateways with different prefixes are different, the
    digest having a fixed length. *)
Definition redis_name (prefix name : bytes) : bytes := prefix ++ 45%N :: name.

Theorem C27_prefixes : forall p p' n n', List.length n = List.length n' -> redis_name p n = redis_name p' n' -> p = p' /\ n = n'.
Proof.
  intros p p' n n' L E. unfold redis_name in E.
  assert (A : forall (a b c d : bytes), List.length c = List.length d -> a ++ c = b ++ d -> a = b /\ c = d).
  { induction a as [|x a IH]; intros [|y b] c d Ld Ed; cbn in *.
    - auto.
    - exfalso. subst c. cbn in Ld. rewrite app_length in Ld. lia.
    - exfalso. subst d. cbn in Ld. rewrite app_length in Ld. lia.
    - injection Ed as -> Ed. destruct (IH b c d Ld Ed) as [-> ->]. auto. }
  apply A in E; [|cbn; rewrite L; reflexivity]. destruct E as [-> E]. injection E as ->. auto.
Qed.

Example C27_example :
  let s := 1000000000 in
  let es := [EPut [1] 7%nat (5 * s); ETick (5 * s)] in
  memory_get es [1] = Some 7%nat /\ memory_get (es ++ [ETick 1]) [1] = None /\
  redis_get es [1] = None /\ redis_get [EPut [1] 7%nat (5 * s); ETick (4 * s); EPut [1] 8%nat (s / 2)] [1] = Some 7%nat /\
  redis_get [EPut [1] 7%nat (61 * s + s / 2); ETick (61 * s)] [1] = Some 7%nat.
Proof. repeat split; vm_compute; reflexivity. Qed.
