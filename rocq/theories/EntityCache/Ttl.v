(** What is stored of a subgraph response, and for how long (C26).

    Modelled code:
    - crates/engine/src/resolver/graphql/cache.rs 15-46 (calculate_cache_ttl)
    - crates/engine/src/resolver/graphql/deserialize/response.rs 44-104 (status)
    - crates/engine/src/resolver/graphql/root_fields.rs 270-292 and
      federation/with_cache.rs 112-129 (what is done with it)
    - crates/runtime-local/src/entity_cache/memory.rs 39-53 (storing, in memory)

    Simplifications: the Cache-Control and Age headers are given as decoded by the
    headers crate (an undecodable header counts as absent there).  A duration is a
    number of nanoseconds.  Panics are explicit. *)

From Coq Require Import List NArith Bool Lia.
Import ListNotations.
Local Open Scope N_scope.

Record cache_control := MkCC {
  cc_private : bool;
  cc_no_store : bool;
  (** in seconds *)
  cc_max_age : option N
}.

Record http_headers := MkH {
  h_cache_control : option cache_control;
  (** in seconds *)
  h_age : option N
}.

Definition second : N := 1000000000.

(** What was read of the body of a response: whether there was data (null or not)
    and the number of errors.  [None]: it could not be read. *)
Definition body := option (option bool * N).

Inductive status := Success | FieldError | RequestError.

(** response.rs 88-101 *)
Definition graphql_status (b : body) : option status :=
  match b with
  | None => None
  | Some (data_is_null, errors) =>
      Some match data_is_null with
           | Some _ => if errors =? 0 then Success else FieldError
           | None => RequestError
           end
  end.

Inductive res (A : Type) := Done (a : A) | Crash.
Arguments Done {A}. Arguments Crash {A}.

(** calculate_cache_ttl *)
Definition calculate_cache_ttl (st : status) (h : http_headers) (default : option N) : res (option N) :=
  match default with
  | None => Done None
  | Some d =>
      match st with
      | Success =>
          match h_cache_control h with
          | None => Done (Some d)
          | Some cc =>
              if cc_private cc || cc_no_store cc then Done None
              else
                match cc_max_age cc with
                | None => Done (Some d)
                | Some m =>
                    let age := match h_age h with Some a => a | None => 0 end in
                    (* Duration - Duration *)
                    if m * second <? age * second then Crash
                    else Done (Some (m * second - age * second))
                end
          end
      | _ => Done None
      end
  end.

(** memory.rs 46-52: Instant::now() + ttl, seconds being an i64. *)
Definition memory_put (now ttl : N) : res N :=
  if (now + ttl) / second <? 2 ^ 63 then Done (now + ttl) else Crash.

(** From the response to when the entry expires in memory, if it is stored. *)
Definition store_response (now : N) (b : body) (h : http_headers) (default : option N) : res (option N) :=
  match graphql_status b with
  | Some Success =>
      match calculate_cache_ttl Success h default with
      | Done (Some ttl) =>
          match memory_put now ttl with
          | Done e => Done (Some e)
          | Crash => Crash
          end
      | Done None => Done None
      | Crash => Crash
      end
  | _ => Done None
  end.

(** ** Specification *)

(** May be kept: a readable response with data and without errors, which isn't
    marked private or no-store, of a subgraph for which caching is configured. *)
Definition storable (b : body) (h : http_headers) (default : option N) : Prop :=
  (exists null, b = Some (Some null, 0)) /\ default <> None /\
  (forall cc, h_cache_control h = Some cc -> cc_private cc = false /\ cc_no_store cc = false).

(** How long it is still fresh: max-age minus age, in seconds. *)
Definition remaining (h : http_headers) (secs : N) : Prop :=
  exists cc m, h_cache_control h = Some cc /\ cc_max_age cc = Some m /\
    secs + (match h_age h with Some a => a | None => 0 end) = m.

Definition says_max_age (h : http_headers) : Prop :=
  exists cc m, h_cache_control h = Some cc /\ cc_max_age cc = Some m.

(** The response is older than it may become. *)
Definition stale (h : http_headers) : Prop :=
  exists cc m a, h_cache_control h = Some cc /\ cc_max_age cc = Some m /\ h_age h = Some a /\ m < a.

(** ** Theorems *)

(** Without a crash, the entry is stored iff it may be, and expires when max-age
    minus age has passed, or the configured time.  Missing: crashes. *)
Theorem C26_stored_iff_partial : forall now b h d r, store_response now b h d = Done r ->
  (r <> None <-> storable b h d) /\
  (forall e, r = Some e -> says_max_age h -> exists secs, remaining h secs /\ e = now + secs * second) /\
  (forall e, r = Some e -> ~ says_max_age h -> exists ttl, d = Some ttl /\ e = now + ttl).
Proof.
  intros now b h d r E. unfold store_response in E.
  destruct b as [[nul errors]|]; cbn [graphql_status] in E.
  2:{ inversion E; subst. split; [|split; [discriminate|discriminate]]. split; [congruence|]. intros ((n & X) & _). discriminate. }
  destruct nul as [nul|].
  2:{ inversion E; subst. split; [|split; [discriminate|discriminate]]. split; [congruence|]. intros ((n & X) & _). discriminate. }
  destruct (N.eqb_spec errors 0) as [->|Ne].
  2:{ inversion E; subst. split; [|split; [discriminate|discriminate]]. split; [congruence|]. intros ((n & X) & _). congruence. }
  unfold calculate_cache_ttl in E. destruct d as [d|].
  2:{ inversion E; subst. split; [|split; [discriminate|discriminate]]. split; [congruence|]. intros (_ & X & _). congruence. }
  unfold storable, says_max_age, remaining.
  destruct (h_cache_control h) as [cc|] eqn:Ec.
  - destruct (cc_private cc || cc_no_store cc) eqn:Ep.
    + inversion E; subst. split; [|split; [discriminate|discriminate]]. split; [congruence|]. intros (_ & _ & X).
      destruct (X cc eq_refl) as [X1 X2]. rewrite X1, X2 in Ep. discriminate.
    + apply orb_false_iff in Ep.
      assert (S : (exists n, Some (Some nul, 0) = Some (Some n, 0)) /\ Some d <> None /\
        (forall c, Some cc = Some c -> cc_private c = false /\ cc_no_store c = false)).
      { split; [eauto|]. split; [discriminate|]. intros c X. inversion X; subst. exact Ep. }
      destruct (cc_max_age cc) as [m|] eqn:Em.
      * set (age := match h_age h with Some a => a | None => 0 end) in *.
        destruct (m * second <? age * second) eqn:El; [discriminate|]. apply N.ltb_ge in El.
        unfold memory_put in E. destruct (_ <? 2 ^ 63); [|discriminate]. inversion E; subst r.
        split; [split; [intros _; exact S|discriminate]|]. split.
        -- intros e X _. inversion X; subst e. exists (m - age). unfold second in *. split; [|lia].
           exists cc, m. split; [reflexivity|]. split; [exact Em|]. lia.
        -- intros e X N. exfalso. apply N. exists cc, m. auto.
      * unfold memory_put in E. destruct (_ <? 2 ^ 63); [|discriminate]. inversion E; subst r.
        split; [split; [intros _; exact S|discriminate]|]. split.
        -- intros e X (c & m & Y & Z). inversion Y; subst. congruence.
        -- intros e X _. inversion X; subst. eauto.
  - unfold memory_put in E. destruct (_ <? 2 ^ 63); [|discriminate]. inversion E; subst r.
    split; [split; [intros _; split; [eauto|]; split; [discriminate|]; discriminate|discriminate]|]. split.
    + intros e X (c & m & Y & _). discriminate.
    + intros e X _. inversion X; subst. eauto.
Qed.

(** Exactly when it crashes: a storable response which is stale, or is to be kept
    for longer than the clock goes. *)
Theorem C26_crash_iff : forall now b h d, store_response now b h d = Crash <->
  storable b h d /\
  (stale h \/
   (exists secs, remaining h secs /\ 2 ^ 63 <= (now + secs * second) / second) \/
   (~ says_max_age h /\ exists ttl, d = Some ttl /\ 2 ^ 63 <= (now + ttl) / second)).
Proof.
  intros now b h d. unfold storable, stale, says_max_age, remaining, store_response.
  destruct b as [[nul errors]|]; cbn [graphql_status].
  2:{ split; [discriminate|]. intros (((n & X) & _) & _). discriminate. }
  destruct nul as [nul|].
  2:{ split; [discriminate|]. intros (((n & X) & _) & _). discriminate. }
  destruct (N.eqb_spec errors 0) as [->|Ne].
  2:{ split; [discriminate|]. intros (((n & X) & _) & _). congruence. }
  unfold calculate_cache_ttl. destruct d as [d|].
  2:{ split; [discriminate|]. intros ((_ & X & _) & _). congruence. }
  unfold memory_put.
  destruct (h_cache_control h) as [cc|] eqn:Ec.
  - destruct (cc_private cc || cc_no_store cc) eqn:Ep.
    + split; [discriminate|]. intros ((_ & _ & X) & _). destruct (X cc eq_refl) as [X1 X2]. rewrite X1, X2 in Ep. discriminate.
    + apply orb_false_iff in Ep.
      assert (St : (exists n, Some (Some nul, 0) = Some (Some n, 0)) /\ Some d <> None /\
        (forall c, Some cc = Some c -> cc_private c = false /\ cc_no_store c = false)).
      { split; [eauto|]. split; [discriminate|]. intros c X. inversion X; subst. exact Ep. }
      destruct (cc_max_age cc) as [m|] eqn:Em.
      * set (age := match h_age h with Some a => a | None => 0 end) in *.
        destruct (N.ltb_spec (m * second) (age * second)) as [El|El].
        -- split; [|reflexivity]. intros _. split; [exact St|]. left.
           destruct (h_age h) as [a|] eqn:Ea; unfold age, second in *; [|lia]. exists cc, m, a. repeat split; auto. lia.
        -- destruct (N.ltb_spec ((now + (m * second - age * second)) / second) (2 ^ 63)) as [Eo|Eo].
           ++ split; [discriminate|]. intros (_ & [(c & m' & a & Y & Z & A & L)|[(secs & (c & m' & Y & Z & Q) & Le)|(N & _)]]).
              ** inversion Y; subst c. rewrite Z in Em. inversion Em; subst m'. unfold age, second in *. rewrite A in El. lia.
              ** assert (M : m' = m) by congruence. rewrite M in Q. exfalso. fold age in Q.
                 replace (m * second - age * second) with (secs * second) in Eo by (unfold second in *; lia). lia.
              ** exfalso. apply N. exists cc, m. auto.
           ++ split; [|reflexivity]. intros _. split; [exact St|]. right. left. exists (m - age).
              assert (A : m - age + age = m) by (unfold second in El; lia). split; [exists cc, m; auto|].
              replace ((m - age) * second) with (m * second - age * second) by (unfold second in *; lia). exact Eo.
      * destruct (N.ltb_spec ((now + d) / second) (2 ^ 63)) as [Eo|Eo].
        -- split; [discriminate|]. intros (_ & [(c & m' & a & Y & Z & _)|[(secs & (c & m' & Y & Z & _) & _)|(N & ttl & T & Le)]]).
           ++ inversion Y; subst. congruence.
           ++ inversion Y; subst. congruence.
           ++ inversion T; subst. lia.
        -- split; [|reflexivity]. intros _. split; [exact St|]. right. right. split; [|eauto].
           intros (c & m & Y & Z). inversion Y; subst. congruence.
  - destruct (N.ltb_spec ((now + d) / second) (2 ^ 63)) as [Eo|Eo].
    + split; [discriminate|]. intros (_ & [(c & m' & a & Y & _)|[(secs & (c & m' & Y & _) & _)|(N & ttl & T & Le)]]); try discriminate.
      inversion T; subst. lia.
    + split; [|reflexivity]. intros _. split; [split; [eauto|]; split; discriminate|]. right. right. split; [|eauto].
      intros (c & m & Y & _). discriminate.
Qed.

(** A response that spent longer in a cache than it was meant to. *)
Theorem C26_age_refuted : exists b h d, store_response 0 b h d = Crash /\ stale h.
Proof.
  exists (Some (Some false, 0)), (MkH (Some (MkCC false false (Some 60))) (Some 61)), (Some (60 * second)).
  split; [reflexivity|]. exists (MkCC false false (Some 60)), 60, 61. split; [reflexivity|]. split; [reflexivity|].
  split; [reflexivity|]. reflexivity.
Qed.

(** A response to be kept forever. *)
Theorem C26_forever_refuted : exists b h d, store_response 0 b h d = Crash /\ ~ stale h.
Proof.
  exists (Some (Some false, 0)), (MkH (Some (MkCC false false (Some (2 ^ 64 - 1)))) None), (Some (60 * second)).
  split; [vm_compute; reflexivity|]. intros (cc & m & a & _ & _ & X & _). discriminate.
Qed.

Example C26_example :
  let ok := Some (Some false, 0) in
  let d := Some (60 * second) in
  store_response 7 ok (MkH (Some (MkCC false false (Some 100))) (Some 30)) d = Done (Some (7 + 70 * second)) /\
  store_response 7 ok (MkH (Some (MkCC true false (Some 100))) (Some 30)) d = Done None /\
  store_response 7 (Some (Some false, 2)) (MkH None None) d = Done None /\
  store_response 7 ok (MkH None (Some 30)) d = Done (Some (7 + 60 * second)) /\
  store_response 7 ok (MkH None None) None = Done None.
Proof. repeat split; reflexivity. Qed.
