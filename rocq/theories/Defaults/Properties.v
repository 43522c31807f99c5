(** C111: default values are what was written, completed with the default values of what it leaves out,
    whatever the order in which they are found; and they are of their types. *)
From Coq Require Import String List ZArith Bool Lia PeanoNat.
From Verif.ExtArgs Require Import Model.
From Verif.ExtArgs Require Coerced.
From Verif.Defaults Require Import Model Spec Coerced Order.
Import ListNotations.
Local Open Scope nat_scope.
Local Open Scope list_scope.

Lemma known_iff : forall t id r, NoDup (map fst t) -> known_in t id = Some r <-> In (id, r) t.
Proof.
  intros t id r. unfold known_in. induction t as [|[k x] t IH]; intro ND; [split; [discriminate|contradiction]|].
  cbn [map fst] in ND. inversion ND as [|? ? N1 N2]. subst. cbn [find fst]. destruct (Nat.eqb k id) eqn:E.
  - apply Nat.eqb_eq in E. subst k. cbn [option_map snd]. split.
    + intro H. injection H as <-. now left.
    + intros [H|H]; [now injection H as <-|]. exfalso. apply N1. apply in_map_iff. now exists (id, r).
  - apply Nat.eqb_neq in E. rewrite (IH N2). split; [now right|]. intros [H|H]; [|exact H]. injection H as H _. congruence.
Qed.

Lemma known_cons : forall t id r x, known_in ((id, r) :: t) x = if Nat.eqb id x then Some r else known_in t x.
Proof. intros t id r x. unfold known_in. cbn [find fst]. now destruct (Nat.eqb id x). Qed.

Lemma known_key : forall t id r, known_in t id = Some r -> In id (map fst t).
Proof.
  intros t id r H. unfold known_in in H. destruct (find _ t) as [[k x]|] eqn:F; [|discriminate H]. apply find_some in F.
  destruct F as [F E]. apply Nat.eqb_eq in E. cbn [fst] in E. subst k. apply in_map_iff. now exists (id, x).
Qed.

Lemma input_beyond : forall g id, List.length (inputs g) <= id -> input g id = no_definition.
Proof. intros g id H. unfold input. now apply nth_overflow. Qed.

Lemma ids_in : forall g id, In id (filter (has_default g) (seq 0 (List.length (inputs g)))) <-> d_default (input g id) <> None.
Proof.
  intros g id. rewrite filter_In, in_seq. unfold has_default. split.
  - intros [_ H]. now destruct (d_default (input g id)).
  - intro H. split; [|destruct (d_default (input g id)); congruence]. split; [lia|]. cbn.
    destruct (Nat.lt_ge_cases id (List.length (inputs g))) as [L|L]; [exact L|]. exfalso. apply H. now rewrite (input_beyond g id L).
Qed.

Section Properties.
  Variable g : graph.
  Notation of_id := (input g).
  Notation is_one_of := (fun o => one_of (object_at g o)).
  Notation fields_of := (fun o => field_ids (object_at g o)).
  Notation default_as := (default_as of_id is_one_of fields_of).
  Notation contains := (contains of_id fields_of).

  Lemma contains_trans : forall a b c, contains a b -> contains b c -> contains a c.
  Proof. intros a b c H. induction H as [o|o id o' o'' H1 H2 _ IH]; intro K; [exact K|]. eapply CField; [exact H1|exact H2|now apply IH]. Qed.

  (** *** The order of the stack *)

  Fixpoint ordered (stack : list nat) : Prop :=
    match stack with
    | [] => True
    | e :: rest =>
      (rest = [] \/ exists z, In e (fields_of z)) /\
      (forall e' z' z, In e' rest -> In e' (fields_of z') -> In e (fields_of z) -> contains z' z) /\
      ordered rest
    end.

  (** Every field of an object that was seen is done, or waits in the stack. *)
  Definition followed (stack : list nat) (s : state) : Prop :=
    forall o id, In o (seen s) -> In id (fields_of o) ->
    In id stack \/ (~ In id (left s) /\ forall o', d_kind (of_id id) = KObject o' -> In o' (seen s)).

  (** What is known is what the default values stand for. *)
  Record good (s : state) : Prop := {
    left_defaults : forall id, In id (left s) -> d_default (of_id id) <> None;
    keys_once : NoDup (map fst (table s));
    keys_done : forall id, In id (map fst (table s)) -> d_default (of_id id) <> None /\ ~ In id (left s);
    done_settled : errors s = [] -> forall id, ~ In id (left s) -> settled g (known_in (table s)) id;
    error_reason : errors s <> [] -> exists id, d_default (of_id id) <> None /\ forall r, ~ default_as id r
  }.

  Hypothesis WF : well_formed of_id fields_of.
  Hypothesis NC : no_cycle of_id fields_of.

  Lemma ordered_fields : forall o id rest l, d_kind (of_id id) = KObject o -> ordered (id :: rest) -> incl l (fields_of o) ->
    ordered (l ++ id :: rest).
  Proof.
    intros o id rest l K H. induction l as [|e l IH]; intro IN; [exact H|]. cbn [app ordered].
    assert (EO : In e (fields_of o)) by (apply IN; now left).
    split; [right; exists o; exact EO|]. split; [|apply IH; intros y Y; apply IN; now right].
    intros e' z' z J Z' Z. assert (z = o) by exact (proj1 WF _ _ _ Z EO). subst z.
    apply in_app_or in J. destruct J as [J|[J|J]].
    - assert (z' = o) by (apply (proj1 WF) with e'; [exact Z'|apply IN; now right]). subst z'. constructor.
    - subst e'. eapply CField; [exact Z'|exact K|constructor].
    - cbn [ordered] in H. destruct H as (H1 & H2 & _). destruct H1 as [->|[zi ZI]]; [contradiction|].
      eapply contains_trans; [exact (H2 e' z' zi J Z' ZI)|]. eapply CField; [exact ZI|exact K|constructor].
  Qed.

  Definition invariant (stack : list nat) (s : state) : Prop := ordered stack /\ followed stack s /\ good s.

  (** When a default value is coerced, everything inside its type is done. *)
  Lemma inside_done : forall id rest s x, ordered (id :: rest) -> followed (id :: rest) s -> d_default (of_id id) <> None ->
    d_kind (of_id id) = KObject x -> In x (seen s) ->
    forall y, contains x y -> forall f, In f (fields_of y) -> ~ In f (left s).
  Proof.
    intros id rest s x O F D K SX.
    assert (OUT : forall y f, contains x y -> In f (fields_of y) -> ~ In f (id :: rest)).
    { intros y f C IF [<-|J]; [exact (NC y id x IF D K C)|]. cbn [ordered] in O. destruct O as (O1 & O2 & _).
      destruct O1 as [->|[z Z]]; [contradiction|]. apply (NC z id x Z D K). eapply contains_trans; [exact C|].
      exact (O2 f y z J IF Z). }
    assert (SEEN : forall a y, contains a y -> contains x a -> In a (seen s) -> In y (seen s)).
    { intros a y C. induction C as [o|o f o' o'' H1 H2 _ IH]; intros CX SA; [exact SA|]. apply IH.
      - eapply contains_trans; [exact CX|]. eapply CField; [exact H1|exact H2|constructor].
      - destruct (F o f SA H1) as [J|[_ J]]; [exfalso; exact (OUT o f CX H1 J)|]. now apply J. }
    intros y C f IF. destruct (F y f (SEEN x y C (CSame _ _ _) SX) IF) as [J|[J _]]; [exfalso; exact (OUT y f C IF J)|exact J].
  Qed.

  Lemma settled_other : forall t id r x, settled g (known_in t) x -> id <> x -> settled g (known_in ((id, r) :: t)) x.
  Proof.
    intros t id r x H N. unfold settled in *. rewrite known_cons. apply Nat.eqb_neq in N. now rewrite N.
  Qed.

  Lemma invariant_settle : forall id rest s, invariant (id :: rest) s -> (forall o, d_kind (of_id id) = KObject o -> In o (seen s)) ->
    invariant rest (settle g id s).
  Proof.
    intros id rest s (O & F & G) K. split; [exact (proj2 (proj2 O))|]. split.
    { intros o f SO IF. rewrite seen_settle in *. destruct (F o f SO IF) as [[<-|J]|[J1 J2]].
      - right. split; [intro X; apply left_settle in X; now destruct X|exact K].
      - now left.
      - right. split; [intro X; apply left_settle in X; now destruct X|exact J2]. }
    pose proof (left_settle g id s) as LS. destruct (mem id (left s)) eqn:M; [|unfold settle; now rewrite M].
    apply mem_in in M. pose proof (left_defaults s G id M) as D.
    assert (NK : ~ In id (map fst (table s))) by (intro J; apply (keys_done s G) in J; now destruct J).
    assert (EX : errors s = [] -> forall v r, d_default (of_id id) = Some v ->
      coerce g (known_in (table s)) id v = Some r <-> default_as id r).
    { intros E v r DV. unfold coerce.
      transitivity (whole of_id is_one_of fields_of (d_wrapping (of_id id)) (d_kind (of_id id)) v r).
      - eapply input_iff; [|apply Nat.le_refl].
        apply named_iff with (P := fun y => exists x, d_kind (of_id id) = KObject x /\ contains x y).
        + exact (proj2 WF).
        + intros o f o' (x & KX & C) IF KF. exists x. split; [exact KX|]. eapply contains_trans; [exact C|]. eapply CField; [exact IF|exact KF|constructor].
        + intros o f (x & KX & C) IF. apply (done_settled s G E). exact (inside_done id rest s x O F D KX (K x KX) o C f IF).
        + intros o KO. exists o. split; [exact KO|constructor].
      - split; [intro H; now apply Default with v|]. intro H. inversion H as [? v' ? H1 H2]. subst. congruence. }
    unfold settle in *. rewrite (proj2 (mem_in _ _) M) in *.
    destruct (d_default (of_id id)) as [v|] eqn:DV; [|contradiction]. cbn [bind] in *.
    destruct (coerce g (known_in (table s)) id v) as [r|] eqn:C; split; cbn [left seen table errors] in *.
    - intros x X. apply LS in X. now apply (left_defaults s G).
    - cbn [map fst]. constructor; [exact NK|exact (keys_once s G)].
    - intros x [<-|X].
      + cbn [fst] in *; split; [rewrite DV; discriminate|]. intro Y. apply LS in Y. now destruct Y.
      + split; [now apply (keys_done s G)|]. intro Y. apply LS in Y. apply (keys_done s G) in X. tauto.
    - intros E x X. destruct (Nat.eq_dec id x) as [<-|N].
      + unfold settled. rewrite DV. rewrite known_cons, Nat.eqb_refl. exists r. split; [reflexivity|]. intro r'.
        rewrite <- (EX E v r' eq_refl). rewrite C. split; [intro H; now injection H|intros ->; reflexivity].
      + apply settled_other; [|exact N]. apply (done_settled s G E). intro Y. apply X. apply LS. split; [exact Y|congruence].
    - exact (error_reason s G).
    - intros x X. apply LS in X. now apply (left_defaults s G).
    - exact (keys_once s G).
    - intros x X. split; [now apply (keys_done s G)|]. intro Y. apply LS in Y. apply (keys_done s G) in X. tauto.
    - intros E. destruct (errors s); discriminate E.
    - intros _. destruct (errors s) as [|e es] eqn:E; [|apply (error_reason s G); congruence].
      exists id. split; [congruence|]. intros r H. apply (EX eq_refl v r eq_refl) in H. rewrite C in H. discriminate H.
  Qed.

  Lemma invariant_see : forall id rest s o, invariant (id :: rest) s -> d_kind (of_id id) = KObject o -> ~ In o (seen s) ->
    invariant (rev (fields_of o) ++ id :: rest) (see o s).
  Proof.
    intros id rest s o (O & F & G) K N. split.
    { apply ordered_fields with o; [exact K|exact O|]. intros y Y. now apply in_rev. }
    split.
    - intros o' f [<-|SO] IF.
      + left. apply in_or_app. left. now apply in_rev in IF.
      + destruct (F o' f SO IF) as [J|[J1 J2]]; [left; apply in_or_app; now right|]. right. split; [exact J1|].
        intros o2 K2. right. now apply J2.
    - destruct G as [G1 G2 G3 G4 G5]. split; assumption.
  Qed.

  Lemma invariant_start : forall id s, invariant [] s -> In id (left s) -> invariant [id] s.
  Proof.
    intros id s (_ & F & G) _. split; [|split; [|exact G]].
    - cbn [ordered]. split; [now left|]. split; [intros e' z' z []|exact Logic.I].
    - intros o f SO IF. destruct (F o f SO IF) as [[]|J]. now right.
  Qed.
End Properties.

(** With types that exist, fields of one input object each and no default value where an input object
    contains itself: there is no error exactly when every default value stands for something, and then each
    one is stored as what it stands for. *)
Theorem C111_exact : forall g pick,
  (forall id o, d_kind (input g id) = KObject o -> o < List.length (objects g)) ->
  (forall n l, l <> [] -> In (pick n l) l) ->
  let is_one_of o := one_of (object_at g o) in
  let fields_of o := field_ids (object_at g o) in
  well_formed (input g) fields_of ->
  no_cycle (input g) fields_of ->
  exists s, add_default_values pick g = Some s /\
    (errors s = [] <-> forall id, d_default (input g id) <> None -> exists r, default_as (input g) is_one_of fields_of id r) /\
    (errors s = [] -> forall id r, In (id, r) (table s) <-> default_as (input g) is_one_of fields_of id r).
Proof.
  intros g pick KS PK is_one_of fields_of WF NC. unfold add_default_values.
  set (ids := filter (has_default g) (seq 0 (List.length (inputs g)))).
  destruct (outer_keeps g KS pick PK (invariant g)) with (fuel := List.length ids) (s := {| left := ids; seen := []; table := []; errors := [] |})
    as (s & R & L & (_ & _ & G)).
  - intros id rest s. now apply invariant_settle.
  - intros id rest s o. now apply invariant_see.
  - intros id s. now apply invariant_start.
  - apply Nat.le_refl.
  - apply NoDup_filter. apply seq_NoDup.
  - split; [exact Logic.I|]. split; [intros o f []|]. split; cbn [left seen table errors].
    + intros id I. now apply ids_in.
    + constructor.
    + intros id [].
    + intros _ id N. unfold settled. destruct (d_default (input g id)) as [v|] eqn:D; [|reflexivity]. exfalso. apply N. apply ids_in. congruence.
    + congruence.
  - exists s. split; [exact R|].
    assert (SET : errors s = [] -> forall id, settled g (known_in (table s)) id).
    { intros E id. apply (done_settled g s G E). rewrite L. intros []. }
    split.
    + split.
      * intros E id D. specialize (SET E id). unfold settled in SET. destruct (d_default (input g id)) as [v|]; [|contradiction].
        destruct SET as (r & _ & U). exists r. now apply U.
      * intro A. destruct (errors s) as [|e es] eqn:E; [reflexivity|]. exfalso.
        destruct (error_reason g s G) as (id & D & X); [congruence|]. destruct (A id D) as [r DR]. exact (X r DR).
    + intros E id r. rewrite <- (known_iff _ _ _ (keys_once g s G)). specialize (SET E id). unfold settled in SET.
      destruct (d_default (input g id)) as [v|] eqn:DV.
      * destruct SET as (r' & K & U). rewrite K. split.
        -- intro H. injection H as <-. now apply U.
        -- intro H. apply U in H. now subst.
      * rewrite SET. split; [discriminate|]. intro H. inversion H. congruence.
Qed.

(** So the order doesn't matter. *)
Theorem C111_order : forall g pick pick' s s',
  (forall id o, d_kind (input g id) = KObject o -> o < List.length (objects g)) ->
  (forall n l, l <> [] -> In (pick n l) l) ->
  (forall n l, l <> [] -> In (pick' n l) l) ->
  well_formed (input g) (fun o => field_ids (object_at g o)) ->
  no_cycle (input g) (fun o => field_ids (object_at g o)) ->
  add_default_values pick g = Some s -> add_default_values pick' g = Some s' ->
  (errors s = [] <-> errors s' = []) /\
  (errors s = [] -> forall id r, In (id, r) (table s) <-> In (id, r) (table s')).
Proof.
  intros g pick pick' s s' KS PK PK' WF NC R R'.
  destruct (C111_exact g pick KS PK WF NC) as (t & T & T1 & T2). rewrite R in T. injection T as <-.
  destruct (C111_exact g pick' KS PK' WF NC) as (t' & T' & T1' & T2'). rewrite R' in T'. injection T' as <-.
  split; [now rewrite T1, T1'|]. intros E id r. rewrite (T2 E). rewrite T2'; [reflexivity|]. apply T1', T1. exact E.
Qed.
