(** Default values that are stored are of their types, in any schema and any order; examples. *)
From Coq Require Import String List ZArith Bool Lia PeanoNat.
From Verif.Coercion Require Model.
From Verif.ExtArgs Require Import Model.
From Verif.ExtArgs Require Coerced.
From Verif.Defaults Require Import Model Spec Coerced Order Properties.
Import ListNotations.
Local Open Scope nat_scope.
Local Open Scope list_scope.

Section Typed.
  Variable g : graph.
  Notation of_id := (input g).
  Notation is_one_of := (fun o => one_of (object_at g o)).
  Notation fields_of := (fun o => field_ids (object_at g o)).
  Notation has_type := (has_type of_id is_one_of fields_of).
  Notation have_type := (have_type of_id is_one_of fields_of).
  Notation of_kind := (of_kind of_id is_one_of fields_of).
  Notation of_fields := (of_fields of_id is_one_of fields_of).
  Notation typed id r := (has_type (inner_required (d_wrapping (of_id id))) (lists (d_wrapping (of_id id))) (d_kind (of_id id)) r).

  Section Known.
    Variable known : nat -> option record.
    Hypothesis known_typed : forall id r, known id = Some r -> typed id r.

    Definition typing (d : kind -> value -> option record) : Prop :=
      forall k v r, v <> VNull -> d k v = Some r -> of_kind k r.

    Lemma type_typed : forall d, typing d -> forall q ls k v r, coerce_type d q ls k v = Some r -> has_type q ls k r.
    Proof.
      intros d T q. induction ls as [|l ls IH]; intros k v r H; cbn [coerce_type] in H.
      - unfold typing in T. destruct v; try (apply HtNamed; refine (T _ _ _ _ H); discriminate).
        destruct q; [discriminate H|]. injection H as <-. constructor.
      - destruct v as [| | | | | |vs|]; try discriminate H.
        + destruct l; [discriminate H|]. injection H as <-. constructor.
        + apply option_map_some in H. destruct H as (rs & H & ->). constructor. revert rs H.
          induction vs as [|v vs IHv]; intros rs H; cbn [each] in H.
          * injection H as <-. constructor.
          * apply bind_some in H. destruct H as (r & E & H). apply option_map_some in H. destruct H as (rs' & H & ->).
            constructor; [exact (IH _ _ _ E)|now apply IHv].
    Qed.

    Lemma wrap_typed : forall q ls k r, of_kind k r -> has_type q ls k (wrap (List.length ls) r).
    Proof.
      intros q ls k r H. assert (E := proj2 (wrap_nested (List.length ls) r _) eq_refl). revert E. generalize (wrap (List.length ls) r).
      induction ls as [|l ls IH]; intros r' N; inversion N as [|? ? r2 N2]; subst.
      - now apply HtNamed.
      - apply HtList. constructor; [now apply IH|constructor].
    Qed.

    Lemma input_typed : forall d, typing d -> forall w k v r, coerce_input d w k v = Some r -> has_type (inner_required w) (lists w) k r.
    Proof.
      intros d T w k v r H. unfold coerce_input in H. destruct (lists w) as [|l ls] eqn:L.
      - rewrite <- L in *. exact (type_typed d T _ _ _ _ _ H).
      - rewrite <- L in *. destruct v; try (exact (type_typed d T _ _ _ _ _ H));
          (apply option_map_some in H; destruct H as (r1 & H & ->); apply wrap_typed; refine (T _ _ _ _ H); discriminate).
    Qed.

    Lemma fields_typed : forall d, typing d -> forall ids fs rs, coerce_fields g known d ids fs = Some rs -> of_fields ids rs.
    Proof.
      intros d T. induction ids as [|id ids IH]; intros fs rs H; cbn [coerce_fields] in H.
      - destruct fs; [|discriminate H]. injection H as <-. constructor.
      - destruct (position (d_name (of_id id)) fs) as [i|].
        + apply bind_some in H. destruct H as (f & _ & H). apply bind_some in H. destruct H as (r & E & H).
          apply option_map_some in H. destruct H as (rs' & H & ->). constructor; [exact (input_typed d T _ _ _ _ E)|exact (IH _ _ H)].
        + destruct (known id) as [r|] eqn:K.
          * apply option_map_some in H. destruct H as (rs' & H & ->). constructor; [now apply known_typed|exact (IH _ _ H)].
          * destruct (non_null (d_wrapping (of_id id))) eqn:N; [discriminate H|]. apply OfAbsent; [|exact (IH _ _ H)].
            intro R. apply non_null_required in R. congruence.
    Qed.

    Lemma ingest_fixed : forall v, fixed (ingest v).
    Proof.
      fix F 1. intros [|s|z|m e|b|s|l|fs]; cbn [ingest]; constructor.
      - induction l as [|v l IH]; constructor; [apply F|exact IH].
      - induction fs as [|[k v] l IH]; constructor; [apply F|exact IH].
    Qed.

    Lemma named_typed : forall n, typing (coerce_named g known n).
    Proof.
      induction n as [|n IH]; intros k v r N H; [discriminate H|]. cbn [coerce_named] in H. destruct k as [s|values|o].
      - apply (scalar_iff g) in H. inversion H as [| | | |? ? z F B| |? ? A| | |]; subst; try now constructor.
        + constructor. lia.
        + apply as_is_only in A. subst r. constructor; [destruct v; cbn; congruence|apply ingest_fixed].
      - unfold coerce_enum in H. destruct v; try discriminate H. destruct (existsb (String.eqb s) values) eqn:E; [|discriminate H]. injection H as <-.
        apply existsb_exists in E. destruct E as (x & I & E). apply String.eqb_eq in E. subst x. now constructor.
      - unfold coerce_object in H. destruct v as [| | | | | | |fs]; try discriminate H. destruct (one_of (object_at g o)) eqn:O.
        + destruct fs as [|f [|f2 fs]]; try discriminate H. apply bind_some in H. destruct H as (id & F & H). apply find_some in F.
          apply option_map_some in H. destruct H as (r' & H & ->). apply OkOneOf; [exact O|exact (proj1 F)|]. exact (input_typed _ IH _ _ _ _ H).
        + apply option_map_some in H. destruct H as (rs & H & ->). apply OkObject; [exact O|]. exact (fields_typed _ IH _ _ _ H).
    Qed.

    Lemma coerce_typed : forall id v r, coerce g known id v = Some r -> typed id r.
    Proof. intros id v r H. exact (input_typed _ (named_typed (depth v)) _ _ _ _ H). Qed.
  End Known.
End Typed.

(** In every schema with types that exist, whatever the order: the default values that are stored are of
    their types, and without an error each one that was written is stored. *)
Theorem C111_types : forall g pick,
  (forall id o, d_kind (input g id) = KObject o -> o < List.length (objects g)) ->
  (forall n l, l <> [] -> In (pick n l) l) ->
  exists s, add_default_values pick g = Some s /\
    (forall id r, In (id, r) (table s) ->
      d_default (input g id) <> None /\
      has_type (input g) (fun o => one_of (object_at g o)) (fun o => field_ids (object_at g o))
        (inner_required (d_wrapping (input g id))) (lists (d_wrapping (input g id))) (d_kind (input g id)) r) /\
    (forall id, d_default (input g id) <> None <-> In id (errors s) \/ exists r, In (id, r) (table s)) /\
    NoDup (map fst (table s)).
Proof.
  intros g pick KS PK. unfold add_default_values.
  set (ids := filter (has_default g) (seq 0 (List.length (inputs g)))).
  destruct (outer_keeps g KS pick PK (fun _ s =>
      (forall id r, In (id, r) (table s) ->
        has_type (input g) (fun o => one_of (object_at g o)) (fun o => field_ids (object_at g o))
          (inner_required (d_wrapping (input g id))) (lists (d_wrapping (input g id))) (d_kind (input g id)) r) /\
      (forall id, d_default (input g id) <> None <-> In id (left s) \/ In id (errors s) \/ exists r, In (id, r) (table s)) /\
      NoDup (map fst (table s)) /\ (forall id, In id (map fst (table s)) -> ~ In id (left s))))
    with (fuel := List.length ids) (s := {| left := ids; seen := []; table := []; errors := [] |})
    as (s & R & L & G1 & G2 & G3 & G4).
  - intros id rest s (G1 & G2 & G3 & G4) _. pose proof (left_settle g id s) as LS. unfold settle in *.
    destruct (mem id (left s)) eqn:M; [|split; [|split; [|split]]; assumption]. apply mem_in in M.
    assert (D : d_default (input g id) <> None) by (apply G2; now left).
    destruct (d_default (input g id)) as [v|] eqn:DV; [|contradiction]. cbn [bind] in *.
    destruct (coerce g (known_in (table s)) id v) as [r|] eqn:C; cbn [left seen table errors] in *.
    + split; [|split; [|split]].
      * intros x y [E|I]; [|now apply G1]. injection E as <- <-. eapply coerce_typed; [|exact C].
        intros i q K. apply G1. now apply known_iff.
      * intro x. rewrite G2. rewrite LS. split.
        -- intros [H|[H|[q H]]]; [|tauto|right; right; exists q; now right]. destruct (Nat.eq_dec x id) as [->|N]; [|tauto].
           right. right. exists r. now left.
        -- intros [[H _]|[H|[q [E|H]]]]; [tauto|tauto| |right; right; now exists q]. injection E as <- <-. now left.
      * cbn [map fst]. constructor; [|exact G3]. intro J. exact (G4 id J M).
      * intros x [<-|J] Y; apply LS in Y; [now destruct Y|]. exact (G4 x J (proj1 Y)).
    + split; [exact G1|]. split; [|split; [exact G3|]].
      * intro x. rewrite G2. rewrite LS. rewrite in_app_iff. split.
        -- intros [H|[H|H]]; [|tauto|tauto]. destruct (Nat.eq_dec x id) as [->|N]; [|tauto]. right. left. right. now left.
        -- intros [[H _]|[[H|[<-|[]]]|H]]; tauto.
      * intros x J Y. apply LS in Y. exact (G4 x J (proj1 Y)).
  - intros id rest s o G _ _. exact G.
  - intros id s G _. exact G.
  - apply Nat.le_refl.
  - apply NoDup_filter. apply seq_NoDup.
  - cbn [left seen table errors]. split; [intros id r []|]. split; [|split; [constructor|intros id []]].
    intro id. split; [intro D; left; now apply ids_in|]. intros [H|[[]|[r []]]]. now apply ids_in.
  - exists s. split; [exact R|]. rewrite L in G2. split; [|split; [|exact G3]].
    + intros id r I. split; [|now apply G1]. apply G2. right. right. now exists r.
    + intro id. rewrite G2. split; [intros [[]|H]; exact H|tauto].
Qed.

(** *** Examples *)

Local Open Scope string_scope.

Definition plain (n : string) (q : bool) (k : kind) (v : option value) : definition :=
  {| d_name := n; d_wrapping := {| inner_required := q; lists := [] |}; d_kind := k; d_default := v |}.
Definition listed (n : string) (k : kind) (v : option value) : definition :=
  {| d_name := n; d_wrapping := {| inner_required := true; lists := [false] |}; d_kind := k; d_default := v |}.

(** [input Filter { and: [Filter!], page: Page = {} }  input Page { size: Int! = 10, after: String }] and an
    argument [filter: Filter = { and: { page: { after: "x" } } }]. *)
Definition ex : graph := {|
  inputs := [
    listed "and" (KObject 0) None;
    plain "page" false (KObject 1) (Some (VObj []));
    plain "size" true (KScalar ScInt) (Some (VInt 10));
    plain "after" false (KScalar ScString) None;
    plain "filter" false (KObject 0) (Some (VObj [("and", VObj [("page", VObj [("after", VStr "x")])])]))];
  objects := [{| one_of := false; field_ids := [0; 1] |}; {| one_of := false; field_ids := [2; 3] |}] |}.

Definition first_key (n : nat) (l : list nat) : nat := hd 0 l.
Definition last_key (n : nat) (l : list nat) : nat := last l 0.

Lemma first_picks : forall (n : nat) l, l <> [] -> In (first_key n l) l.
Proof. intros n [|x l] H; [contradiction|]. now left. Qed.

Lemma last_picks : forall (n : nat) l, l <> [] -> In (last_key n l) l.
Proof.
  intros n l H. unfold last_key. destruct (exists_last H) as (l' & a & ->). rewrite last_last. apply in_or_app. right. now left.
Qed.

Lemma ex_well : well_formed (input ex) (fun o => field_ids (object_at ex o)).
Proof.
  split.
  - intros [|[|o]] [|[|o']] id I I'; cbn in I, I'; try reflexivity; try (destruct o; contradiction); try (destruct o'; contradiction);
      exfalso; repeat match goal with H : _ \/ _ |- _ => destruct H end; subst; try contradiction; discriminate.
  - intros [|[|o]]; cbn.
    + constructor; [intros [E|[]]; discriminate E|]. constructor; [intros []|constructor].
    + constructor; [intros [E|[]]; discriminate E|]. constructor; [intros []|constructor].
    + destruct o; constructor.
Qed.

Lemma ex_no_cycle : no_cycle (input ex) (fun o => field_ids (object_at ex o)).
Proof.
  assert (P : forall o, contains (input ex) (fun o => field_ids (object_at ex o)) 1 o -> o = 1).
  { intros o C. inversion C as [|? id o' ? I K _]; [reflexivity|]. subst. cbn in I. destruct I as [<-|[<-|[]]]; cbn in K; discriminate K. }
  intros [|[|o]] id o' I D K C; cbn in I.
  - destruct I as [<-|[<-|[]]]; cbn in D, K; [contradiction|]. injection K as <-. apply P in C. discriminate C.
  - destruct I as [<-|[<-|[]]]; cbn in K; discriminate K.
  - destruct o; contradiction.
Qed.

Theorem C111_ex :
  well_formed (input ex) (fun o => field_ids (object_at ex o)) /\ no_cycle (input ex) (fun o => field_ids (object_at ex o)) /\
  exists s, add_default_values first_key ex = Some s /\ errors s = [] /\
  exists s', add_default_values last_key ex = Some s' /\ errors s' = [] /\
  forall t, t = s \/ t = s' ->
    In (4, RObject [(0, RList [RObject [(1, RObject [(2, RInt 10); (3, RStr "x")])]]); (1, RObject [(2, RInt 10)])]) (table t).
Proof.
  split; [exact ex_well|]. split; [exact ex_no_cycle|]. eexists. split; [vm_compute; reflexivity|]. split; [reflexivity|].
  eexists. split; [vm_compute; reflexivity|]. split; [reflexivity|]. intros t [->| ->]; cbn [table In]; tauto.
Qed.

(** [input Filter { size: Int = 10, and: [Filter!] = [{ and: [] }] }]: what the default value of [and]
    contains depends on the order. *)
Definition recursive (q : bool) : graph := {|
  inputs := [
    plain "size" q (KScalar ScInt) (Some (VInt 10));
    listed "and" (KObject 0) (Some (VList [VObj [("and", VList [])]]))];
  objects := [{| one_of := false; field_ids := [0; 1] |}] |}.

Theorem C111_order_refuted : exists g s s',
  well_formed (input g) (fun o => field_ids (object_at g o)) /\
  add_default_values first_key g = Some s /\ errors s = [] /\
  add_default_values last_key g = Some s' /\ errors s' = [] /\
  In (1, RList [RObject [(0, RInt 10); (1, RList [])]]) (table s) /\
  In (1, RList [RObject [(1, RList [])]]) (table s').
Proof.
  exists (recursive false). eexists. eexists. split.
  { split.
    - intros [|o] [|o'] id I I'; cbn in I, I'; [reflexivity|destruct o'; contradiction|destruct o; contradiction|destruct o; contradiction].
    - intros [|o]; cbn; [|destruct o; constructor]. constructor; [intros [E|[]]; discriminate E|]. constructor; [intros []|constructor]. }
  split; [vm_compute; reflexivity|]. split; [reflexivity|]. split; [vm_compute; reflexivity|]. split; [reflexivity|].
  split; cbn [table In]; tauto.
Qed.

(** With [size: Int! = 10] the schema is accepted in one order and refused in the other, although every
    default value stands for something. *)
Theorem C111_refused_refuted : exists g s s',
  (forall id, d_default (input g id) <> None ->
    exists r, default_as (input g) (fun o => one_of (object_at g o)) (fun o => field_ids (object_at g o)) id r) /\
  add_default_values first_key g = Some s /\ errors s = [] /\
  add_default_values last_key g = Some s' /\ errors s' = [1].
Proof.
  exists (recursive true). eexists. eexists. split.
  { assert (D0 : default_as (input (recursive true)) (fun o => one_of (object_at (recursive true) o)) (fun o => field_ids (object_at (recursive true) o)) 0 (RInt 10)).
    { eapply Default; [reflexivity|]. apply WhItem. apply ItNamed; [discriminate|]. constructor. lia. }
    intros [|[|id]] D; [exists (RInt 10); exact D0| |destruct id; contradiction].
    exists (RList [RObject [(0, RInt 10); (1, RList [])]]). eapply Default; [reflexivity|]. apply WhItem. cbn. apply ItList.
    apply IsCons; [|constructor]. apply ItNamed; [discriminate|]. apply NaObject.
    - reflexivity.
    - constructor; [intros []|constructor].
    - intros y [<-|[]]. cbn. tauto.
    - cbn. apply FaDefault; [cbn; intros [E|[]]; discriminate E|exact D0|].
      eapply FaGiven; [now left| |constructor]. apply WhItem. cbn. apply ItList. constructor. }
  split; [vm_compute; reflexivity|]. split; [reflexivity|]. split; [vm_compute; reflexivity|reflexivity].
Qed.

(** A default value that contains itself is accepted, cut off: [input A { a: A = {}, n: Int = 1 }]. *)
Theorem C111_cycle_refuted : exists g s,
  add_default_values first_key g = Some s /\ errors s = [] /\
  (forall r, ~ default_as (input g) (fun o => one_of (object_at g o)) (fun o => field_ids (object_at g o)) 0 r) /\
  In (0, RObject [(1, RInt 1)]) (table s).
Proof.
  set (g := {| inputs := [plain "a" false (KObject 0) (Some (VObj [])); plain "n" false (KScalar ScInt) (Some (VInt 1))];
               objects := [{| one_of := false; field_ids := [0; 1] |}] |}).
  exists g. eexists. split; [vm_compute; reflexivity|]. split; [reflexivity|]. split; [|cbn [table In]; tauto].
  (* by the size of the value *)
  assert (SZ : forall n r, (fix size r := match r with RObject fs => S (fold_right (fun f n => size (snd f) + n) 0 fs) | _ => 0 end) r <= n ->
    ~ default_as (input g) (fun o => one_of (object_at g o)) (fun o => field_ids (object_at g o)) 0 r).
  { induction n as [|n IH]; intros r B H; inversion H as [? v ? DV W]; subst; cbn in DV; injection DV as <-;
      inversion W as [? ? ? ? IT|? ? ? ? ? NL]; subst; [|contradiction NL; reflexivity| |contradiction NL; reflexivity];
      cbn in IT; inversion IT as [|? ? ? ? NN NA| |]; subst; inversion NA as [| | | | | | | |? ? ? ? ? O|? ? rs O A1 A2 FA]; subst; try discriminate O;
      cbn in FA; inversion FA as [|? ? ? ? ? ? G1|? ? ? r1 rs1 G1 G2 G3|? ? ? ? G1 G2]; subst; try contradiction; try discriminate G2.
    - lia.
    - apply (IH r1); [|exact G2]. cbn [fold_right snd] in B. lia. }
  intros r. exact (SZ _ r (Nat.le_refl _)).
Qed.

(** Null is accepted for the one field of a oneOf. *)
Theorem C111_one_of_null_refuted : exists g s,
  one_of (object_at g 0) = true /\ add_default_values first_key g = Some s /\ errors s = [] /\ table s = [(1, RObject [(0, RNull)])].
Proof.
  exists {| inputs := [plain "a" false (KScalar ScInt) None; plain "x" false (KObject 0) (Some (VObj [("a", VNull)]))];
            objects := [{| one_of := true; field_ids := [0] |}] |}.
  eexists. split; [reflexivity|]. split; [vm_compute; reflexivity|]. split; reflexivity.
Qed.

(** [Int = -1e10] is accepted as another number. *)
Theorem C111_int_refuted : exists g s,
  d_default (input g 0) = Some (VFloat (-10000000000) 0) /\ d_kind (input g 0) = KScalar ScInt /\
  add_default_values first_key g = Some s /\ errors s = [] /\ table s = [(0, RInt (-2147483648))].
Proof.
  exists {| inputs := [plain "n" false (KScalar ScInt) (Some (VFloat (-10000000000) 0))]; objects := [] |}.
  eexists. split; [reflexivity|]. split; [reflexivity|]. split; [vm_compute; reflexivity|]. split; reflexivity.
Qed.
