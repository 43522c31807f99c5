(* Type system documents, shared by the models of
   /repo/crates/graphql-schema-diff and /repo/crates/operation-checks.

   The two crates read the documents through `cynic-parser` and
   `async-graphql-parser`.  Neither parser is modelled: a document is the list
   of its definitions.  Descriptions, directives that are applied to
   definitions and the positions in the text are left out.  The arguments and
   locations of a directive definition are left out as well, since neither
   crate reads them.  A default value is the text of the value; the code
   compares the parsed values. *)
From Coq Require Import String List Bool.
Import ListNotations.
Local Open Scope string_scope.

Inductive ty : Type :=
| TName (n : string)
| TList (t : ty)
| TNonNull (t : ty).

Fixpoint ty_eqb (a b : ty) : bool :=
  match a, b with
  | TName x, TName y => String.eqb x y
  | TList x, TList y => ty_eqb x y
  | TNonNull x, TNonNull y => ty_eqb x y
  | _, _ => false
  end.

(* The argument of a field or the field of an input object. *)
Record input := mkinput { i_name : string; i_type : ty; i_default : option string }.

Record field := mkfield { f_name : string; f_args : list input; f_type : ty }.

(* The root types of a schema definition. *)
Record roots := mkroots { r_query : option string; r_mutation : option string; r_subscription : option string }.

Inductive tdef : Type :=
| TScalar (n : string)
| TObject (n : string) (impls : list string) (fields : list field)
| TInterface (n : string) (impls : list string) (fields : list field)
| TUnion (n : string) (members : list string)
| TEnum (n : string) (values : list string)
| TInput (n : string) (fields : list input).

Inductive def : Type :=
| DSchema (r : roots)
| DSchemaExt (r : roots)
| DDirective (n : string)
| DType (t : tdef)
| DTypeExt (t : tdef).

Definition doc := list def.

Inductive kind := KDirective | KEnum | KInput | KInterface | KObject | KScalar | KUnion.

Definition kind_eqb (a b : kind) : bool :=
  match a, b with
  | KDirective, KDirective | KEnum, KEnum | KInput, KInput | KInterface, KInterface
  | KObject, KObject | KScalar, KScalar | KUnion, KUnion => true
  | _, _ => false
  end.

Definition tdef_name (t : tdef) : string :=
  match t with
  | TScalar n | TObject n _ _ | TInterface n _ _ | TUnion n _ | TEnum n _ | TInput n _ => n
  end.

Definition tdef_kind (t : tdef) : kind :=
  match t with
  | TScalar _ => KScalar
  | TObject _ _ _ => KObject
  | TInterface _ _ _ => KInterface
  | TUnion _ _ => KUnion
  | TEnum _ _ => KEnum
  | TInput _ _ => KInput
  end.

(** What a document says, for the statements of the properties. *)

(* The document defines (or extends) the type or directive `n`, which has the
   kind `k`. *)
Inductive Defines (d : doc) (n : string) : kind -> Prop :=
| defines_directive : In (DDirective n) d -> Defines d n KDirective
| defines_type t : In (DType t) d -> tdef_name t = n -> Defines d n (tdef_kind t)
| defines_ext t : In (DTypeExt t) d -> tdef_name t = n -> Defines d n (tdef_kind t).

(* One of the definitions or extensions of types. *)
Definition HasType (d : doc) (t : tdef) : Prop := In (DType t) d \/ In (DTypeExt t) d.

(* The type `n` has the field `f` of type `t`; it is an object, an interface or
   an input object. *)
Inductive HasField (d : doc) (n f : string) : ty -> Prop :=
| has_object impls fs x : HasType d (TObject n impls fs) -> In x fs -> f_name x = f -> HasField d n f (f_type x)
| has_interface impls fs x : HasType d (TInterface n impls fs) -> In x fs -> f_name x = f -> HasField d n f (f_type x)
| has_input fs x : HasType d (TInput n fs) -> In x fs -> i_name x = f -> HasField d n f (i_type x).

(* The union `n` has the member `v`, or the enum `n` the value `v`. *)
Inductive HasValue (d : doc) (n v : string) : Prop :=
| has_member vs : HasType d (TUnion n vs) -> In v vs -> HasValue d n v
| has_value vs : HasType d (TEnum n vs) -> In v vs -> HasValue d n v.

(* The field `f` of the object or interface `n` has the argument `x`. *)
Inductive HasArg (d : doc) (n f : string) : input -> Prop :=
| arg_object impls fs x i : HasType d (TObject n impls fs) -> In x fs -> f_name x = f -> In i (f_args x) -> HasArg d n f i
| arg_interface impls fs x i :
    HasType d (TInterface n impls fs) -> In x fs -> f_name x = f -> In i (f_args x) -> HasArg d n f i.

(* The object or interface `n` implements `i`. *)
Inductive Implements (d : doc) (n i : string) : Prop :=
| impl_object impls fs : HasType d (TObject n impls fs) -> In i impls -> Implements d n i
| impl_interface impls fs : HasType d (TInterface n impls fs) -> In i impls -> Implements d n i.

(** Documents in which nothing is defined twice: every type has one definition
    or one extension, its fields, values and arguments have different names,
    and there is at most one schema definition.  No directive has the name of
    a type. *)
Definition def_name (x : def) : list string :=
  match x with
  | DSchema _ | DSchemaExt _ => nil
  | DDirective n => [n]
  | DType t | DTypeExt t => [tdef_name t]
  end.

Definition field_ok (x : field) : Prop := NoDup (map i_name (f_args x)).

Definition tdef_ok (t : tdef) : Prop :=
  match t with
  | TScalar _ => True
  | TObject _ impls fs | TInterface _ impls fs =>
      NoDup impls /\ NoDup (map f_name fs) /\ Forall field_ok fs
  | TUnion _ vs | TEnum _ vs => NoDup vs
  | TInput _ fs => NoDup (map i_name fs)
  end.

Definition def_ok (x : def) : Prop :=
  match x with
  | DType t | DTypeExt t => tdef_ok t
  | _ => True
  end.

Definition schema_defs (d : doc) : list roots :=
  flat_map (fun x => match x with DSchema r => [r] | _ => nil end) d.

Definition schema_exts (d : doc) : list roots :=
  flat_map (fun x => match x with DSchemaExt r => [r] | _ => nil end) d.

Record doc_ok (d : doc) : Prop := {
  ok_names : NoDup (flat_map def_name d);
  ok_defs : Forall def_ok d;
  ok_schema : length (schema_defs d) <= 1;
}.

(** Facts about these. *)

Lemma ty_eqb_spec : forall a b, ty_eqb a b = true <-> a = b.
Proof.
  induction a; destruct b; cbn; try (split; congruence).
  - rewrite String.eqb_eq. split; congruence.
  - rewrite IHa. split; congruence.
  - rewrite IHa. split; congruence.
Qed.

Lemma kind_eqb_spec : forall a b, kind_eqb a b = true <-> a = b.
Proof. destruct a, b; cbn; split; congruence. Qed.

Lemma ty_eqb_refl : forall a, ty_eqb a a = true.
Proof. intros. apply ty_eqb_spec. reflexivity. Qed.

(* A name is defined once in a document without double definitions. *)
Lemma name_unique : forall d x y n, NoDup (flat_map def_name d) ->
  In x d -> In y d -> In n (def_name x) -> In n (def_name y) -> x = y.
Proof.
  induction d as [|z d IH]; intros x y n ND X Y NX NY; [contradiction|].
  cbn in ND.
  assert (SEP : forall w, In w d -> In n (def_name w) -> In n (def_name z) -> False).
  { intros w W NW NZ.
    assert (IN : In n (flat_map def_name d)) by (apply in_flat_map; eauto).
    clear - ND NZ IN. induction (def_name z) as [|q l IHl]; [contradiction|].
    cbn in ND. inversion ND; subst. destruct NZ as [->|NZ].
    - apply H1. apply in_or_app. auto.
    - apply IHl; auto. }
  destruct X as [->|X], Y as [->|Y]; auto.
  - exfalso. eauto.
  - exfalso. eauto.
  - apply IH with (n := n); auto.
    clear - ND. induction (def_name z); [exact ND|]. cbn in ND. inversion ND; auto.
Qed.

Lemma type_unique : forall d t u, doc_ok d -> HasType d t -> HasType d u -> tdef_name t = tdef_name u -> t = u.
Proof.
  intros d t u OK T U E.
  assert (X : forall w, HasType d w -> exists x, In x d /\ (x = DType w \/ x = DTypeExt w)).
  { intros w [W|W]; eauto. }
  destruct (X t T) as (x & IX & EX). destruct (X u U) as (y & IY & EY).
  assert (x = y).
  { apply (name_unique d x y (tdef_name t)); auto; [apply ok_names; auto| |].
    - destruct EX as [-> | ->]; cbn; auto.
    - rewrite E. destruct EY as [-> | ->]; cbn; auto. }
  subst. destruct EX as [-> | ->]; destruct EY as [EY|EY]; congruence.
Qed.

Lemma type_ok : forall d t, doc_ok d -> HasType d t -> tdef_ok t.
Proof.
  intros d t OK [H|H]; pose proof (ok_defs d OK) as F; rewrite Forall_forall in F; exact (F _ H).
Qed.
