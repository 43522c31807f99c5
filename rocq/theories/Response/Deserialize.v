(** Model of the deserialisation of a subgraph response into a part of the
    response, following the shape of the expected data.

    Sources (under crates/engine/src/response/write/deserialize):
    - field.rs 25-112 (FieldSeed)
    - list/mod.rs 24-120, 190-248 (ListSeed) and list/type_.rs 30-160
    - scalar/mod.rs 16-410, scalar/int.rs 10-264, enum.rs 18-257
    - object/concrete.rs 53-165, object/fields.rs 84-540,
      object/polymorphic.rs 54-207
    - root/object.rs 24-76, state.rs 77-106
    - crates/engine/src/prepare/cached/shape/{concrete,field,root}.rs and
      crates/engine/src/prepare/cached/builder/shapes/mod.rs 131-218
      (build_root_fields_shape)

    Simplifications:
    - A JSON text is a tree with the places where reading it fails: [JBad] is a
      value which can't be read, a list or a map whose flag is false can't be
      read beyond its last entry (truncated text, syntax error, nesting too
      deep, ...).
    - Integers of a JSON text fit in an i64 or a u64; other numbers are floats.
    - Object keys and response keys are numbers (interned strings); the key 0 is
      "__typename".
    - A list or a map that a visitor doesn't read to its end
      (scalar/int.rs 231-243) makes the reader fail unless it is empty, as
      serde's deserialisers do.
    - The wrapping of a field is a type rather than its packed form (proved
      equivalent in Wrapping).
    - Derived fields (object/derive.rs) are not in this model: the shapes have
      none. *)

From Coq Require Import List Arith ZArith String Bool.
From Verif Require Import Response.Model.
Import ListNotations.
Local Open Scope nat_scope.

(** ** JSON *)

Inductive json :=
| JNull | JBool (b : bool) | JInt (z : Z) | JFloat (f : fl) | JStr (s : string)
| JList (l : list json) (ok : bool)
| JMap (l : list (nat * json)) (ok : bool)
| JBad.

Definition typename_key : nat := 0.

(** Reading any value, for custom scalars (scalar/mod.rs 318-396 with
    ScalarType::Unknown) and for values which are ignored or kept for later.
    None: the reader fails. *)
Fixpoint read_any (j : json) : option out :=
  match j with
  | JNull => Some ONull
  | JBool b => Some (OBool b)
  | JInt z => Some (OInt z)
  | JFloat f => Some (OFloat f)
  | JStr s => Some (OStr s)
  | JList l ok =>
      if ok then option_map OList (all_some (map read_any l)) else None
  | JMap l ok =>
      if ok then option_map OObj (all_some (map (fun kv => option_map (pair (fst kv)) (read_any (snd kv))) l))
      else None
  | JBad => None
  end.

Definition readable (j : json) : bool :=
  match read_any j with Some _ => true | None => false end.

(** ** Shapes *)

(** The wrapping of a type: a named type or a list, required or not. *)
Inductive wtype := WNamed (required : bool) | WList (required : bool) (inner : wtype).

Definition wrequired (w : wtype) : bool :=
  match w with WNamed r => r | WList r _ => r end.
Definition wnullable (w : wtype) : bool := negb (wrequired w).

(** ScalarType *)
Inductive scalar := TString | TFloat | TInt | TBoolean | TUnknown.

(** ObjectIdentifier (shape/concrete.rs 75-81); [ITypename] is UnionTypename or
    InterfaceTypename with the id of the union or interface. *)
Inductive identifier := IKnown (d : nat) | ITypename (i : nat) | IAnonymous.

(** Shape, ConcreteShapeRecord and FieldShapeRecord (shape/*.rs).  An enum is
    its values with whether they are inaccessible.  Of a field: the key expected
    in the subgraph response, the query position (0 for none) and response key,
    whether it is included in the response and absent from the subgraph request
    (query modifications), and the errors of the query modifications. *)
Inductive shape :=
| SScalar (ty : scalar)
| SEnum (values : list (string * bool))
| SConcrete (c : concrete)
| SPoly (possibilities : list (nat * concrete)) (fallback : option concrete)
with concrete :=
| Concrete (ident : identifier) (has_error : bool) (set : option nat)
    (typenames : list (rkey * bool)) (fs : list field)
with field :=
| Field (expected pos rk : nat) (included absent : bool) (errors : list nat)
    (w : wtype) (sh : shape).

Definition f_expected (f : field) := match f with Field e _ _ _ _ _ _ _ => e end.
Definition f_pos (f : field) := match f with Field _ p _ _ _ _ _ _ => p end.
Definition f_rk (f : field) := match f with Field _ _ k _ _ _ _ _ => k end.
Definition f_included (f : field) := match f with Field _ _ _ i _ _ _ _ => i end.
Definition f_absent (f : field) := match f with Field _ _ _ _ a _ _ _ => a end.
Definition f_errors (f : field) := match f with Field _ _ _ _ _ e _ _ => e end.
Definition f_wrap (f : field) := match f with Field _ _ _ _ _ _ w _ => w end.
Definition f_shape (f : field) := match f with Field _ _ _ _ _ _ _ s => s end.
Definition c_ident (c : concrete) := match c with Concrete i _ _ _ _ => i end.
Definition c_has_error (c : concrete) := match c with Concrete _ e _ _ _ => e end.
Definition c_set (c : concrete) := match c with Concrete _ _ s _ _ => s end.
Definition c_typenames (c : concrete) := match c with Concrete _ _ _ t _ => t end.
Definition c_fields (c : concrete) := match c with Concrete _ _ _ _ f => f end.

(** with_query_position_if (response_key.rs 31-40) *)
Definition with_position_if (k : rkey) (included : bool) : rkey :=
  (if included then fst k else 0, snd k).

(** FieldShape::key (shape/field.rs 66-76) and TypenameShape::key *)
Definition f_key (f : field) : rkey := with_position_if (f_pos f, f_rk f) (f_included f).
Definition t_key (t : rkey * bool) : rkey := with_position_if (fst t) (snd t).

(** should_report_error_for (state.rs 98-106) *)
Definition reported (f : field) : bool := negb (f_pos f =? 0) && f_included f.

Section Schema.

  (** The schema: names of the objects, objects by name
      (type_definition_by_name), whether an object is inaccessible, and the
      possible types of a union or an interface. *)
  Variable obj_name : nat -> string.
  Variable obj_by_name : string -> option nat.
  Variable obj_inaccessible : nat -> bool.
  Variable possible : nat -> list nat.
  (** The integral value of an integer converted to f64. *)
  Variable round_f64 : Z -> Z.

  (** The id of the part being built and the path of the parent object,
      innermost first. *)
  Variable pid : nat.
  Variable pp : list vid.

  Notation dres := (builder * option val)%type.

  Definition set_bub (b : builder) : builder :=
    MkB (b_part b) (b_errs b) (b_up b) (b_nulls b) (b_updates b) (b_refs b) true.

  Definition propagate (lp : list vid) (b : builder) : builder := propagate_null pp lp b.
  Definition error_at (lp : list vid) (k : option nat) (b : builder) : builder := push_err (lp ++ pp) k b.

  (** unexpected_type of ScalarTypeSeed (scalar/mod.rs 38-67), EnumValueSeed
      (enum.rs 82-107), ListSeed (list/mod.rs 41-66), PolymorphicShapeSeed
      (polymorphic.rs 55-79): reported when the field is sent to the client,
      propagated when the value is required. *)
  Definition unexpected (f : field) (required : bool) (lp : list vid) (b : builder) : dres :=
    ((if reported f
      then error_at lp None (if required then propagate lp b else b)
      else b), Some VUnexp).

  Definition null_or_unexpected (f : field) (required : bool) (lp : list vid) (b : builder) : dres :=
    if required then unexpected f required lp b else (b, Some VNull).

  (** The failure of the reader while reading a field (field.rs 94-110) *)
  Definition bubble (f : field) (lp : list vid) (r : dres) : dres :=
    match r with
    | (b, Some v) => (b, Some v)
    | (b, None) =>
        if b_bub b then (b, None)
        else if reported f then (error_at lp None (propagate lp (set_bub b)), None)
        else (set_bub b, None)
    end.

  (** ** Scalars and enums *)

  Definition int_in_range (z : Z) : bool := ((-2147483648 <=? z) && (z <=? 2147483647))%Z.

  (** can_coerce_f64_to_int and the cast (scalar/mod.rs 252-262, 414-416): the
      cast to i32 saturates. *)
  Definition float_to_int (f : fl) : option Z :=
    match f with
    | FInt z => if (z <? 2147483647)%Z then Some (Z.max z (-2147483648)) else None
    | FFrac _ => None
    end.

  (** ScalarTypeSeed (scalar/mod.rs 70-410) *)
  Definition deser_scalar (ty : scalar) (f : field) (required : bool) (j : json)
      (lp : list vid) (b : builder) : dres :=
    let bad := unexpected f required lp b in
    match j with
    | JBad => (b, None)
    | JNull => null_or_unexpected f required lp b
    | JBool v => match ty with TBoolean | TUnknown => (b, Some (VBool v)) | _ => bad end
    | JInt z =>
        match ty with
        | TInt => if int_in_range z then (b, Some (VInt z)) else bad
        | TFloat => (b, Some (VFloat (FInt (round_f64 z))))
        | TUnknown => (b, Some (VAny (OInt z)))
        | _ => bad
        end
    | JFloat v =>
        match ty with
        | TFloat | TUnknown => (b, Some (VFloat v))
        | TInt => match float_to_int v with Some z => (b, Some (VInt z)) | None => bad end
        | _ => bad
        end
    | JStr s => match ty with TString | TUnknown => (b, Some (VStr s)) | _ => bad end
    | JList _ _ | JMap _ _ =>
        match read_any j with
        | None => (b, None)
        | Some o => match ty with TUnknown => (b, Some (VAny o)) | _ => bad end
        end
    end.

  Fixpoint find_enum (s : string) (values : list (string * bool)) : option bool :=
    match values with
    | [] => None
    | (n, i) :: r => if String.eqb n s then Some i else find_enum s r
    end.

  (** EnumValueSeed (enum.rs 25-80) *)
  Definition deser_enum (values : list (string * bool)) (f : field) (required : bool) (j : json)
      (lp : list vid) (b : builder) : dres :=
    match j with
    | JBad => (b, None)
    | JNull => null_or_unexpected f required lp b
    | JStr s =>
        match find_enum s values with
        | None => unexpected f required lp b
        | Some inaccessible =>
            if reported f && inaccessible then
              if required then (propagate lp b, Some (VStr s))
              else let (p, i) := push_inacc pid (b_part b) (VStr s) in (with_part b p, Some (VInacc i))
            else (b, Some (VStr s))
        end
    | JList _ _ | JMap _ _ => if readable j then unexpected f required lp b else (b, None)
    | _ => unexpected f required lp b
    end.

  (** ** Lists of Int! and Float! *)

  (** NonNullIntSeed and NonNullFloatSeed (scalar/int.rs 28-245): the number, or
      whether an unexpected value was met; None: the reader fails. *)
  Definition num_unexpected (f : field) (lp : list vid) (b : builder) : builder :=
    if reported f then error_at lp None (propagate lp b) else b.

  Definition deser_num {A} (conv : json -> option A) (f : field) (j : json)
      (lp : list vid) (b : builder) : builder * option (option A) :=
    match j with
    | JBad => (b, None)
    | JList l ok =>
        (num_unexpected f lp b,
         match l, ok with [], true => Some None | _, _ => None end)
    | JMap l ok =>
        (num_unexpected f lp b,
         match l, ok with [], true => Some None | _, _ => None end)
    | _ => match conv j with
           | Some a => (b, Some (Some a))
           | None => (num_unexpected f lp b, Some None)
           end
    end.

  Definition conv_int (j : json) : option Z :=
    match j with
    | JInt z => if int_in_range z then Some z else None
    | JFloat v => float_to_int v
    | _ => None
    end.

  Definition conv_float (j : json) : option fl :=
    match j with
    | JInt z => Some (FInt (round_f64 z))
    | JFloat v => Some v
    | _ => None
    end.

  (** The failure of the reader in a list (list/mod.rs 103-119) *)
  Definition list_failure (f : field) (lp : list vid) (i : nat) (b : builder) : builder :=
    if b_bub b then b
    else if reported f then error_at lp (Some i) (propagate lp (set_bub b))
    else set_bub b.

  (** visit_seq (list/mod.rs 76-124) for numbers: the numbers and whether an
      unexpected value was met. *)
  Fixpoint num_elems {A} (conv : json -> option A) (f : field) (lp : list vid)
      (l : list json) (ok : bool) (i : nat) (b : builder) : builder * option (list A * bool) :=
    match l with
    | [] => if ok then (b, Some ([], false)) else (list_failure f lp i b, None)
    | j :: r =>
        match deser_num conv f j (INum pid i :: lp) b with
        | (b1, None) => (list_failure f lp i b1, None)
        | (b1, Some x) =>
            match num_elems conv f lp r ok (S i) b1 with
            | (b2, None) => (b2, None)
            | (b2, Some (xs, bad)) =>
                (b2, Some (match x with Some a => (a :: xs, bad) | None => (xs, true) end))
            end
        end
    end.

  (** What is not a list where a list is expected (list/mod.rs 126-248) *)
  Definition list_other (f : field) (required : bool) (j : json) (lp : list vid) (b : builder) : dres :=
    match j with
    | JBad => (b, None)
    | JNull => null_or_unexpected f required lp b
    | JMap _ _ => if readable j then unexpected f required lp b else (b, None)
    | _ => unexpected f required lp b
    end.

  (** finalize of NonNullIntSeedList and NonNullFloatSeedList (type_.rs 98-104) *)
  Definition num_list {A} (conv : json -> option A) (wrap : list A -> val) (f : field)
      (required : bool) (j : json) (lp : list vid) (b : builder) : dres :=
    match j with
    | JList l ok =>
        match num_elems conv f lp l ok 0 b with
        | (b1, None) => (b1, None)
        | (b1, Some (xs, bad)) => (b1, Some (if bad then VUnexp else wrap xs))
        end
    | _ => list_other f required j lp b
    end.

  (** ** Objects *)

  (** fields.iter().position(|field| keys[field.expected_key] == key) *)
  Fixpoint position (k : nat) (fs : list field) (i : nat) : option (nat * field) :=
    match fs with
    | [] => None
    | f :: r => if f_expected f =? k then Some (i, f) else position k r (S i)
    end.

  Section Visit.
    (** FieldSeed *)
    Variable deser : json -> field -> wtype -> list vid -> builder -> dres.
    Variable oid : id.
    Variable fs : list field.
    (** The union or interface when __typename must be detected. *)
    Variable detect : option nat.

    (** visit_field (fields.rs 391-419), visit_fields (345-389) and
        visit_fields_with_typename_detection (283-343).  [skip]: the first
        __typename was consumed by the polymorphic shape, the entries before it
        are replayed (ChainedMapAcces, polymorphic.rs 315-371).
        Returns the type detected and the fields; None: the reader fails. *)
    Fixpoint visit (entries : list (nat * json)) (ok : bool) (offset : nat) (skip : bool)
        (tn : option nat) (acc : fields) (lp : list vid) (b : builder)
        : builder * option (option nat * fields) :=
      match entries with
      | [] => (b, if ok then Some (tn, acc) else None)
      | (k, v) :: rest =>
          if skip && (k =? typename_key) then visit rest ok offset false tn acc lp b
          else
            match position k (skipn offset fs) 0 with
            | Some (pos, f) =>
                match deser v f (f_wrap f) (IField oid (f_key f) (wnullable (f_wrap f)) :: lp) b with
                | (b1, None) => (b1, None)
                | (b1, Some value) =>
                    visit rest ok (offset + (if pos =? 0 then 1 else 0)) skip tn
                      (acc ++ [(f_key f, value)]) lp b1
                end
            | None =>
                match detect, tn with
                | Some i, None =>
                    if k =? typename_key then
                      match v with
                      | JStr s =>
                          visit rest ok offset skip
                            (find (fun d => String.eqb (obj_name d) s) (possible i)) acc lp b
                      | _ => (b, None)
                      end
                    else if readable v then visit rest ok offset skip tn acc lp b else (b, None)
                | _, _ =>
                    if readable v then visit rest ok offset skip tn acc lp b else (b, None)
                end
            end
      end.
  End Visit.

  (** handle_shape_errors (fields.rs 435-470), for one field.  The accumulator
      is the builder, the fields and whether a null was propagated. *)
  Definition shape_error_step (lp : list vid) (st : builder * fields * bool) (f : field)
      : builder * fields * bool :=
    let '(b, acc, propagated) := st in
    match f_errors f with
    | [] => st
    | errs =>
        let b1 := fold_left (fun b _ => error_at lp (Some (f_rk f)) b) errs b in
        let p := negb propagated && wrequired (f_wrap f) in
        let b2 := if p then propagate lp b1 else b1 in
        match find_key (f_key f) acc 0 with
        | Some i =>
            match nth_error acc i with
            | Some (_, v) =>
                let (pt, iid) := push_inacc pid (b_part b2) v in
                (with_part b2 pt, set_value acc i (VInacc iid), propagated || p)
            | None => (b2, acc, propagated || p)
            end
        | None => (b2, acc ++ [(f_key f, VNull)], propagated || p)
        end
    end.

  (** handle_typename_fields (fields.rs 472-521), for one field; [known] are
      the keys present before. *)
  Definition missing_step (known : list rkey) (lp : list vid) (st : builder * fields * bool) (f : field)
      : builder * fields * bool :=
    let '(b, acc, propagated) := st in
    if f_absent f then st
    else if existsb (keqb (f_key f)) known then st
    else if wrequired (f_wrap f) then
      if fst (f_key f) =? 0 then st
      else (error_at lp (Some (f_rk f)) (if propagated then b else propagate lp b), acc, true)
    else (b, acc ++ [(f_key f, VNull)], propagated).

  (** finalize_deserialized_object_fields (fields.rs 423-433) without derived
      fields. *)
  Definition finalize (c : concrete) (acc : fields) (lp : list vid) (b : builder) : builder * fields :=
    let '(b1, acc1, p1) :=
      if c_has_error c then fold_left (shape_error_step lp) (c_fields c) (b, acc, false)
      else (b, acc, false) in
    let '(b2, acc2, _) :=
      if List.length acc1 <? List.length (c_fields c)
      then fold_left (missing_step (map fst acc1) lp) (c_fields c) (b1, acc1, p1)
      else (b1, acc1, p1) in
    (b2, acc2).

  (** ObjectFields (fields.rs 76-83) *)
  Inductive object_fields :=
  | OFNull
  | OFSome (d : option nat) (fs : fields)
  | OFError.

  (** visit_map of ConcreteShapeFieldsSeed (fields.rs 112-180) after the fields
      were visited: [known] is the type of the object when it is known, [typed]
      whether it had to be detected. *)
  Definition object_end (c : concrete) (typed : bool) (d : option nat) (acc : fields)
      (lp : list vid) (b : builder) : builder * object_fields :=
    match typed, d with
    | true, None => (b, OFError)
    | _, _ =>
        let (b1, acc1) := finalize c acc lp b in
        match c_typenames c, d with
        | [], _ => (b1, OFSome d acc1)
        | _, None => (b1, OFError)
        | ts, Some o => (b1, OFSome d (acc1 ++ map (fun t => (t_key t, VStr (obj_name o))) ts))
        end
    end.

  (** The identifier used: a known type takes over the one of the shape
      (fields.rs 40-44). *)
  Definition effective (c : concrete) (known : option nat) : identifier :=
    match known with Some d => IKnown d | None => c_ident c end.

  Definition object_map (deser : json -> field -> wtype -> list vid -> builder -> dres)
      (oid : id) (c : concrete) (known : option nat) (entries : list (nat * json)) (ok skip : bool)
      (lp : list vid) (b : builder) : builder * option object_fields :=
    let detect := match effective c known with ITypename i => Some i | _ => None end in
    match visit deser oid (c_fields c) detect entries ok 0 skip None [] lp b with
    | (b1, None) => (b1, None)
    | (b1, Some (tn, acc)) =>
        let d := match effective c known with IKnown d => Some d | _ => tn end in
        let typed := match effective c known with ITypename _ => true | _ => false end in
        let (b2, r) := object_end c typed d acc lp b1 in (b2, Some r)
    end.

  (** What is not a map where an object is expected (fields.rs 182-280) *)
  Definition object_other (j : json) : option object_fields :=
    match j with
    | JBad => None
    | JNull => Some OFNull
    | JList _ _ => if readable j then Some OFError else None
    | _ => Some OFError
    end.

  (** ingest_object_fields (concrete.rs 87-165) *)
  Definition ingest_object (f : field) (required : bool) (c : concrete) (oid : id) (r : object_fields)
      (lp : list vid) (b : builder) : dres :=
    match r with
    | OFSome d fs =>
        let b1 := with_part b (put_obj (b_part b) oid (MkObj d (sort_fields fs))) in
        let b2 :=
          match d with
          | None => b1
          | Some o =>
              let b2 := if reported f && obj_inaccessible o then propagate lp b1 else b1 in
              match c_set c with
              | Some s => MkB (b_part b2) (b_errs b2) (b_up b2) (b_nulls b2) (b_updates b2)
                            (b_refs b2 ++ [(s, (oid, o))]) (b_bub b2)
              | None => b2
              end
          end in
        (b2, Some (VObj oid))
    | OFNull => null_or_unexpected f required lp b
    | OFError => unexpected f required lp b
    end.

  (** Reading the entries up to __typename (polymorphic.rs 95-107) *)
  Inductive scan_result :=
  | ScanFail
  | ScanNone
  | ScanName (s : string) (rest : list (nat * json)).

  Fixpoint scan (entries : list (nat * json)) (ok : bool) : scan_result :=
    match entries with
    | [] => if ok then ScanNone else ScanFail
    | (k, v) :: r =>
        if k =? typename_key then match v with JStr s => ScanName s r | _ => ScanFail end
        else if readable v then scan r ok else ScanFail
    end.

  (** visit_map of PolymorphicShapeSeed (polymorphic.rs 90-183): which shape the
      object is read with. *)
  Inductive poly_result :=
  | PFail
  | PUnexpected
  | PEmpty (d : nat)
  | PShape (c : concrete) (d : nat).

  Definition readable_rest (r : list (nat * json)) (ok : bool) : bool := ok && forallb (fun kv => readable (snd kv)) r.

  Fixpoint find_shape (d : nat) (poss : list (nat * concrete)) : option concrete :=
    match poss with
    | [] => None
    | (d', c) :: r => if d' =? d then Some c else find_shape d r
    end.

  Definition poly_select (poss : list (nat * concrete)) (fallback : option concrete)
      (entries : list (nat * json)) (ok : bool) : poly_result :=
    match scan entries ok with
    | ScanFail => PFail
    | ScanNone => PUnexpected
    | ScanName s rest =>
        match obj_by_name s with
        | None => if readable_rest rest ok then PUnexpected else PFail
        | Some d =>
            match find_shape d poss with
            | Some c => PShape c d
            | None =>
                match fallback with
                | Some c =>
                    match c_ident c with
                    | ITypename i =>
                        if existsb (Nat.eqb d) (possible i) then PShape c d
                        else if readable_rest rest ok then PUnexpected else PFail
                    | _ => PShape c d
                    end
                | None => if readable_rest rest ok then PEmpty d else PFail
                end
            end
        end
    end.

  (** ** Fields and lists *)

  Section Elems.
    (** FieldSeed *)
    Variable deser : json -> field -> wtype -> list vid -> builder -> dres.
    Variable f : field.
    Variable inner : wtype.
    Variable lid : id.

    (** visit_seq (list/mod.rs 76-124) *)
    Fixpoint elems (lp : list vid) (l : list json) (ok : bool) (i : nat) (b : builder)
        : builder * option (list val) :=
      match l with
      | [] => if ok then (b, Some []) else (list_failure f lp i b, None)
      | x :: r =>
          match deser x f inner (IIndex lid i (wnullable inner) :: lp) b with
          | (b1, None) => (list_failure f lp i b1, None)
          | (b1, Some v) =>
              match elems lp r ok (S i) b1 with
              | (b2, None) => (b2, None)
              | (b2, Some vs) => (b2, Some (v :: vs))
              end
          end
      end.
  End Elems.

  (** FieldSeed (field.rs 25-112) with ListSeed (list/mod.rs 76-124) and
      ResponseValueSeedList (type_.rs 30-66), ConcreteShapeSeed (concrete.rs
      53-85) and PolymorphicShapeSeed. *)
  Fixpoint deser (j : json) (f : field) (w : wtype) (lp : list vid) (b : builder) {struct j} : dres :=
    bubble f lp
      match w with
      | WList required inner =>
          match f_shape f, inner with
          | SScalar TInt, WNamed true => num_list conv_int VInts f required j lp b
          | SScalar TFloat, WNamed true => num_list conv_float VFloats f required j lp b
          | _, _ =>
              let (p, lid) := reserve_list pid (b_part b) in
              let b0 := with_part b p in
              match j with
              | JList l ok =>
                  match elems deser f inner lid lp l ok 0 b0 with
                  | (b1, None) => (b1, None)
                  | (b1, Some vs) => (with_part b1 (put_list (b_part b1) lid vs), Some (VList lid))
                  end
              | _ => list_other f required j lp b0
              end
          end
      | WNamed required =>
          match f_shape f with
          | SScalar ty => deser_scalar ty f required j lp b
          | SEnum values => deser_enum values f required j lp b
          | SConcrete c =>
              let (p, oid) := reserve_obj pid (b_part b) in
              let b0 := with_part b p in
              match j with
              | JMap entries ok =>
                  match object_map deser oid c None entries ok false lp b0 with
                  | (b1, None) => (b1, None)
                  | (b1, Some r) => ingest_object f required c oid r lp b1
                  end
              | _ =>
                  match object_other j with
                  | None => (b0, None)
                  | Some r => ingest_object f required c oid r lp b0
                  end
              end
          | SPoly poss fallback =>
              match j with
              | JMap entries ok =>
                  match poly_select poss fallback entries ok with
                  | PFail => (b, None)
                  | PUnexpected => unexpected f required lp b
                  | PEmpty d =>
                      let (p, oid) := push_obj pid (b_part b) (MkObj (Some d) []) in
                      (with_part b p, Some (VObj oid))
                  | PShape c d =>
                      let (p, oid) := reserve_obj pid (b_part b) in
                      let b0 := with_part b p in
                      match object_map deser oid c (Some d) entries ok true lp b0 with
                      | (b1, None) => (b1, None)
                      | (b1, Some r) => ingest_object f required c oid r lp b1
                      end
                  end
              | JNull => null_or_unexpected f required lp b
              | JBad => (b, None)
              | JList _ _ => if readable j then unexpected f required lp b else (b, None)
              | _ => unexpected f required lp b
              end
          end
      end.

  (** ** The root of a part *)

  (** build_root_fields_shape (builder/shapes/mod.rs 131-218) *)
  Definition visible_fields (c : concrete) : list field :=
    filter (fun f => negb (f_pos f =? 0)) (c_fields c).

  Fixpoint insert_default (d : rkey * (rkey * option string)) (l : list (rkey * (rkey * option string))) :=
    match l with
    | [] => [d]
    | e :: r => match kcmp (fst d) (fst e) with Lt => d :: e :: r | _ => e :: insert_default d r end
    end.

  (** Sorted by the key before query modifications, used with the key after
      (shape/root.rs 121-137). *)
  Definition root_on_error (c : concrete) : on_error :=
    let vis := visible_fields c in
    let known := match c_ident c with IKnown d => Some d | _ => None end in
    let propagate :=
      existsb (fun f => wrequired (f_wrap f)) vis
      || match c_typenames c, known with [], _ => false | _, Some _ => false | _, None => true end in
    let key :=
      match vis, c_typenames c, known with
      | f :: _, _, _ => Some (f_rk f)
      | [], t :: _, None => Some (snd (fst t))
      | _, _, _ => None
      end in
    let defaults :=
      map (fun f => ((f_pos f, f_rk f), (f_key f, None))) vis
      ++ match known with
         | Some d => map (fun t => (fst t, (t_key t, Some (obj_name d))))
                       (filter (fun t => negb (fst (fst t) =? 0)) (c_typenames c))
         | None => []
         end in
    match key with
    | None => OnSkip
    | Some k =>
        if propagate then OnPropagate k
        else OnDefault k (map snd (fold_left (fun acc d => insert_default d acc) defaults []))
    end.

  (** RootObjectSeed (root/object.rs 24-76): the fields of the parent object
      [oid] of type [d]. *)
  Definition deser_root (c : concrete) (oid : id) (d : nat) (j : json) (b : builder) : builder :=
    let oe := root_on_error c in
    let r :=
      match j with
      | JMap entries ok => object_map deser oid c (Some d) entries ok false [] b
      | _ => (b, object_other j)
      end in
    match r with
    | (b1, Some (OFSome _ fs)) => push_update (UFields oid fs) b1
    | (b1, Some OFNull) => insert_empty_update oe oid pp b1
    | (b1, Some OFError) => insert_error_update oe oid pp b1
    | (b1, None) =>
        if b_bub b1 then insert_propagated_empty_update oe oid b1
        else insert_error_update oe oid pp (set_bub b1)
    end.

End Schema.
