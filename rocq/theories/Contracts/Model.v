(** Which parts of a schema clients see: propagation of @inaccessible, and contracts.

    Modelled code:
    - crates/engine/schema/src/builder/graph/directives/common/mod.rs, finalize_inaccessible (183-437)
    - crates/engine/schema/src/builder/mutable.rs (25-358)
    - crates/wasi-component-loader/src/extension/runtime/contracts.rs (19-389)
    - crates/engine/id-newtypes/src/many.rs, IdToMany (as a list of pairs)

    Simplifications: the bit sets of [Inaccessible] (one per kind of definition) are one function
    on sites; definitions are referred to by their index, and an index that doesn't exist gives an
    empty definition (the code would panic: well-formed graphs are a hypothesis of the theorems).
    [IdToMany::find_all] gives the values of an id in the order of insertion (the code sorts by id,
    with an unstable sort). Loops over a stack have fuel, which is proved to be enough. *)
From Coq Require Import String List Arith ZArith Bool.
Import ListNotations.
Local Open Scope string_scope.
Local Open Scope nat_scope.
Local Open Scope list_scope.

(** TypeDefinitionId and DirectiveSiteId: the kind and the index. *)
Inductive tdef :=
| TScalar (n : nat) | TObject (n : nat) | TInterface (n : nat) | TUnion (n : nat) | TEnum (n : nat) | TInput (n : nat).
Inductive site :=
| SType (t : tdef) | SField (n : nat) | SValue (n : nat) | SEnumValue (n : nat).

(** EntityDefinitionId and InputValueParentDefinitionId. *)
Inductive entity := EObject (n : nat) | EInterface (n : nat).
Inductive vparent := PField (n : nat) | PInput (n : nat).

(** FieldDefinitionRecord: definition of its type, parent and arguments. *)
Record field := MkField { f_ty : tdef; f_parent : entity; f_args : list nat }.
(** InputValueDefinitionRecord: definition of its type, whether the type is required (non-null),
    whether [is_internal_in_id] is set, and the parent. *)
Record ivalue := MkValue { v_ty : tdef; v_required : bool; v_internal : bool; v_parent : vparent }.
Record object := MkObject { o_fields : list nat; o_interfaces : list nat }.
Record interface := MkInterface { i_fields : list nat; i_possible : list nat }.

(** Graph: the definitions, and the ids of the root types and of Query.__type and Query.__schema. *)
Record graph := MkGraph {
  g_scalars : list string;
  g_objects : list object;
  g_interfaces : list interface;
  g_unions : list (list nat);
  g_enums : list (list nat);
  g_inputs : list (list nat);
  g_fields : list field;
  g_values : list ivalue;
  g_enum_values : list nat; (* parent_enum_id *)
  g_query : nat;
  g_mutation : option nat;
  g_subscription : option nat;
  g_meta : list nat }.

Definition object_of (g : graph) (n : nat) : object := nth n (g_objects g) (MkObject [] []).
Definition interface_of (g : graph) (n : nat) : interface := nth n (g_interfaces g) (MkInterface [] []).
Definition union_of (g : graph) (n : nat) : list nat := nth n (g_unions g) [].
Definition enum_of (g : graph) (n : nat) : list nat := nth n (g_enums g) [].
Definition input_of (g : graph) (n : nat) : list nat := nth n (g_inputs g) [].
Definition field_of (g : graph) (n : nat) : field := nth n (g_fields g) (MkField (TScalar 0) (EObject 0) []).
Definition value_of (g : graph) (n : nat) : ivalue := nth n (g_values g) (MkValue (TScalar 0) false false (PField 0)).
Definition ids {A} (l : list A) : list nat := seq 0 (List.length l).

Definition tdef_eqb (a b : tdef) : bool :=
  match a, b with
  | TScalar n, TScalar k | TObject n, TObject k | TInterface n, TInterface k
  | TUnion n, TUnion k | TEnum n, TEnum k | TInput n, TInput k => Nat.eqb n k
  | _, _ => false
  end.
Definition site_eqb (a b : site) : bool :=
  match a, b with
  | SType s, SType t => tdef_eqb s t
  | SField n, SField k | SValue n, SValue k | SEnumValue n, SEnumValue k => Nat.eqb n k
  | _, _ => false
  end.

(** Inaccessible (schema/src/lib.rs): true for the sites that are hidden. [set] is BitSet::set;
    BitSet::put gives the previous bit and sets it. *)
Definition marks := site -> bool.
Definition set (m : marks) (s : site) (b : bool) : marks := fun x => if site_eqb s x then b else m x.

Inductive outcome (A : Type) := Done (a : A) | Panic | NoFuel.
Arguments Done {A}. Arguments Panic {A}. Arguments NoFuel {A}.
Definition obind {A B} (o : outcome A) (f : A -> outcome B) : outcome B :=
  match o with Done a => f a | Panic => Panic | NoFuel => NoFuel end.

(** ** finalize_inaccessible *)

Definition vparent_site (p : vparent) : site :=
  match p with PField f => SField f | PInput o => SType (TInput o) end.

(** The first loop (188-220): one input value. *)
Definition value_step (g : graph) (m : marks) (id : nat) : marks :=
  let v := value_of g id in
  let m := if m (SType (v_ty v)) || v_internal v then set m (SValue id) true else m in
  if m (SValue id) && v_required v && negb (v_internal v) then set m (vparent_site (v_parent v)) true else m.
Definition values_loop (g : graph) (m : marks) : marks := fold_left (value_step g) (ids (g_values g)) m.

(** output_to_input_value.find_all: the input values of a type. *)
Definition values_of (g : graph) (o : nat) : list nat :=
  filter (fun id => tdef_eqb (v_ty (value_of g id)) (TInput o)) (ids (g_values g)).

(** 226-242: one input value whose type got hidden. *)
Definition input_user (g : graph) (st : marks * list nat) (id : nat) : marks * list nat :=
  let (m, stack) := st in
  if m (SValue id) then (m, stack)
  else
    let m := set m (SValue id) true in
    let v := value_of g id in
    if v_required v && negb (v_internal v) then
      match v_parent v with
      | PField f => (set m (SField f) true, stack)
      | PInput o =>
          if m (SType (TInput o)) then (m, stack) else (set m (SType (TInput o)) true, o :: stack)
      end
    else (m, stack).
(** 223-243 *)
Fixpoint inputs_loop (fuel : nat) (g : graph) (stack : list nat) (m : marks) : outcome marks :=
  match stack with
  | [] => Done m
  | o :: rest =>
      match fuel with
      | O => NoFuel
      | S n => let (m, stack) := fold_left (input_user g) (values_of g o) (m, rest) in inputs_loop n g stack m
      end
  end.
Definition hidden_inputs (g : graph) (m : marks) : list nat :=
  filter (fun o => m (SType (TInput o))) (ids (g_inputs g)).

(** 246-320: a definition none of whose parts is left. *)
Definition empty_step (t : nat -> tdef) (parts : nat -> list site) (m : marks) (id : nat) : marks :=
  if m (SType (t id)) then m
  else if forallb m (parts id) then set m (SType (t id)) true else m.
Definition objects_loop (g : graph) (m : marks) : marks :=
  fold_left (empty_step TObject (fun o => map SField (o_fields (object_of g o)))) (ids (g_objects g)) m.
Definition interfaces_loop (g : graph) (m : marks) : marks :=
  fold_left (empty_step TInterface (fun i => map SField (i_fields (interface_of g i)))) (ids (g_interfaces g)) m.
Definition object_site (o : nat) : site := SType (TObject o).
(** 276-291: unions; object_to_union has the members of those that are left. *)
Definition union_step (g : graph) (st : marks * list (nat * nat)) (id : nat) : marks * list (nat * nat) :=
  let (m, pairs) := st in
  if m (SType (TUnion id)) then (m, pairs)
  else if forallb m (map object_site (union_of g id)) then (set m (SType (TUnion id)) true, pairs)
  else (m, pairs ++ map (fun o => (o, id)) (union_of g id)).
Definition unions_loop (g : graph) (m : marks) : marks * list (nat * nat) :=
  fold_left (union_step g) (ids (g_unions g)) (m, []).
Definition enums_loop (g : graph) (m : marks) : marks :=
  fold_left (empty_step TEnum (fun e => map SEnumValue (enum_of g e))) (ids (g_enums g)) m.
Definition empty_inputs_loop (g : graph) (m : marks) : marks :=
  fold_left (empty_step TInput (fun o => map SValue (input_of g o))) (ids (g_inputs g)) m.

Definition entity_fields (g : graph) (e : entity) : list nat :=
  match e with EObject o => o_fields (object_of g o) | EInterface i => i_fields (interface_of g i) end.
Definition entity_type (e : entity) : tdef := match e with EObject o => TObject o | EInterface i => TInterface i end.

(** 344-366 and 387-409: a field that gets hidden; if it was the last one its parent is hidden. *)
Definition hide_field (g : graph) (st : marks * list tdef) (id : nat) : marks * list tdef :=
  let (m, stack) := st in
  if m (SField id) then (m, stack)
  else
    let m := set m (SField id) true in
    let e := f_parent (field_of g id) in
    if forallb m (map SField (entity_fields g e)) then
      if m (SType (entity_type e)) then (m, stack) else (set m (SType (entity_type e)) true, entity_type e :: stack)
    else (m, stack).
(** 325-368: one field *)
Definition field_step (g : graph) (st : outcome (marks * list tdef)) (id : nat) : outcome (marks * list tdef) :=
  obind st (fun st =>
    match f_ty (field_of g id) with
    | TInput _ => Panic
    | t => if fst st (SType t) then Done (hide_field g st id) else Done st
    end).
Definition fields_loop (g : graph) (m : marks) : outcome (marks * list tdef) :=
  fold_left (field_step g) (ids (g_fields g)) (Done (m, [])).

(** composite_type_to_fields.find_all *)
Definition fields_of (g : graph) (t : tdef) : list nat :=
  match t with
  | TObject _ | TInterface _ | TUnion _ => filter (fun id => tdef_eqb (f_ty (field_of g id)) t) (ids (g_fields g))
  | _ => []
  end.
(** object_to_unions.find_all *)
Definition unions_of (pairs : list (nat * nat)) (o : nat) : list nat :=
  map snd (filter (fun p => Nat.eqb (fst p) o) pairs).
(** 375-384: one union of a hidden object *)
Definition hide_union (g : graph) (st : marks * list tdef) (u : nat) : marks * list tdef :=
  let (m, stack) := st in
  if forallb m (map object_site (union_of g u)) then
    if m (SType (TUnion u)) then (m, stack) else (set m (SType (TUnion u)) true, TUnion u :: stack)
  else (m, stack).
(** 373-412 *)
Fixpoint types_loop (fuel : nat) (g : graph) (pairs : list (nat * nat)) (stack : list tdef) (m : marks) : outcome marks :=
  match stack with
  | [] => Done m
  | t :: rest =>
      match fuel with
      | O => NoFuel
      | S n =>
          let st := match t with TObject o => fold_left (hide_union g) (unions_of pairs o) (m, rest) | _ => (m, rest) end in
          let (m, stack) := fold_left (hide_field g) (fields_of g t) st in
          types_loop n g pairs stack m
      end
  end.

(** All types, and enough fuel for both loops. *)
Definition types (g : graph) : list tdef :=
  map TScalar (ids (g_scalars g)) ++ map TObject (ids (g_objects g)) ++ map TInterface (ids (g_interfaces g)) ++
  map TUnion (ids (g_unions g)) ++ map TEnum (ids (g_enums g)) ++ map TInput (ids (g_inputs g)).
Definition fuel_of (g : graph) : nat := S (List.length (types g)).

(** 183-412 *)
Definition finalize_inaccessible (g : graph) (m : marks) : outcome marks :=
  let m := values_loop g m in
  obind (inputs_loop (fuel_of g) g (rev (hidden_inputs g m)) m) (fun m =>
    let m := objects_loop g m in
    let m := interfaces_loop g m in
    let (m, pairs) := unions_loop g m in
    let m := enums_loop g m in
    let m := empty_inputs_loop g m in
    obind (fields_loop g m) (fun st => types_loop (fuel_of g) g pairs (snd st) (fst st))).

(** 414-436: union_has_inaccessible_member and interface_has_inaccessible_implementor. *)
Definition union_has_hidden (g : graph) (m : marks) (u : nat) : bool := existsb m (map object_site (union_of g u)).
Definition interface_has_hidden (g : graph) (m : marks) (i : nat) : bool :=
  existsb m (map object_site (i_possible (interface_of g i))).

(** ** Walks over the schema (mutable.rs)

    Both loops pop a site, look whether it was met, and push what it leads to. [skip]: sites that
    are passed over; [once]: the sites with a bit in a "reached" set (fields and input values have
    none). The result has the sites that were met. *)
Section Walk.
Variables (skip once : site -> bool) (next : site -> list site).
Fixpoint walk (fuel : nat) (stack : list site) (reached : marks) : outcome marks :=
  match stack with
  | [] => Done reached
  | s :: rest =>
      match fuel with
      | O => NoFuel
      | S n =>
          if skip s then walk n rest reached
          else if once s && reached s then walk n rest reached
          else walk n (rev (next s) ++ rest) (set reached s true)
      end
  end.
End Walk.

Definition is_type (s : site) : bool := match s with SType _ => true | _ => false end.

(** mark_builtins_and_introspection_as_accessible (221-358): what a site leads to. *)
Definition meta_next (g : graph) (s : site) : list site :=
  match s with
  | SType (TObject o) => map SField (o_fields (object_of g o)) ++ map (fun i => SType (TInterface i)) (o_interfaces (object_of g o))
  | SType (TInterface i) => map SField (i_fields (interface_of g i)) ++ map object_site (i_possible (interface_of g i))
  | SType (TUnion u) => map object_site (union_of g u)
  | SType (TEnum e) => map SEnumValue (enum_of g e)
  | SType (TScalar _) => []
  | SType (TInput o) => map SValue (input_of g o)
  | SEnumValue _ => []
  | SField f => map SValue (f_args (field_of g f)) ++ [SType (f_ty (field_of g f))]
  | SValue v => [SType (v_ty (value_of g v))]
  end.

(** How many steps a site takes by itself, and what a type adds to the stack when it is met. *)
Definition weight (g : graph) (s : site) : nat :=
  match s with
  | SType _ | SEnumValue _ => 1
  | SValue _ => 2
  | SField f => 2 + 2 * List.length (f_args (field_of g f))
  end.
Definition weights (g : graph) (l : list site) : nat := list_sum (map (weight g) l).
Definition walk_fuel (g : graph) (next : site -> list site) (stack : list site) : nat :=
  S (weights g stack + list_sum (map (fun t => weights g (next (SType t))) (types g))).

Definition builtins : list string := ["Boolean"; "String"; "Int"; "Float"; "ID"].
Definition roots (g : graph) : list nat :=
  g_query g :: match g_mutation g with Some o => [o] | None => [] end ++ match g_subscription g with Some o => [o] | None => [] end.
(** 221-242 *)
Definition mark_builtins (g : graph) (m : marks) : marks :=
  let m := fold_left (fun m id => if existsb (String.eqb (nth id (g_scalars g) "")) builtins
                                  then set m (SType (TScalar id)) false else m) (ids (g_scalars g)) m in
  fold_left (fun m o => set m (object_site o) false) (roots g) m.
(** 243-358: the stack starts with the fields, the last on top. *)
Definition mark_accessible (g : graph) (m : marks) : outcome marks :=
  let m := mark_builtins g m in
  let stack := rev (map SField (g_meta g)) in
  obind (walk (fun _ => false) is_type (meta_next g) (walk_fuel g (meta_next g) stack) stack (fun _ => false))
        (fun reached => Done (fun s => m s && negb (reached s))).

(** hide_unreachable_types (85-219): the types that a visible type leads to. *)
Definition field_types (g : graph) (m : marks) (f : nat) : list site :=
  if m (SField f) then []
  else SType (f_ty (field_of g f)) ::
       flat_map (fun v => if m (SValue v) then [] else [SType (v_ty (value_of g v))]) (f_args (field_of g f)).
Definition visible_next (g : graph) (m : marks) (s : site) : list site :=
  match s with
  | SType (TObject o) =>
      flat_map (field_types g m) (o_fields (object_of g o)) ++ map (fun i => SType (TInterface i)) (o_interfaces (object_of g o))
  | SType (TInterface i) =>
      flat_map (field_types g m) (i_fields (interface_of g i)) ++ map object_site (i_possible (interface_of g i))
  | SType (TUnion u) => map object_site (union_of g u)
  | SType (TInput o) => flat_map (fun v => if m (SValue v) then [] else [SType (v_ty (value_of g v))]) (input_of g o)
  | _ => []
  end.
Definition hide_unreachable (g : graph) (m : marks) : outcome marks :=
  let stack := rev (map object_site (roots g)) in
  obind (walk m is_type (visible_next g m) (walk_fuel g (visible_next g m) stack) stack (fun _ => false))
        (fun reached => Done (fun s => match s with SType _ => m s || negb (reached s) | _ => m s end)).

(** MutableSchema::update_inaccessible (39-50) and finalize (75-82). *)
Definition update_inaccessible (m contract : marks) : marks := fun s => m s || contract s.
Definition finalize (g : graph) (hide : bool) (m : marks) : outcome marks :=
  obind (mark_accessible g m) (fun m =>
  obind (if hide then hide_unreachable g m else Done m) (finalize_inaccessible g)).

(** update_graphql_endpoint (52-73): subgraphs are their name and the index of their url. *)
Definition url_position (urls : list string) (url : string) : option nat :=
  (fix go (l : list string) (i : nat) := match l with
   | [] => None
   | u :: r => if String.eqb u url then Some i else go r (S i)
   end) urls 0.
Definition subgraph_index (subgraphs : list (string * nat)) (name : string) : option nat :=
  (fix go (l : list (string * nat)) (i : nat) := match l with
   | [] => None
   | s :: r => if String.eqb (fst s) name then Some i else go r (S i)
   end) subgraphs 0.
Definition update_endpoint (name url : string) (st : list (string * nat) * list string) : list (string * nat) * list string :=
  let (subgraphs, urls) := st in
  match subgraph_index subgraphs name with
  | None => st
  | Some i =>
      let s := nth i subgraphs ("", 0) in
      if String.eqb (nth (snd s) urls "") url then
        let (id, urls) := match url_position urls url with Some p => (p, urls) | None => (List.length urls, urls ++ [url]) end in
        (firstn i subgraphs ++ (fst s, id) :: skipn (S i) subgraphs, urls)
      else st
  end.

(** ** Decisions of a contract (contracts.rs) *)

(** The tables of i8 (IdToOne), one per kind of definition. *)
Definition decisions := site -> Z.
Definition dset (d : decisions) (s : site) (x : Z) : decisions := fun y => if site_eqb s y then x else d y.

(** priority (125-133): u8 arithmetic. *)
Definition priority (x : Z) : Z := ((Z.abs x + (if (0 <=? x)%Z then 1 else 0)) mod 256)%Z.
(** replace_if_higher_priority (385-389) *)
Definition replace_higher (current new : Z) : Z :=
  let mask := if (priority current <? priority new)%Z then 0%Z else (-1)%Z in
  Z.lor (Z.land (Z.lnot mask) new) (Z.land mask current).
Definition offer (d : decisions) (s : site) (x : Z) : decisions := dset d s (replace_higher (d s) x).

(** into_mutable_schema, downwards (271-305): the parts of a definition are offered its decision. *)
Definition down (parts : nat -> list site) (own : nat -> site) (d : decisions) (id : nat) : decisions :=
  fold_left (fun d s => offer d s (d (own id))) (parts id) d.
Definition downwards (g : graph) (d : decisions) : decisions :=
  let d := fold_left (down (fun o => map SValue (input_of g o)) (fun o => SType (TInput o))) (ids (g_inputs g)) d in
  let d := fold_left (down (fun o => map SField (o_fields (object_of g o))) (fun o => SType (TObject o))) (ids (g_objects g)) d in
  let d := fold_left (down (fun i => map SField (i_fields (interface_of g i))) (fun i => SType (TInterface i))) (ids (g_interfaces g)) d in
  let d := fold_left (down (fun f => map SValue (f_args (field_of g f))) SField) (ids (g_fields g)) d in
  fold_left (down (fun e => map SEnumValue (enum_of g e)) (fun e => SType (TEnum e))) (ids (g_enums g)) d.

(** Upwards (309-351): what is accessible is offered to what it is part of. *)
Definition up_enum_value (g : graph) (d : decisions) (id : nat) : decisions :=
  let x := d (SEnumValue id) in
  if (0 <=? x)%Z then offer d (SType (TEnum (nth id (g_enum_values g) 0))) x else d.
Definition up_value (g : graph) (d : decisions) (id : nat) : decisions :=
  let x := d (SValue id) in
  if (0 <=? x)%Z then
    match v_parent (value_of g id) with
    | PField f => offer (offer d (SField f) x) (SType (entity_type (f_parent (field_of g f)))) x
    | PInput o => offer d (SType (TInput o)) x
    end
  else d.
Definition up_field (g : graph) (d : decisions) (id : nat) : decisions :=
  let x := d (SField id) in
  if (0 <=? x)%Z then offer d (SType (entity_type (f_parent (field_of g id)))) x else d.
Definition upwards (g : graph) (d : decisions) : decisions :=
  let d := fold_left (up_enum_value g) (ids (g_enum_values g)) d in
  let d := fold_left (up_value g) (ids (g_values g)) d in
  fold_left (up_field g) (ids (g_fields g)) d.

(** The flags (310, 318, 340, 353-379). Each is taken from its table when nothing changes it any more. *)
Definition contract_marks (g : graph) (d : decisions) : marks := fun s => (upwards g (downwards g d) s <? 0)%Z.

(** construct (20-116). [sites] are the directives of the contract extension with their sites, in
    the order in which the hash map gives them; [answer] is what the extension returns for them.
    Missing answers are -1, those in excess are dropped (52-57). They are sorted by priority: a
    stable sort here, an unstable one in the code (the difference is an order of the hash map). *)
Fixpoint pad (n : nat) (l : list Z) : list Z :=
  match n, l with
  | O, _ => []
  | S k, [] => (-1)%Z :: pad k []
  | S k, x :: r => x :: pad k r
  end.
Fixpoint insert_result (x : Z * list site) (l : list (Z * list site)) : list (Z * list site) :=
  match l with
  | [] => [x]
  | y :: r => if (priority (fst x) <=? priority (fst y))%Z then x :: l else y :: insert_result x r
  end.
Definition sort_results (l : list (Z * list site)) : list (Z * list site) := fold_right insert_result [] l.
Definition ingest_result (d : decisions) (r : Z * list site) : decisions :=
  fold_left (fun d s => dset d s (fst r)) (snd r) d.
Definition default_decision (accessible : bool) : Z := if accessible then 0%Z else (-1)%Z.
Definition decide (accessible : bool) (sites : list (list site)) (answer : list Z) : decisions :=
  fold_left ingest_result (sort_results (combine (pad (List.length sites) answer) sites)) (fun _ => default_decision accessible).
Definition construct (g : graph) (m : marks) (accessible hide : bool) (sites : list (list site)) (answer : list Z) : outcome marks :=
  finalize g hide (update_inaccessible m (contract_marks g (decide accessible sites answer))).
