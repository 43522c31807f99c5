(** Model of the binding of an operation to the schema: selection sets, fields, fragments, arguments and directives.
    Source: crates/engine/operation/src/{bind/operation.rs, bind/mod.rs (45-105), parse/mod.rs (14-80),
    validation/after_binding.rs (36-55), model/selection_set.rs (36-115)}, crates/engine/schema/src/{object.rs, interface.rs}.
    Simplifications: the intersection of types (C40), the coercion of values (C67) and variable definitions (C70) are not modelled:
    [s_intersects] and [s_coerces] are oracles, a value stands for what it is coerced to, variables are left out.
    Response keys are their names, arguments are kept with the field instead of in a vector of their own, sites and locations of errors are left out.  Ids are lengths of vectors; each fits in 16 bits or
    the program panics, see [overflows].  [fuel] bounds the nesting of fragments; if it does not suffice, [st_diverged]. *)
From Coq Require Import String List Bool Arith NArith.
Import ListNotations.
Local Open Scope string_scope.
Local Open Scope nat_scope.
Local Open Scope list_scope.

Notation name := string (only parsing).
Notation tid := nat (only parsing).
Notation fid := nat (only parsing).
Notation value := nat (only parsing).

(** ** Schema *)
Inductive kind := KObject | KInterface | KUnion | KScalar | KEnum | KInput.
Record argdef := { a_id : nat; a_name : name; a_inaccessible : bool; a_type : nat; a_default : bool; a_nonnull : bool }.
Record schema := {
  s_kind : tid -> kind;
  s_type : name -> option tid;                    (* type_definition_by_name *)
  s_tname : tid -> name;
  s_type_inaccessible : tid -> bool;
  s_fields : tid -> list (name * fid);
  s_field_inaccessible : fid -> bool;
  s_field_type : fid -> tid;                      (* ty().definition() *)
  s_args : fid -> list argdef;
  s_intersects : tid -> tid -> bool;              (* has_non_empty_intersection_with *)
  s_coerces : nat -> value -> bool;               (* coerce_query_value without an error *)
  s_boolean : nat;                                (* the type Boolean! *)
  s_query : tid; s_mutation : option tid; s_subscription : option tid;
  s_meta_fields : list fid;                       (* __schema, __type *)
  s_no_introspection : bool
}.
Definition composite (k : kind) : bool := match k with KObject | KInterface | KUnion => true | _ => false end.

(** ** Document *)
Record directive := { d_name : name; d_args : list (name * value) }.
Inductive selection :=
| Field (alias : option name) (fname : name) (args : list (name * value)) (dirs : list directive) (sels : list selection)
| Spread (fragment : name) (dirs : list directive)
| Inline (cond : option name) (dirs : list directive) (sels : list selection).
Inductive optype := Query | Mutation | Subscription.
Record operation := { o_type : optype; o_name : option name; o_sels : list selection }.
Record document := { doc_ops : list operation; doc_frags : list (name * (name * list selection)) }.
(** FragmentSpread::fragment: the first of the name *)
Definition find_fragment (d : document) (n : name) : option (name * list selection) :=
  option_map snd (find (fun f => String.eqb (fst f) n) (doc_frags d)).

(** ** The bound operation *)
Inductive argvalue := Given (v : value) | Default.
Inductive condition := Skip (v : value) | Include (v : value).
Notation range := (nat * nat)%type (only parsing).
Record dfield := { df_def : fid; df_key : name; df_args : list (nat * argvalue); df_dirs : list condition; df_set : range }.
Record tfield := { tf_key : name; tf_dirs : list condition }.
Record inline := { in_cond : option tid; in_dirs : list condition; in_set : range }.
Record spread := { sp_frag : nat; sp_dirs : list condition }.
Record fragment := { fr_cond : tid; fr_set : range }.
Inductive selid := IdField (n : nat) | IdTypename (n : nat) | IdSpread (n : nat) | IdInline (n : nat).
Inductive err :=
| UnionHaveNoFields (t : tid) (n : name) | UnknownField (t : tid) (n : name) | LeafMustBeAScalarOrEnum (f : fid) | CannotHaveSelectionSet (f : fid)
| MissingArgument (f : fid) (n : name) | UnknownArgument (f : fid) (n : name) | BadValue (ty : nat) (v : value)
| UnknownFragment (n : name) | UnknownType (n : name) | InvalidTypeCondition (n : name) | DisjointTypeCondition (t : tid) (n : name)
| MissingDirectiveArgument (n : name).
Record state := {
  st_data : list dfield; st_typenames : list tfield; st_inlines : list inline; st_spreads : list spread; st_frags : list fragment;
  st_shared : list selid; st_map : list (name * nat); st_errors : list err; st_diverged : bool
}.
Definition init : state :=
  {| st_data := []; st_typenames := []; st_inlines := []; st_spreads := []; st_frags := []; st_shared := []; st_map := []; st_errors := []; st_diverged := false |}.
Definition push_error (e : err) (s : state) : state :=
  {| st_data := st_data s; st_typenames := st_typenames s; st_inlines := st_inlines s; st_spreads := st_spreads s; st_frags := st_frags s;
     st_shared := st_shared s; st_map := st_map s; st_errors := st_errors s ++ [e]; st_diverged := st_diverged s |}.
Definition push_errors (es : list err) (s : state) : state := fold_left (fun s e => push_error e s) es s.
Definition push_data (x : dfield) (s : state) : state :=
  {| st_data := st_data s ++ [x]; st_typenames := st_typenames s; st_inlines := st_inlines s; st_spreads := st_spreads s; st_frags := st_frags s;
     st_shared := st_shared s; st_map := st_map s; st_errors := st_errors s; st_diverged := st_diverged s |}.
Definition push_typename (x : tfield) (s : state) : state :=
  {| st_data := st_data s; st_typenames := st_typenames s ++ [x]; st_inlines := st_inlines s; st_spreads := st_spreads s; st_frags := st_frags s;
     st_shared := st_shared s; st_map := st_map s; st_errors := st_errors s; st_diverged := st_diverged s |}.
Definition push_inline (x : inline) (s : state) : state :=
  {| st_data := st_data s; st_typenames := st_typenames s; st_inlines := st_inlines s ++ [x]; st_spreads := st_spreads s; st_frags := st_frags s;
     st_shared := st_shared s; st_map := st_map s; st_errors := st_errors s; st_diverged := st_diverged s |}.
Definition push_spread (x : spread) (s : state) : state :=
  {| st_data := st_data s; st_typenames := st_typenames s; st_inlines := st_inlines s; st_spreads := st_spreads s ++ [x]; st_frags := st_frags s;
     st_shared := st_shared s; st_map := st_map s; st_errors := st_errors s; st_diverged := st_diverged s |}.
Definition push_frag (n : name) (x : fragment) (s : state) : state :=
  {| st_data := st_data s; st_typenames := st_typenames s; st_inlines := st_inlines s; st_spreads := st_spreads s; st_frags := st_frags s ++ [x];
     st_shared := st_shared s; st_map := (n, List.length (st_frags s)) :: st_map s; st_errors := st_errors s; st_diverged := st_diverged s |}.
Definition push_shared (x : list selid) (s : state) : state :=
  {| st_data := st_data s; st_typenames := st_typenames s; st_inlines := st_inlines s; st_spreads := st_spreads s; st_frags := st_frags s;
     st_shared := st_shared s ++ x; st_map := st_map s; st_errors := st_errors s; st_diverged := st_diverged s |}.
Definition diverge (s : state) : state :=
  {| st_data := st_data s; st_typenames := st_typenames s; st_inlines := st_inlines s; st_spreads := st_spreads s; st_frags := st_frags s;
     st_shared := st_shared s; st_map := st_map s; st_errors := st_errors s; st_diverged := true |}.
(** id-derives: ids in NonZero<u16> (index + 1), SelectionIdSharedVecId in u16; both ends of a range are ids. *)
Definition too_long {A} (l : list A) : bool := N.ltb 65535 (N.of_nat (List.length l)).
Definition overflows (s : state) : bool :=
  too_long (st_data s) || too_long (st_typenames s) || too_long (st_inlines s) || too_long (st_spreads s) || too_long (st_frags s) || too_long (st_shared s).

Section Bind.
Variable S : schema.
Variable D : document.

Definition find_field (t : tid) (n : name) : option fid := option_map snd (find (fun f => String.eqb (fst f) n) (s_fields S t)).

(** Vec::swap_remove *)
Definition swap_remove {A} (i : nat) (l : list A) : list A :=
  match rev l with
  | [] => []
  | x :: rest => let l' := rev rest in if i =? List.length l' then l' else firstn i l' ++ x :: skipn (1 + i) l'
  end.
Fixpoint position (n : name) (l : list (name * value)) : option nat :=
  match l with [] => None | x :: l => if String.eqb (fst x) n then Some 0 else option_map (fun i => 1 + i) (position n l) end.
(** bind_field_arguments_sorted, 175-230 *)
Fixpoint bind_args (f : fid) (defs : list argdef) (args : list (name * value)) : list err * list (nat * argvalue) :=
  match defs with
  | [] => (match args with [] => [] | x :: _ => [UnknownArgument f (fst x)] end, [])
  | d :: defs =>
      if a_inaccessible d then bind_args f defs args
      else match position (a_name d) args with
           | Some i =>
               let v := match nth_error args i with Some x => snd x | None => 0 end in
               let '(es, out) := bind_args f defs (swap_remove i args) in
               ((if s_coerces S (a_type d) v then [] else [BadValue (a_type d) v]) ++ es, (a_id d, Given v) :: out)
           | None =>
               let '(es, out) := bind_args f defs args in
               if a_default d then (es, (a_id d, Default) :: out)
               else if a_nonnull d then (MissingArgument f (a_name d) :: es, out)
               else (es, out)
           end
  end.
(** bind_executable_directive, 345-389: skips first; the ids of the values are fresh, so nothing is deduplicated *)
Fixpoint bind_conditions (dirs : list directive) : list err * list condition :=
  match dirs with
  | [] => ([], [])
  | x :: dirs =>
      let '(es, out) := bind_conditions dirs in
      if String.eqb (d_name x) "skip" || String.eqb (d_name x) "include" then
        match d_args x with
        | [] => (MissingDirectiveArgument (d_name x) :: es, out)
        | (_, v) :: _ =>
            ((if s_coerces S (s_boolean S) v then [] else [BadValue (s_boolean S) v]) ++ es,
             (if String.eqb (d_name x) "skip" then Skip v else Include v) :: out)
        end
      else (es, out)
  end.
Definition is_skip (c : condition) : bool := match c with Skip _ => true | Include _ => false end.
Definition bind_dirs (dirs : list directive) : list err * list condition :=
  let '(es, out) := bind_conditions dirs in (es, filter is_skip out ++ filter (fun c => negb (is_skip c)) out).
(** bind_type_condition, 310-343 *)
Definition bind_type_condition (parent : tid) (n : name) : err + tid :=
  match s_type S n with
  | None => inl (UnknownType n)
  | Some t =>
      if s_type_inaccessible S t then inl (UnknownType n)
      else if negb (composite (s_kind S t)) then inl (InvalidTypeCondition n)
      else if s_intersects S parent t then inr t
      else inl (DisjointTypeCondition parent n)
  end.

Section Selections.
(** Binding of a fragment that was not bound yet. *)
Variable bind_fragment : tid -> name -> state -> state * (err + nat).

(** bind_selection_set, 44-93; bind_typename_field, 95-104; bind_field, 106-173; bind_inline_fragment, 232-252; bind_fragment_spread, 254-288 *)
Fixpoint bind_selection (parent : tid) (x : selection) (s : state) : state * option selid :=
  let fix bind_list (parent : tid) (sels : list selection) (s : state) : state * list selid :=
    match sels with
    | [] => (s, [])
    | x :: sels =>
        let '(s, id) := bind_selection parent x s in
        let '(s, ids) := bind_list parent sels s in
        (s, match id with Some id => id :: ids | None => ids end)
    end in
  let bind_set (parent : tid) (sels : list selection) (s : state) : state * range :=
    let '(s, ids) := bind_list parent sels s in
    (push_shared ids s, (List.length (st_shared s), List.length (st_shared s) + List.length ids)) in
  match x with
  | Field alias n args dirs sels =>
      let key := match alias with Some a => a | None => n end in
      if String.eqb n "__typename" then
        let '(es, ds) := bind_dirs dirs in
        let s := push_errors es s in
        (push_typename {| tf_key := key; tf_dirs := ds |} s, Some (IdTypename (List.length (st_typenames s))))
      else
        match s_kind S parent with
        | KUnion => (push_error (UnionHaveNoFields parent n) s, None)
        | _ =>
            match (match find_field parent n with Some f => if s_field_inaccessible S f then None else Some f | None => None end) with
            | None => (push_error (UnknownField parent n) s, None)
            | Some f =>
                let finish (s : state) (set : range) :=
                  let '(es, bound) := bind_args f (s_args S f) args in
                  let s := push_errors es s in
                  let '(es, ds) := bind_dirs dirs in
                  let s := push_errors es s in
                  (push_data {| df_def := f; df_key := key; df_args := bound; df_dirs := ds; df_set := set |} s, Some (IdField (List.length (st_data s)))) in
                if composite (s_kind S (s_field_type S f)) then
                  let '(s', set) := bind_set (s_field_type S f) sels s in
                  if (fst set =? snd set) && (List.length (st_errors s) =? List.length (st_errors s')) then
                    (push_error (LeafMustBeAScalarOrEnum f) s', None)
                  else finish s' set
                else match sels with
                     | [] => finish s (0, 0)
                     | _ => (push_error (CannotHaveSelectionSet f) s, None)
                     end
            end
        end
  | Inline cond dirs sels =>
      let finish (t : tid) (c : option tid) :=
        let '(s, set) := bind_set t sels s in
        let '(es, ds) := bind_dirs dirs in
        let s := push_errors es s in
        (push_inline {| in_cond := c; in_dirs := ds; in_set := set |} s, Some (IdInline (List.length (st_inlines s)))) in
      match cond with
      | None => finish parent None
      | Some n => match bind_type_condition parent n with
                  | inl e => (push_error e s, None)
                  | inr t => finish t (Some t)
                  end
      end
  | Spread n dirs =>
      let '(s, r) :=
        match find (fun e => String.eqb (fst e) n) (st_map s) with
        | Some (_, id) =>
            (s, match nth_error (st_frags s) id with
                | Some fr => if s_intersects S parent (fr_cond fr) then inr id else inl (DisjointTypeCondition parent (s_tname S (fr_cond fr)))
                | None => inr id
                end)
        | None => bind_fragment parent n s
        end in
      match r with
      | inl e => (push_error e s, None)
      | inr id =>
          let '(es, ds) := bind_dirs dirs in
          let s := push_errors es s in
          (push_spread {| sp_frag := id; sp_dirs := ds |} s, Some (IdSpread (List.length (st_spreads s))))
      end
  end.
Fixpoint bind_list (parent : tid) (sels : list selection) (s : state) : state * list selid :=
  match sels with
  | [] => (s, [])
  | x :: sels =>
      let '(s, id) := bind_selection parent x s in
      let '(s, ids) := bind_list parent sels s in
      (s, match id with Some id => id :: ids | None => ids end)
  end.
Definition bind_set (parent : tid) (sels : list selection) (s : state) : state * range :=
  let '(s, ids) := bind_list parent sels s in
  (push_shared ids s, (List.length (st_shared s), List.length (st_shared s) + List.length ids)).
End Selections.

(** bind_fragment_spread, 272-280; bind_fragment, 290-308 *)
Fixpoint bind_fragment (fuel : nat) (parent : tid) (n : name) (s : state) : state * (err + nat) :=
  match fuel with
  | 0 => (diverge s, inl (UnknownFragment n))
  | Datatypes.S fuel =>
      match find_fragment D n with
      | None => (s, inl (UnknownFragment n))
      | Some (cond, sels) =>
          match bind_type_condition parent cond with
          | inl e => (s, inl e)
          | inr t =>
              let '(s, set) := bind_set (bind_fragment fuel) t sels s in
              (push_frag n {| fr_cond := t; fr_set := set |} s, inr (List.length (st_frags s)))
          end
      end
  end.

(** parse_impl and ParsedOperation::operation *)
Inductive parse_error := MissingOperationName | MissingOperations | UnknownOperation (n : name).
Definition named (n : name) (o : operation) : bool := match o_name o with Some m => String.eqb m n | None => false end.
Definition select_operation (n : option name) : parse_error + option name :=
  match n with
  | None => if 1 <? List.length (doc_ops D) then inl MissingOperationName
            else match doc_ops D with [] => inl MissingOperations | o :: _ => inr (o_name o) end
  | Some n => match find (named n) (doc_ops D) with Some _ => inr (Some n) | None => inl (UnknownOperation n) end
  end.
(** None: unwrap on None *)
Definition the_operation (n : option name) : option operation :=
  match n with None => hd_error (doc_ops D) | Some n => find (named n) (doc_ops D) end.

Inductive root_error := NoMutationDefined | NoSubscriptionDefined.
Definition root_type (o : operation) : root_error + tid :=
  match o_type o with
  | Query => inr (s_query S)
  | Mutation => match s_mutation S with Some t => inr t | None => inl NoMutationDefined end
  | Subscription => match s_subscription S with Some t => inr t | None => inl NoSubscriptionDefined end
  end.
Definition bind_root (fuel : nat) (root : tid) (sels : list selection) : state * range := bind_set (bind_fragment fuel) root sels init.

(** ** FieldsIterator: the stack has the innermost iterator at its head. None: an id without element (panics) or too little fuel. *)
Definition slice {A} (l : list A) (r : range) : list A := firstn (snd r - fst r) (skipn (fst r) l).
Fixpoint collect (fuel : nat) (s : state) (stack : list (list selid)) : option (list selid) :=
  match fuel with
  | 0 => None
  | Datatypes.S fuel =>
      match stack with
      | [] => Some []
      | [] :: stack => collect fuel s stack
      | (id :: ids) :: stack =>
          match id with
          | IdField _ | IdTypename _ => option_map (cons id) (collect fuel s (ids :: stack))
          | IdSpread n =>
              match nth_error (st_spreads s) n with
              | None => None
              | Some sp => match nth_error (st_frags s) (sp_frag sp) with
                           | None => None
                           | Some fr => collect fuel s (slice (st_shared s) (fr_set fr) :: ids :: stack)
                           end
              end
          | IdInline n =>
              match nth_error (st_inlines s) n with
              | None => None
              | Some i => collect fuel s (slice (st_shared s) (in_set i) :: ids :: stack)
              end
          end
      end
  end.
Definition fields (fuel : nat) (s : state) (r : range) : option (list selid) := collect fuel s [slice (st_shared s) r].
(** ensure_introspection_is_accepted, 36-55 *)
Definition introspection_accepted (fuel : nat) (o : operation) (s : state) (r : range) : option bool :=
  match o_type o with
  | Query =>
      if s_no_introspection S then
        option_map (forallb (fun id => match id with
                                       | IdField n => match nth_error (st_data s) n with
                                                      | Some f => negb (existsb (Nat.eqb (df_def f)) (s_meta_fields S))
                                                      | None => true
                                                      end
                                       | _ => true
                                       end)) (fields fuel s r)
      else Some true
  | _ => Some true
  end.
End Bind.
