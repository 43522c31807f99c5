(** Detection of the arguments of a @lookup field: which argument or input field takes which
    field of the entity's key.

    Sources (crates/engine/schema/src/builder/graph):
    - directives/composite/injection/auto_detect.rs (all of it)
    - selections.rs 47-121 (current_state, reset, push_injection, push_key_value_injections,
      push_argument_injections)
    - crates/graphql-wrapping-types: is_non_null, non_null, list_wrappings,
      pop_outermost_list_wrapping, as lists of wrappers
    - engine/schema/src/ty.rs 16-45

    Simplifications:
    - Names, definitions and ids are numbers; values of defaults are their JSON.
    - Keys with 64 fields or more, for which the code panics, are treated like others.
    - Ids of arguments are distinct, so they stand for their positions.
    - The recursion into nested key fields has fuel. *)

From Coq Require Import List Arith ZArith String Bool.
From Verif Require Import Response.Model Views.Model.
Import ListNotations.
Local Open Scope nat_scope.

(** ** Types *)

(** Wrapping: whether each list is required, outermost first, and the type itself. *)
Record wrap := MkWrap { w_lists : list bool; w_inner : bool }.

Definition non_null (w : wrap) : wrap :=
  match w_lists w with
  | [] => MkWrap [] true
  | _ :: l => MkWrap (true :: l) (w_inner w)
  end.
Definition is_non_null (w : wrap) : bool :=
  match w_lists w with [] => w_inner w | b :: _ => b end.
Definition pop_list (w : wrap) : option wrap :=
  match w_lists w with [] => None | _ :: l => Some (MkWrap l (w_inner w)) end.

Fixpoint bools_eqb (a b : list bool) : bool :=
  match a, b with
  | [], [] => true
  | x :: a, y :: b => Bool.eqb x y && bools_eqb a b
  | _, _ => false
  end.
Definition wrap_eqb (a b : wrap) : bool :=
  bools_eqb (w_lists a) (w_lists b) && Bool.eqb (w_inner a) (w_inner b).

(** TypeDefinitionId: objects, interfaces and unions are alike here. *)
Inductive def := DScalar (n : nat) | DEnum (n : nat) | DInput (n : nat) | DOutput (n : nat).
Definition def_eqb (a b : def) : bool :=
  match a, b with
  | DScalar n, DScalar m | DEnum n, DEnum m | DInput n, DInput m | DOutput n, DOutput m => Nat.eqb n m
  | _, _ => false
  end.

Record ty := MkTy { t_def : def; t_wrap : wrap }.
Definition ty_eqb (a b : ty) : bool := def_eqb (t_def a) (t_def b) && wrap_eqb (t_wrap a) (t_wrap b).
Definition ty_non_null (a : ty) : ty := MkTy (t_def a) (non_null (t_wrap a)).

Record field := MkField { f_name : nat; f_ty : ty }.
Record input := MkInput { i_name : nat; i_ty : ty; i_default : option out }.
Record object := MkObject { o_oneof : bool; o_inputs : list nat }.

(** The schema: the definition of a SchemaField, of an InputValueDefinition, of an input
    object. *)
Record graph := MkGraph { g_field : nat -> field; g_input : nat -> input; g_object : nat -> object }.

(** ** The injections made (selections.rs) *)

Inductive vinj := SelectV (f next : nat) | ObjectV (start len : nat) | DefaultV (x : out) | IdentityV.
Inductive ainj := ValueA (v : vinj) | InputA (start len : nat).

Record store := MkStore {
  s_args : list (nat * ainj);
  s_injs : list vinj;
  s_kvs : list (nat * vinj)
}.

(** reset (62-67), the state being the store at the time. *)
Definition reset (old st : store) : store :=
  MkStore (firstn (List.length (s_args old)) (s_args st))
    (firstn (List.length (s_injs old)) (s_injs st))
    (firstn (List.length (s_kvs old)) (s_kvs st)).

(** push_injection (69-78): the first one is the identity. *)
Definition push_inj (v : vinj) (st : store) : nat * store :=
  match v with
  | IdentityV => (0, st)
  | _ => (List.length (s_injs st), MkStore (s_args st) (s_injs st ++ [v]) (s_kvs st))
  end.

(** order_key (117-122), and the comparison. *)
Definition order_key (p : nat * vinj) : option nat * nat :=
  match snd p with SelectV f _ => (Some f, fst p) | _ => (None, fst p) end.
Definition key_leb (a b : option nat * nat) : bool :=
  match fst a, fst b with
  | None, Some _ => true
  | Some _, None => false
  | None, None => Nat.leb (snd a) (snd b)
  | Some f, Some g => if Nat.eqb f g then Nat.leb (snd a) (snd b) else Nat.ltb f g
  end.
Fixpoint insert_kv (p : nat * vinj) (l : list (nat * vinj)) : list (nat * vinj) :=
  match l with
  | [] => [p]
  | q :: r => if key_leb (order_key p) (order_key q) then p :: l else q :: insert_kv p r
  end.
Definition sort_kvs (l : list (nat * vinj)) : list (nat * vinj) := fold_right insert_kv [] l.

(** push_key_value_injections (94-104), push_argument_injections (106-114). *)
Definition push_kvs (l : list (nat * vinj)) (st : store) : vinj * store :=
  (ObjectV (List.length (s_kvs st)) (List.length l),
   MkStore (s_args st) (s_injs st) (s_kvs st ++ sort_kvs l)).
Definition push_args (l : list (nat * ainj)) (st : store) : (nat * nat) * store :=
  ((List.length (s_args st), List.length l), MkStore (s_args st ++ l) (s_injs st) (s_kvs st)).

Section Detect.
  Variable g : graph.

  (** can_inject_field_into_input (353-377). *)
  Definition can_inject (f : field) (i : input) (batch : bool) : bool :=
    match t_def (f_ty f) with
    | DEnum _ | DScalar _ => def_eqb (t_def (f_ty f)) (t_def (i_ty i))
    | _ => match t_def (i_ty i) with DInput _ => true | _ => false end
    end &&
    match (if batch then pop_list (t_wrap (i_ty i)) else Some (t_wrap (i_ty i))) with
    | None => false
    | Some w => wrap_eqb w (t_wrap (f_ty f)) || wrap_eqb (non_null w) (t_wrap (f_ty f))
    end.

  (** The condition on a key field in try_auto_detect_unique_input_value_key_mapping
      (292-319). *)
  Definition suits (inputs : list nat) (keys : list item) (batch : bool) (id : nat) (p : nat) (k : item) : bool :=
    let f := g_field g (i_field k) in
    let i := g_input g id in
    can_inject f i batch &&
    (Nat.eqb (f_name f) (i_name i) ||
     (forallb (fun j => Nat.eqb j id || negb (ty_eqb (ty_non_null (i_ty (g_input g j))) (ty_non_null (i_ty i)))) inputs &&
      forallb (fun q => Nat.eqb p (fst q) || negb (ty_eqb (f_ty (g_field g (i_field (snd q)))) (f_ty f)))
        (combine (seq 0 (List.length keys)) keys))).

  Fixpoint position (test : nat -> item -> bool) (l : list item) (p : nat) : option (nat * item) :=
    match l with
    | [] => None
    | k :: r => if test p k then Some (p, k) else position test r (S p)
    end.

  Section Step.
    (** try_auto_detect_input_object_injections for the fields of a key field. *)
    Variable nested : list item -> list nat -> store -> option vinj * store.

    (** try_auto_detect_unique_input_value_key_mapping (283-351). *)
    Definition map_input (inputs : list nat) (keys : list item) (batch : bool) (id : nat) (st : store) :
      option (option nat * vinj) * store :=
      match position (suits inputs keys batch id) keys 0 with
      | Some (p, k) =>
          match i_sub k with
          | [] => let (n, st) := push_inj IdentityV st in (Some (Some p, SelectV (i_field k) n), st)
          | sub =>
              match t_def (i_ty (g_input g id)) with
              | DInput o =>
                  match nested sub (o_inputs (g_object g o)) st with
                  | (None, st) => (None, st)
                  | (Some v, st) => let (n, st) := push_inj v st in (Some (Some p, SelectV (i_field k) n), st)
                  end
              | _ => (None, st)
              end
          end
      | None =>
          match i_default (g_input g id) with
          | Some x => (Some (None, DefaultV x), st)
          | None => (None, st)
          end
      end.

    (** The loops over inputs of try_auto_detect_arguments_injections (178-198) and
        try_auto_detect_input_object_injections (217-238): the positions of key fields taken
        and the values, by input. *)
    Fixpoint map_inputs (inputs : list nat) (keys : list item) (batch : bool) (l : list nat) (st : store) :
      option (list nat * list (nat * vinj)) * store :=
      match l with
      | [] => (Some ([], []), st)
      | id :: l' =>
          let (r, st) := map_input inputs keys batch id st in
          let v :=
            match r with
            | Some (p, v) => Some (match p with Some p => [p] | None => [] end, [(id, v)])
            | None =>
                match i_default (g_input g id) with
                | Some x => Some ([], [(id, DefaultV x)])
                | None => if is_non_null (t_wrap (i_ty (g_input g id))) then None else Some ([], [])
                end
            end in
          match v with
          | None => (None, st)
          | Some (ps, vs) =>
              match map_inputs inputs keys batch l' st with
              | (None, st) => (None, st)
              | (Some (ps', vs'), st) => (Some (ps ++ ps', vs ++ vs'), st)
              end
          end
      end.

    Definition all_taken (keys : list item) (ps : list nat) : bool :=
      forallb (fun p => existsb (Nat.eqb p) ps) (seq 0 (List.length keys)).

    (** try_auto_detect_arguments_injections (169-206). *)
    Definition map_arguments (batch : bool) (keys : list item) (args : list nat) (st : store) :
      option (nat * nat) * store :=
      match map_inputs args keys batch args st with
      | (Some (ps, vs), st) =>
          if all_taken keys ps then
            let (r, st) := push_args (map (fun p => (fst p, ValueA (snd p))) vs) st in (Some r, st)
          else (None, st)
      | (None, st) => (None, st)
      end.

    (** try_auto_detect_input_object_injections (208-247). *)
    Definition map_object (batch : bool) (keys : list item) (inputs : list nat) (st : store) : option vinj * store :=
      match map_inputs inputs keys batch inputs st with
      | (Some (ps, vs), st) =>
          if all_taken keys ps then
            let (v, st) := push_kvs (map (fun p => (i_name (g_input g (fst p)), snd p)) vs) st in (Some v, st)
          else (None, st)
      | (None, st) => (None, st)
      end.

    (** try_auto_detect_oneof_input_object_with_single_key (249-281). *)
    Fixpoint oneof_values (key : item) (batch : bool) (inputs : list nat) (l : list nat) (st : store) :
      option (list (nat * vinj)) * store :=
      match l with
      | [] => (Some [], st)
      | id :: l' =>
          match map_input inputs [key] batch id st with
          | (Some (_, v), st) =>
              match oneof_values key batch inputs l' st with
              | (Some r, st) => (Some ((id, v) :: r), st)
              | (None, st) => (None, st)
              end
          | (None, st) =>
              if is_non_null (t_wrap (i_ty (g_input g id))) then (None, st)
              else oneof_values key batch inputs l' st
          end
      end.
    Definition oneof_single (batch : bool) (key : item) (inputs : list nat) (st : store) : option (nat * vinj) * store :=
      match oneof_values key batch inputs inputs st with
      | (Some l, st) =>
          match rev l with
          | [] => (None, st)
          | v :: rest => if Nat.ltb 1 (List.length rest) then (None, st) else (Some v, st)
          end
      | (None, st) => (None, st)
      end.

    Definition single_depth (batch : bool) (w : wrap) : bool :=
      match batch, w_lists w with true, [_] => true | false, [] => true | _, _ => false end.

    (** The argument takes a oneof input object, or the input object itself: pushed for the
        argument (87-166). *)
    Definition push_nested (arg field : nat) (v : vinj) (st : store) : (nat * nat) * store :=
      let (n, st) := push_args [(field, ValueA v)] st in
      push_args [(arg, InputA (fst n) (snd n))] st.

    (** The loop over the fields of a oneof input object (112-141); [state] is the store when
        the argument was reached. *)
    Fixpoint oneof_fields (batch : bool) (keys : list item) (arg : nat) (state : store) (l : list nat) (st : store) :
      list (nat * nat) * store :=
      match l with
      | [] => ([], st)
      | id :: l' =>
          match t_def (i_ty (g_input g id)) with
          | DInput o =>
              if single_depth batch (t_wrap (i_ty (g_input g id))) then
                match map_object false keys (o_inputs (g_object g o)) st with
                | (Some v, st) =>
                    let (r, st) := push_nested arg id v st in
                    let (rs, st) := oneof_fields batch keys arg state l' st in (r :: rs, st)
                | (None, st) => oneof_fields batch keys arg state l' (reset state st)
                end
              else oneof_fields batch keys arg state l' st
          | _ => oneof_fields batch keys arg state l' st
          end
      end.

    (** One argument (70-166). *)
    Definition candidates_of (batch : bool) (keys : list item) (id : nat) (st : store) : list (nat * nat) * store :=
      match t_def (i_ty (g_input g id)) with
      | DInput o =>
          if o_oneof (g_object g o) then
            match w_lists (t_wrap (i_ty (g_input g id))) with
            | _ :: _ => ([], st)
            | [] =>
                match keys with
                | [key] =>
                    match oneof_single batch key (o_inputs (g_object g o)) st with
                    | (Some (field, v), st') => let (r, st'') := push_nested id field v st' in ([r], st'')
                    | (None, st') => ([], reset st st')
                    end
                | _ => oneof_fields batch keys id st (o_inputs (g_object g o)) st
                end
            end
          else
            match keys with
            | _ :: _ :: _ =>
                if single_depth batch (t_wrap (i_ty (g_input g id))) then
                  match map_object false keys (o_inputs (g_object g o)) st with
                  | (Some v, st') => let (r, st'') := push_args [(id, ValueA v)] st' in ([r], st'')
                  | (None, st') => ([], reset st st')
                  end
                else ([], st)
            | _ => ([], st)
            end
      | _ => ([], st)
      end.

    Fixpoint nested_candidates (batch : bool) (keys : list item) (required : list nat) (l : list nat) (st : store) :
      list (nat * nat) * store :=
      match l with
      | [] => ([], st)
      | id :: l' =>
          if existsb (fun r => negb (Nat.eqb r id)) required then nested_candidates batch keys required l' st
          else
            let (c, st) := candidates_of batch keys id st in
            let (c', st) := nested_candidates batch keys required l' st in (c ++ c', st)
      end.

    (** try_auto_detect_all_possible_injections (32-167). *)
    Definition all_candidates (batch : bool) (keys : list item) (args : list nat) (st : store) :
      list (nat * nat) * store :=
      let (c, st) :=
        if Nat.eqb (List.length keys) 1 || negb batch then
          match map_arguments batch keys args st with
          | (Some r, st') => ([r], st')
          | (None, st') => ([], reset st st')
          end
        else ([], st) in
      let required := filter (fun id => is_non_null (t_wrap (i_ty (g_input g id)))) args in
      if Nat.ltb 1 (List.length required) then (c, st)
      else let (c', st) := nested_candidates batch keys required args st in (c ++ c', st).

    (** try_auto_detect_unique_injection (10-30). *)
    Definition detect_step (batch : bool) (keys : list item) (args : list nat) (st : store) : option (nat * nat) * store :=
      match all_candidates batch keys args st with
      | ([c], st') => (Some c, st')
      | ([], st') => (None, st')
      | (_, st') => (None, reset st st')
      end.
  End Step.

  Fixpoint nested_object (fuel : nat) (keys : list item) (inputs : list nat) (st : store) : option vinj * store :=
    match fuel with
    | O => (None, st)
    | S n => map_object (nested_object n) false keys inputs st
    end.

  Definition detect (fuel : nat) := detect_step (nested_object fuel).
End Detect.

(** ** The arguments sent
    (crates/engine/src/prepare/cached/query_plan/field/arguments.rs 190-331) *)

(** The injections of arguments, followed through the ids: a value, or a value for a field of a
    oneof input object. *)
Inductive arg := ArgValue (i : inj) | ArgInput (l : list (nat * inj)).

(** The objects to look up: one, or several at once. *)
Inductive parents := POne (v : val) | PMany (l : list val).

Section Render.
  Variable ps : list part.
  Variable fuel : nat.
  Variable r : list req.
  Variable who : parents.

  (** for_injection of ResponseObjectView and ParentObjects. *)
  Definition injected (i : inj) : vres out :=
    match who with
    | POne v => view_injection ps fuel (r, i) v
    | PMany l => vbind (vall (map (view_injection ps fuel (r, i)) l)) (fun xs => VOk (OList xs))
    end.

  (** ArgumentObject::serialize (299-331). *)
  Fixpoint input_fields (l : list (nat * inj)) : vres (list (nat * out)) :=
    match l with
    | [] => VOk []
    | (k, i) :: l' => vbind (injected i) (fun x => vbind (input_fields l') (fun es => VOk ((k, x) :: es)))
    end.

  Definition argument (a : arg) : vres out :=
    match a with
    | ArgValue (IDefault x) => VOk x
    | ArgValue i => injected i
    | ArgInput l => vbind (input_fields l) (fun es => VOk (OObj es))
    end.

  (** PlanFieldArgumentsView and PlanFieldArgumentsBatchView, the arguments of a lookup being
      all injected. *)
  Fixpoint arguments (l : list (nat * arg)) : vres (list (nat * out)) :=
    match l with
    | [] => VOk []
    | (k, a) :: l' => vbind (argument a) (fun x => vbind (arguments l') (fun es => VOk ((k, x) :: es)))
    end.
End Render.
