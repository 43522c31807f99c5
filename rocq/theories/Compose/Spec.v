(* What schemas mean, for the claims about composition.  Nothing here depends
   on how composition works: a type is read as usual, a schema as what its
   names stand for, and both say which values are input for a type and which
   data are a result of it. *)
From Coq Require Import String List Bool ZArith.
From Verif.Compose Require Import Model.
Import ListNotations.
Local Open Scope string_scope.
Local Open Scope list_scope.

(* Types: a name or a list, required or not. *)
Inductive ty := Named (n : name) (required : bool) | ListOf (t : ty) (required : bool).

Fixpoint of_lists (t : ty) (ls : list bool) : ty :=
  match ls with nil => t | r :: ls' => of_lists (ListOf t r) ls' end.

(* what the packed form of a type stands for *)
Definition type_of (t : ftype) : ty := of_lists (Named (base t) (inner_required (wrap t))) (lists (wrap t)).

Definition required (t : ty) : bool := match t with Named _ r | ListOf _ r => r end.
Definition nullable (t : ty) : ty := match t with Named n _ => Named n false | ListOf t _ => ListOf t false end.
Definition with_required (r : bool) (t : ty) : ty := match t with Named n _ => Named n r | ListOf t _ => ListOf t r end.
Fixpoint depth (t : ty) : nat := match t with Named _ _ => 0 | ListOf t _ => S (depth t) end.
Fixpoint named (t : ty) : name := match t with Named n _ => n | ListOf t _ => named t end.

(* Data of a response.  An object says which type it is of. *)
Inductive data :=
| Null
| Leaf (v : value)
| Obj (typename : name) (fields : list (name * data))
| Arr (l : list data).

(* What a name stands for. *)
Inductive tdef :=
| TScalar
| TEnum (values : list name)
| TInput (oneof : bool) (fields : list (name * (ty * bool))) (* with whether there is a default *)
| TObject (fields : list (name * ty))
| TInterface (fields : list (name * ty))
| TUnion (members : list name).

Record system := mksystem { stands : name -> option tdef; implements : name -> name -> Prop }.

Section meaning.
  Variable sys : system.
  (* which values the scalar of this name takes *)
  Variable scalar : name -> value -> Prop.

  (* Which values are input for a type.  A field can be missing if it is
     nullable or has a default.  `sent` is for what a gateway sends: defaults
     are filled in, thus a field that has one is there. *)
  Fixpoint accepts (sent : bool) (v : value) (t : ty) : Prop :=
    match t with
    | ListOf t' r =>
        match v with
        | VNull => r = false
        | VList l => (fix all (l : list value) : Prop :=
                        match l with nil => True | x :: l' => accepts sent x t' /\ all l' end) l
        | _ => False
        end
    | Named n r =>
        match v with
        | VNull => r = false
        | _ =>
            match stands sys n with
            | Some TScalar => scalar n v
            | Some (TEnum vs) => match v with VEnum x => In x vs | _ => False end
            | Some (TInput oneof fs) =>
                match v with
                | VObject l =>
                    (fix all (l : list (name * value)) : Prop :=
                       match l with
                       | nil => True
                       | (f, x) :: l' => (exists t' d, In (f, (t', d)) fs /\ accepts sent x t') /\ all l'
                       end) l /\
                    NoDup (map fst l) /\
                    (forall f t' d, In (f, (t', d)) fs ->
                       In f (map fst l) \/
                       if sent then required t' = false /\ d = false else required t' = false \/ d = true) /\
                    (oneof = true -> exists f x, l = [(f, x)] /\ x <> VNull)
                | _ => False
                end
            | _ => False
            end
        end
    end.

  (* Which arguments a field takes. *)
  Definition takes (sent : bool) (l : list (name * value)) (args : list (name * (ty * bool))) : Prop :=
    (forall a x, In (a, x) l -> exists t d, In (a, (t, d)) args /\ accepts sent x t) /\
    NoDup (map fst l) /\
    (forall a t d, In (a, (t, d)) args ->
       In a (map fst l) \/ if sent then required t = false /\ d = false else required t = false \/ d = true).

  (* Which data are a result of a type.  Of an object, any of the fields of its
     type can be there, as an operation selects them. *)
  Fixpoint conforms (d : data) (t : ty) : Prop :=
    match d with
    | Null => required t = false
    | Leaf v =>
        match t with
        | Named n _ =>
            match stands sys n with
            | Some TScalar => scalar n v
            | Some (TEnum vs) => exists x, v = VEnum x /\ In x vs
            | _ => False
            end
        | ListOf _ _ => False
        end
    | Arr l =>
        match t with
        | ListOf t' _ => (fix all (l : list data) : Prop :=
                            match l with nil => True | x :: l' => conforms x t' /\ all l' end) l
        | Named _ _ => False
        end
    | Obj tn fs =>
        match t with
        | Named n _ =>
            match stands sys n with
            | Some (TObject _) => tn = n
            | Some (TInterface _) => implements sys tn n
            | Some (TUnion ms) => In tn ms
            | _ => False
            end /\
            exists flds, stands sys tn = Some (TObject flds) /\
            (fix all (fs : list (name * data)) : Prop :=
               match fs with
               | nil => True
               | (f, x) :: fs' => (exists t', In (f, t') flds /\ conforms x t') /\ all fs'
               end) fs
        | ListOf _ _ => False
        end
    end.
End meaning.

(* What the names of a subgraph stand for.  A field that takes its parents in
   batches gives a list, of which every element is for one parent. *)
Definition element (t : ty) : ty := match t with ListOf t' _ => t' | Named _ _ => t end.
Definition field_type (f : field) : ty :=
  if existsb (fun a => requires_list (a_dirs a)) (f_args f) then element (type_of (f_type f)) else type_of (f_type f).

Definition has_default (o : option value) : bool := match o with Some _ => true | None => false end.

Definition read_args (f : field) : list (name * (ty * bool)) :=
  map (fun a => (a_name a, (type_of (a_type a), has_default (a_default a)))) (f_args f).
Definition read_inputs (l : list oinput) : list (name * (ty * bool)) :=
  map (fun i => (oi_name i, (type_of (oi_type i), has_default (oi_default i)))) l.

Definition read_definition (d : definition) : tdef :=
  match d_kind d with
  | KScalar => TScalar
  | KEnum => TEnum (map fst (d_values d))
  | KInputObject =>
      TInput (one_of (d_dirs d))
        (map (fun f => (f_name f, (type_of (f_type f), has_default (f_default f)))) (d_fields d))
  | KObject => TObject (map (fun f => (f_name f, field_type f)) (d_fields d))
  | KInterface => TInterface (map (fun f => (f_name f, field_type f)) (d_fields d))
  | KUnion => TUnion (d_members d)
  end.

Definition read_graph (g : subgraph) : system :=
  mksystem
    (fun n => match definition_by_name g n with
              | Some d => Some (read_definition d)
              | None => if mem n builtin_scalars then Some TScalar else None
              end)
    (fun o i => In (i, o) (g_impls g)).

(* What the names of the composed schema stand for. *)
Definition read_sdef (d : sdef) : tdef :=
  match d with
  | DScalar => TScalar
  | DEnum vs => TEnum (map fst vs)
  | DInput o fs => TInput o (read_inputs fs)
  | DObject fs _ => TObject (map (fun f => (of_name f, type_of (of_type f))) fs)
  | DInterface fs _ => TInterface (map (fun f => (of_name f, type_of (of_type f))) fs)
  | DUnion ms => TUnion ms
  end.

Definition read_schema (s : schema) : system :=
  mksystem (fun n => option_map read_sdef (lookup s n))
    (fun o i => exists fs is, lookup s o = Some (DObject fs is) /\ In i is).

(* Positions. *)
Definition in_input (gs : list subgraph) (n : name) : Prop :=
  exists g d f, In g gs /\ In d (g_defs g) /\ In f (d_fields d) /\
    ((exists a, In a (f_args f) /\ base (a_type a) = n) \/ (d_kind d = KInputObject /\ base (f_type f) = n)).
Definition in_output (gs : list subgraph) (n : name) : Prop :=
  exists g d f, In g gs /\ In d (g_defs g) /\ In f (d_fields d) /\
    (d_kind d = KObject \/ d_kind d = KInterface) /\ base (f_type f) = n.

(* Subgraphs as they should be.  A schema of one subgraph: names are distinct,
   every name that is used is defined, the roots have their usual names. *)
Definition defined (g : subgraph) (n : name) : Prop := In n (map d_name (g_defs g)) \/ In n builtin_scalars.
Definition has_kind (g : subgraph) (n : name) (k : kind) : Prop :=
  exists d, In d (g_defs g) /\ d_name d = n /\ d_kind d = k.

Definition usual_root (g : subgraph) (r : option name) (n : name) : Prop :=
  (r = Some n /\ has_kind g n KObject) \/ (r = None /\ ~ In n (map d_name (g_defs g))).

Record well_formed (g : subgraph) : Prop := {
  wf_names : NoDup (map d_name (g_defs g));
  wf_fields : forall d, In d (g_defs g) -> NoDup (map f_name (d_fields d));
  wf_args : forall d f, In d (g_defs g) -> In f (d_fields d) -> NoDup (map a_name (f_args f));
  wf_values : forall d, In d (g_defs g) -> NoDup (map fst (d_values d));
  wf_inputs : forall d f, In d (g_defs g) -> d_kind d = KInputObject -> In f (d_fields d) -> f_args f = nil;
  wf_types : forall d f, In d (g_defs g) -> In f (d_fields d) ->
    defined g (base (f_type f)) /\ (forall a, In a (f_args f) -> defined g (base (a_type a)));
  wf_members : forall d m, In d (g_defs g) -> In m (d_members d) -> has_kind g m KObject;
  wf_impls : forall i n, In (i, n) (g_impls g) ->
    has_kind g i KInterface /\ (has_kind g n KObject \/ has_kind g n KInterface);
  wf_query : usual_root g (g_query g) "Query";
  wf_mutation : usual_root g (g_mutation g) "Mutation";
  wf_subscription : usual_root g (g_subscription g) "Subscription" }.

(* The subgraphs agree on what kind of type a name is for. *)
Definition same_kinds (gs : list subgraph) : Prop :=
  (forall g g' d d', In g gs -> In g' gs -> In d (g_defs g) -> In d' (g_defs g') ->
     d_name d = d_name d' -> d_kind d = d_kind d') /\
  (forall g d, In g gs -> In d (g_defs g) -> In (d_name d) builtin_scalars -> d_kind d = KScalar).

(* They agree on how often a list is nested. *)
Definition same_depths (gs : list subgraph) : Prop :=
  forall g g' d d' f f', In g gs -> In g' gs -> In d (g_defs g) -> In d' (g_defs g') -> d_name d = d_name d' ->
    In f (d_fields d) -> In f' (d_fields d') -> f_name f = f_name f' ->
    depth (field_type f) = depth (field_type f') /\
    (forall a a', In a (f_args f) -> In a' (f_args f') -> a_name a = a_name a' ->
       depth (type_of (a_type a)) = depth (type_of (a_type a'))).

(* No interface has a key and no object stands for one. *)
Definition no_entity_interfaces (gs : list subgraph) : Prop :=
  forall g d, In g gs -> In d (g_defs g) ->
    (d_kind d = KInterface -> d_keys d = nil) /\ interface_object (d_dirs d) = false.
