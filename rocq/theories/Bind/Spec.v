(** What an operation means for a schema: positions of a document, what is wrong at a position, and the resolved tree.
    Independent of the binder: no vectors, ids, or order of evaluation. *)
From Coq Require Import String List Bool Arith Permutation.
From Verif.Bind Require Import Model.
Import ListNotations.
Local Open Scope string_scope.
Local Open Scope nat_scope.
Local Open Scope list_scope.

Section Spec.
Variable S : schema.
Variable D : document.

(** The first entry of a name *)
Inductive lookup {A} (n : name) : list (name * A) -> A -> Prop :=
| lookup_here v l : lookup n ((n, v) :: l) v
| lookup_there m v l w : m <> n -> lookup n l w -> lookup n ((m, v) :: l) w.

(** The field of a name that clients see in a type *)
Inductive visible_field (t : tid) (n : name) (f : fid) : Prop :=
| Visible_field : s_kind S t <> KUnion -> lookup n (s_fields S t) f -> s_field_inaccessible S f = false -> visible_field t n f.
Inductive visible_composite (n : name) (t : tid) : Prop :=
| Visible_composite : s_type S n = Some t -> s_type_inaccessible S t = false -> composite (s_kind S t) = true -> visible_composite n t.
(** The type of the selections under a fragment with a condition *)
Inductive narrows (parent : tid) (n : name) (t : tid) : Prop :=
| Narrows : visible_composite n t -> s_intersects S parent t = true -> narrows parent n t.

(** ** Positions: the selections an operation consists of, with the type they are made in *)
Inductive position_of (root : tid) (sels : list selection) : tid -> selection -> Prop :=
| Pos_root x : In x sels -> position_of root sels root x
| Pos_field p alias n args dirs l f x :
    position_of root sels p (Field alias n args dirs l) -> n <> "__typename" -> visible_field p n f -> composite (s_kind S (s_field_type S f)) = true -> In x l ->
    position_of root sels (s_field_type S f) x
| Pos_inline p dirs l x : position_of root sels p (Inline None dirs l) -> In x l -> position_of root sels p x
| Pos_inline_on p n t dirs l x : position_of root sels p (Inline (Some n) dirs l) -> narrows p n t -> In x l -> position_of root sels t x
| Pos_spread p n dirs c l t x : position_of root sels p (Spread n dirs) -> lookup n (doc_frags D) (c, l) -> narrows p c t -> In x l -> position_of root sels t x.

(** ** What is wrong at a position *)
Definition visible_arg (f : fid) (a : argdef) : Prop := In a (s_args S f) /\ a_inaccessible a = false.
(** An argument is known when it is defined and not given earlier. *)
Inductive arg_fault (f : fid) (args : list (name * value)) : err -> Prop :=
| Fault_missing a : visible_arg f a -> ~ In (a_name a) (map fst args) -> a_default a = false -> a_nonnull a = true -> arg_fault f args (MissingArgument f (a_name a))
| Fault_value a n v : visible_arg f a -> a_name a = n -> In (n, v) args -> s_coerces S (a_type a) v = false -> arg_fault f args (BadValue (a_type a) v)
| Fault_unknown n v : In (n, v) args -> ~ (exists a, visible_arg f a /\ a_name a = n) -> arg_fault f args (UnknownArgument f n)
| Fault_twice n v l r : Permutation args ((n, v) :: l) -> In (n, r) l -> arg_fault f args (UnknownArgument f n).
Definition conditional (n : name) : Prop := n = "skip" \/ n = "include".
Inductive dir_fault (dirs : list directive) : err -> Prop :=
| Fault_dir_missing d : In d dirs -> conditional (d_name d) -> d_args d = [] -> dir_fault dirs (MissingDirectiveArgument (d_name d))
| Fault_dir_value d m v rest : In d dirs -> conditional (d_name d) -> d_args d = (m, v) :: rest -> s_coerces S (s_boolean S) v = false -> dir_fault dirs (BadValue (s_boolean S) v).
Definition dirs_of (x : selection) : list directive := match x with Field _ _ _ d _ | Spread _ d | Inline _ d _ => d end.
Inductive cond_fault (parent : tid) (n : name) : err -> Prop :=
| Fault_type : (forall t, s_type S n = Some t -> s_type_inaccessible S t = true) -> cond_fault parent n (UnknownType n)
| Fault_leaf_type t : s_type S n = Some t -> s_type_inaccessible S t = false -> composite (s_kind S t) = false -> cond_fault parent n (InvalidTypeCondition n)
| Fault_disjoint t : visible_composite n t -> s_intersects S parent t = false -> cond_fault parent n (DisjointTypeCondition parent n).
Inductive fault (parent : tid) : selection -> err -> Prop :=
| Fault_union alias n args dirs l : n <> "__typename" -> s_kind S parent = KUnion -> fault parent (Field alias n args dirs l) (UnionHaveNoFields parent n)
| Fault_field alias n args dirs l :
    n <> "__typename" -> s_kind S parent <> KUnion -> (forall f, ~ visible_field parent n f) -> fault parent (Field alias n args dirs l) (UnknownField parent n)
| Fault_leaf alias n args dirs f :
    n <> "__typename" -> visible_field parent n f -> composite (s_kind S (s_field_type S f)) = true -> fault parent (Field alias n args dirs []) (LeafMustBeAScalarOrEnum f)
| Fault_set alias n args dirs l f :
    n <> "__typename" -> visible_field parent n f -> composite (s_kind S (s_field_type S f)) = false -> l <> [] -> fault parent (Field alias n args dirs l) (CannotHaveSelectionSet f)
| Fault_arg alias n args dirs l f e : n <> "__typename" -> visible_field parent n f -> arg_fault f args e -> fault parent (Field alias n args dirs l) e
| Fault_dir x e : dir_fault (dirs_of x) e -> fault parent x e
| Fault_cond n dirs l e : cond_fault parent n e -> fault parent (Inline (Some n) dirs l) e
| Fault_frag n dirs : (forall b, ~ lookup n (doc_frags D) b) -> fault parent (Spread n dirs) (UnknownFragment n)
| Fault_frag_cond n dirs c l e : lookup n (doc_frags D) (c, l) -> cond_fault parent c e -> fault parent (Spread n dirs) e.

(** ** The resolved tree *)
Inductive tree :=
| TField (f : fid) (key : name) (args : list (nat * argvalue)) (conds : list condition) (subs : list tree)
| TTypename (key : name) (conds : list condition)
| TSpread (on : tid) (conds : list condition) (subs : list tree)
| TInline (on : option tid) (conds : list condition) (subs : list tree).
Definition key_of (alias : option name) (n : name) : name := match alias with Some a => a | None => n end.
(** The arguments of a field in the order of its definition: given, or by default, or left out *)
Inductive arg_values (args : list (name * value)) : list argdef -> list (nat * argvalue) -> Prop :=
| AV_nil : arg_values args [] []
| AV_hidden a defs out : a_inaccessible a = true -> arg_values args defs out -> arg_values args (a :: defs) out
| AV_given a defs out v : a_inaccessible a = false -> In (a_name a, v) args -> arg_values args defs out -> arg_values args (a :: defs) ((a_id a, Given v) :: out)
| AV_default a defs out : a_inaccessible a = false -> ~ In (a_name a) (map fst args) -> a_default a = true -> arg_values args defs out -> arg_values args (a :: defs) ((a_id a, Default) :: out)
| AV_absent a defs out : a_inaccessible a = false -> ~ In (a_name a) (map fst args) -> a_default a = false -> arg_values args defs out -> arg_values args (a :: defs) out.
(** The conditions of a selection: all must hold, their order does not matter *)
Inductive conds_in : list directive -> list condition -> Prop :=
| CI_nil : conds_in [] []
| CI_skip m v rest dirs out : conds_in dirs out -> conds_in ({| d_name := "skip"; d_args := (m, v) :: rest |} :: dirs) (Skip v :: out)
| CI_include m v rest dirs out : conds_in dirs out -> conds_in ({| d_name := "include"; d_args := (m, v) :: rest |} :: dirs) (Include v :: out)
| CI_other d dirs out : ~ conditional (d_name d) -> conds_in dirs out -> conds_in (d :: dirs) out.
Definition conds_of (dirs : list directive) (out : list condition) : Prop := exists l, conds_in dirs l /\ Permutation l out.

Inductive resolves : tid -> selection -> tree -> Prop :=
| R_typename p alias args dirs l cs : conds_of dirs cs -> resolves p (Field alias "__typename" args dirs l) (TTypename (key_of alias "__typename") cs)
| R_field p alias n args dirs l f avs cs subs :
    n <> "__typename" -> visible_field p n f -> arg_values args (s_args S f) avs -> conds_of dirs cs ->
    resolves_all (s_field_type S f) l subs -> resolves p (Field alias n args dirs l) (TField f (key_of alias n) avs cs subs)
| R_inline p dirs l cs subs : conds_of dirs cs -> resolves_all p l subs -> resolves p (Inline None dirs l) (TInline None cs subs)
| R_inline_on p n t dirs l cs subs : conds_of dirs cs -> narrows p n t -> resolves_all t l subs -> resolves p (Inline (Some n) dirs l) (TInline (Some t) cs subs)
| R_spread p n dirs c l t cs subs :
    conds_of dirs cs -> lookup n (doc_frags D) (c, l) -> narrows p c t -> resolves_all t l subs -> resolves p (Spread n dirs) (TSpread t cs subs)
with resolves_all : tid -> list selection -> list tree -> Prop :=
| R_nil p : resolves_all p [] []
| R_cons p x l y ys : resolves p x y -> resolves_all p l ys -> resolves_all p (x :: l) (y :: ys).

(** ** Reading the tree out of the vectors *)
Inductive reads (s : state) : selid -> tree -> Prop :=
| Rd_typename n tf : nth_error (st_typenames s) n = Some tf -> reads s (IdTypename n) (TTypename (tf_key tf) (tf_dirs tf))
| Rd_field n df subs : nth_error (st_data s) n = Some df -> reads_set s (df_set df) subs -> reads s (IdField n) (TField (df_def df) (df_key df) (df_args df) (df_dirs df) subs)
| Rd_inline n i subs : nth_error (st_inlines s) n = Some i -> reads_set s (in_set i) subs -> reads s (IdInline n) (TInline (in_cond i) (in_dirs i) subs)
| Rd_spread n sp fr subs :
    nth_error (st_spreads s) n = Some sp -> nth_error (st_frags s) (sp_frag sp) = Some fr -> reads_set s (fr_set fr) subs ->
    reads s (IdSpread n) (TSpread (fr_cond fr) (sp_dirs sp) subs)
with reads_set (s : state) : nat * nat -> list tree -> Prop :=
| Rd_set r subs : fst r <= snd r <= List.length (st_shared s) -> reads_all s (slice (st_shared s) r) subs -> reads_set s r subs
with reads_all (s : state) : list selid -> list tree -> Prop :=
| Rd_nil : reads_all s [] []
| Rd_cons id ids y ys : reads s id y -> reads_all s ids ys -> reads_all s (id :: ids) (y :: ys).

(** The fields of a selection set, fragments expanded *)
Fixpoint flatten (y : tree) : list tree :=
  match y with
  | TField _ _ _ _ _ | TTypename _ _ => [y]
  | TSpread _ _ l | TInline _ _ l => flat_map flatten l
  end.

(** ** Documents without cycles of fragments *)
Inductive spreads_in : selection -> name -> Prop :=
| Sp_here n dirs : spreads_in (Spread n dirs) n
| Sp_field alias m args dirs l x n : In x l -> spreads_in x n -> spreads_in (Field alias m args dirs l) n
| Sp_inline c dirs l x n : In x l -> spreads_in x n -> spreads_in (Inline c dirs l) n.
Definition acyclic : Prop := exists rank : name -> nat, forall n c l x m, lookup n (doc_frags D) (c, l) -> In x l -> spreads_in x m -> rank m < rank n.

(** ** Schemas *)
Record well_formed : Prop := {
  wf_args : forall f, NoDup (map a_name (s_args S f));
  wf_names : forall n t, s_type S n = Some t -> s_tname S t = n
}.
End Spec.

(** ** Sizes *)
Fixpoint size (x : selection) : nat := 1 + match x with Field _ _ _ _ l | Inline _ _ l => list_sum (map size l) | Spread _ _ => 0 end.
Definition sizes (l : list selection) : nat := list_sum (map size l).
Definition document_size (D : document) (sels : list selection) : nat := sizes sels + list_sum (map (fun f => sizes (snd (snd f))) (doc_frags D)).
