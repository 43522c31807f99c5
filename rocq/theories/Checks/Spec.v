(* What operations use and when they are valid, for the statements about the
   operation checks (C49).  Nothing here refers to the functions of the model. *)
From Coq Require Import String List Bool.
Import ListNotations.
From Verif.SchemaDiff Require Import Ast.
From Verif.Checks Require Import Model.
Local Open Scope string_scope.
Local Open Scope list_scope.

(** Types *)

Fixpoint named (t : ty) : string :=
  match t with
  | TName n => n
  | TList t' | TNonNull t' => named t'
  end.

Definition nonnull (t : ty) : Prop := exists u, t = TNonNull u.

(* Arguments and input fields that have to be given. *)
Definition Required (i : input) : Prop := nonnull (i_type i) /\ i_default i = None.

(* Results of type `u` are results of type `t`: fewer of them are null. *)
Inductive Covers : ty -> ty -> Prop :=
| co_name n : Covers (TName n) (TName n)
| co_list t u : Covers t u -> Covers (TList t) (TList u)
| co_nonnull t u : Covers t u -> Covers (TNonNull t) (TNonNull u)
| co_stronger t u : Covers t u -> Covers t (TNonNull u)
| co_twice t u : Covers (TNonNull t) u -> Covers (TNonNull (TNonNull t)) u.

(** Documents *)

Definition get_root (t : op_type) (r : roots) : option string :=
  match t with
  | Query => r_query r
  | Mutation => r_mutation r
  | Subscription => r_subscription r
  end.

Definition default_root (t : op_type) : string :=
  match t with
  | Query => "Query"
  | Mutation => "Mutation"
  | Subscription => "Subscription"
  end.

Definition SchemaPart (d : doc) (r : roots) : Prop := In (DSchema r) d \/ In (DSchemaExt r) d.

(* The type on which operations start. *)
Inductive IsRoot (d : doc) (t : op_type) : string -> Prop :=
| root_given r n : SchemaPart d r -> get_root t r = Some n -> IsRoot d t n
| root_default : (forall r, SchemaPart d r -> get_root t r = None) -> IsRoot d t (default_root t).

(* Types on which something can be selected. *)
Definition Selectable (d : doc) (n : string) : Prop :=
  Defines d n KObject \/ Defines d n KInterface \/ Defines d n KUnion.

(* The objects that a value of the type may be. *)
Inductive Possible (d : doc) (n : string) : string -> Prop :=
| po_object : Defines d n KObject -> Possible d n n
| po_interface o : Defines d n KInterface -> Defines d o KObject -> Implements d o n -> Possible d n o
| po_union o : Defines d n KUnion -> Defines d o KObject -> HasValue d n o -> Possible d n o.

Definition CanSpread (d : doc) (n on : string) : Prop :=
  on = n \/ exists o, Possible d n o /\ Possible d on o.

(** Operations *)

Definition fragments := list (string * (string * list selection)).

(* Whether the selection is valid on a type of the document, but for the types
   of variables and the values that are given for arguments.  `ok` is what is
   asked beyond of spreads (true) and of inline fragments (false). *)
Inductive ValidSel (d : doc) (fs : fragments) (ok : bool -> string -> string -> Prop) : string -> selection -> Prop :=
| v_typename n : Selectable d n -> ValidSel d fs ok n (SField "__typename" nil nil)
| v_field n f args sub t :
    Defines d n KObject \/ Defines d n KInterface ->
    HasField d n f t ->
    (forall a v, In (a, v) args -> exists i, HasArg d n f i /\ i_name i = a /\
       forall e, v = Some e -> Defines d (named (i_type i)) KEnum -> HasValue d (named (i_type i)) e) ->
    (forall i, HasArg d n f i -> Required i -> In (i_name i) (map fst args)) ->
    (sub <> nil <-> Selectable d (named t)) ->
    (forall s, In s sub -> ValidSel d fs ok (named t) s) ->
    ValidSel d fs ok n (SField f args sub)
| v_spread n x on sub :
    In (x, (on, sub)) fs -> Selectable d on -> CanSpread d n on -> ok true n on ->
    (forall s, In s sub -> ValidSel d fs ok on s) ->
    ValidSel d fs ok n (SSpread x)
| v_inline n on sub :
    Selectable d on -> CanSpread d n on -> ok false n on ->
    (forall s, In s sub -> ValidSel d fs ok on s) ->
    ValidSel d fs ok n (SInline (Some on) sub)
| v_block n sub :
    (forall s, In s sub -> ValidSel d fs ok n s) ->
    ValidSel d fs ok n (SInline None sub).

Definition ValidOpWith (ok : bool -> string -> string -> Prop) (d : doc) (o : operation) : Prop :=
  exists n, IsRoot d (o_type o) n /\ Defines d n KObject /\
    (forall s, In s (o_root o) -> ValidSel d (o_fragments o) ok n s) /\
    (forall e v, In (e, v) (o_enums o) -> Defines d e KEnum -> HasValue d e v).

Definition ValidOp := ValidOpWith (fun _ _ _ => True).

(* The fragments of a document have different names. *)
Definition op_ok (o : operation) : Prop := NoDup (map fst (o_fragments o)).

(** What a selection uses. *)
Inductive use :=
| UField (n f : string)
| UArg (n f a : string)
| UEnum (n v : string)
| UCond (n on : string)
| ULeft (n f a : string).

Definition not_left (e : use) : Prop := match e with ULeft _ _ _ => False | _ => True end.

(* An argument of a field of an object. *)
Definition ArgOf (d : doc) (n f : string) (i : input) : Prop :=
  exists impls fs x, HasType d (TObject n impls fs) /\ In x fs /\ f_name x = f /\ In i (f_args x).

Inductive Touches (d : doc) (fs : fragments) : string -> selection -> use -> Prop :=
| t_field n f args sub t : HasField d n f t -> Touches d fs n (SField f args sub) (UField n f)
| t_arg n f args sub t a v i : HasField d n f t -> In (a, v) args -> ArgOf d n f i -> i_name i = a ->
    Touches d fs n (SField f args sub) (UArg n f a)
| t_enum n f args sub t a e i : HasField d n f t -> In (a, Some e) args -> ArgOf d n f i -> i_name i = a ->
    Touches d fs n (SField f args sub) (UEnum (named (i_type i)) e)
| t_left n f args sub t i : HasField d n f t -> ArgOf d n f i -> nonnull (i_type i) -> i_default i <> None ->
    ~ In (i_name i) (map fst args) ->
    Touches d fs n (SField f args sub) (ULeft n f (i_name i))
| t_sub n f args sub t s e : HasField d n f t -> In s sub -> Touches d fs (named t) s e ->
    Touches d fs n (SField f args sub) e
| t_spread n x on sub s e : In (x, (on, sub)) fs -> In s sub -> Touches d fs on s e ->
    Touches d fs n (SSpread x) e
| t_cond n on sub : Touches d fs n (SInline (Some on) sub) (UCond n on)
| t_inline n on sub s e : In s sub -> Touches d fs on s e -> Touches d fs n (SInline (Some on) sub) e
| t_block n sub s e : In s sub -> Touches d fs n s e -> Touches d fs n (SInline None sub) e.

Inductive OpTouches (d : doc) (o : operation) : use -> Prop :=
| ot_default n v : In (n, v) (o_enums o) -> OpTouches d o (UEnum n v)
| ot_sel n s e : IsRoot d (o_type o) n -> In s (o_root o) -> Touches d (o_fragments o) n s e -> OpTouches d o e.

(** The restrictions under which the checks are complete. *)

(* Spreads are on the type of the selection; inline fragments are on that type
   or pick an object of an interface or union. *)
Definition plain (d : doc) (spread : bool) (n on : string) : Prop :=
  on = n \/ spread = false /\ Possible d n on.

Record comparable (a b : doc) : Prop := {
  cb_kinds : forall n j k, Defines a n j -> Defines b n k -> j = k;
  (* the types and members of the new document are in it *)
  cb_closed : forall n f t k, HasField b n f t -> Defines a (named t) k -> exists j, Defines b (named t) j;
  cb_members : forall n v, Defines b n KUnion -> HasValue b n v -> exists j, Defines b v j;
  (* and those of the old document are in that one, or are built in *)
  cb_old_fields : forall n f t k, HasField a n f t -> Defines b (named t) k -> exists j, Defines a (named t) j;
  cb_old_args : forall n f i k, HasArg a n f i -> Defines b (named (i_type i)) k -> exists j, Defines a (named (i_type i)) j;
  (* interfaces have fields without arguments *)
  cb_interfaces : forall d n impls fs x, d = a \/ d = b -> HasType d (TInterface n impls fs) -> In x fs -> f_args x = nil;
  cb_roots : forall t n, IsRoot a t n -> IsRoot b t n;
  (* the arguments of objects are the same, or none of them has another type *)
  cb_args :
    (forall n f x, (exists i, ArgOf a n f i /\ i_name i = x) <-> (exists i, ArgOf b n f i /\ i_name i = x)) \/
    (forall n f x y, ArgOf a n f x -> ArgOf b n f y -> i_name x = i_name y -> i_type x = i_type y);
  (* an argument with an entirely different type does not have to be given *)
  cb_required : forall n f x y, ArgOf a n f x -> ArgOf b n f y -> i_name x = i_name y -> Required y ->
    Covers (i_type x) (i_type y) \/ Covers (i_type y) (i_type x);
  (* no argument that must not be null loses its default *)
  cb_defaults : forall n f x y, ArgOf a n f x -> ArgOf b n f y -> i_name x = i_name y ->
    nonnull (i_type x) -> i_default x <> None -> i_default y <> None }.

(* Every root type is given once. *)
Definition roots_once (d : doc) : Prop := forall t n m, IsRoot d t n -> IsRoot d t m -> n = m.
