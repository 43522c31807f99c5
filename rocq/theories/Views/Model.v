(** What is read of the response while an operation is executed: the representations sent to
    subgraphs, the values injected into arguments, what authorization extensions are told, and
    what their decisions do to the response.

    Sources (crates/engine/src):
    - response/read/view/ser.rs (all of it), response/read/view/mod.rs 49-195
    - response/value.rs 34-40 (find_by_response_key)
    - resolver/graphql/federation.rs 65-108 (representations of entities)
    - execution/operation/response_modifier.rs (all of it)
    - response/write/mod.rs 47-61 (push_error, propagate_null, make_inacessible)
    - response/object_set.rs 43-104 (which objects a modifier applies to)

    The store is that of [Response.Model], with its simplifications.  Names of fields and of
    input fields are numbers; [out] is used for the JSON that is written. *)

From Coq Require Import List Arith ZArith String Bool.
From Verif Require Import Response.Model.
Import ListNotations.
Local Open Scope nat_scope.

(** Outcome of writing a value: what was written, an error of the serializer, a panic
    (unreachable! or an index out of bounds), or not enough fuel. *)
Inductive vres (A : Type) := VOk (a : A) | VErr | VCrash | VFuel.
Arguments VOk {A}. Arguments VErr {A}. Arguments VCrash {A}. Arguments VFuel {A}.

Definition vbind {A B} (r : vres A) (k : A -> vres B) : vres B :=
  match r with VOk a => k a | VErr => VErr | VCrash => VCrash | VFuel => VFuel end.

Fixpoint vall {A} (l : list (vres A)) : vres (list A) :=
  match l with
  | [] => VOk []
  | x :: r => vbind x (fun a => vbind (vall r) (fun b => VOk (a :: b)))
  end.

(** EntityDefinition, an interface being its possible types; CompositeType for the filter of
    object_set.rs, where unions are like interfaces. *)
Inductive entity := EObj (o : nat) | ESet (possible : list nat).

Definition is_a (d : nat) (e : entity) : bool :=
  match e with
  | EObj o => Nat.eqb o d
  | ESet l => existsb (Nat.eqb d) l
  end.

(** RequredFieldRecord (prepare/cached/query_plan/required_field_set.rs 75-80): the schema's
    field it matches ([field]), the response key of the data field, the name of the data
    field's definition and its parent entity, and the subselection. *)
Inductive req := Req (field key name : nat) (parent : entity) (sub : list req).

Definition q_field (q : req) : nat := let (f, _, _, _, _) := q in f.
Definition q_key (q : req) : nat := let (_, k, _, _, _) := q in k.
Definition q_name (q : req) : nat := let (_, _, n, _, _) := q in n.
Definition q_parent (q : req) : entity := let (_, _, _, e, _) := q in e.
Definition q_sub (q : req) : list req := let (_, _, _, _, s) := q in s.

(** FieldSetItemRecord: a field of the schema and its subselection. *)
Inductive item := Item (field : nat) (sub : list item).
Definition i_field (i : item) : nat := let (f, _) := i in f.
Definition i_sub (i : item) : list item := let (_, s) := i in s.

(** ValueInjection (schema/src/injection); the value of a default is what is written. *)
Inductive inj :=
| ISelect (field : nat) (next : inj)
| IObject (l : list (nat * inj))
| IDefault (x : out)
| IIdentity.

(** ** Objects

    The values of the fields have any type: those of the store, and in the proofs trees.
    [d] and [fs] are the type and the fields of the object, [vv] writes a value. *)
Section Objects.
  Context {A : Type}.

  (** find_by_response_key (value.rs 34-40). *)
  Definition find_value (k : nat) (fs : list (rkey * A)) : option A :=
    option_map snd (find (fun f => Nat.eqb (snd (fst f)) k) fs).

  (** A field that is missing is skipped if the object is known not to be of its parent's type
      (ser.rs 79-93). *)
  Definition skips (d : option nat) (e : entity) : bool :=
    match d with Some o => negb (is_a o e) | None => false end.

  (** ResponseObjectView<RequiredFieldSet> (ser.rs 67-112). *)
  Section Required.
    Variable vv : list req -> A -> vres out.
    Variables (d : option nat) (fs : list (rkey * A)).
    Fixpoint required_fields (r : list req) : vres (list (nat * out)) :=
      match r with
      | [] => VOk []
      | q :: rest =>
          match find_value (q_key q) fs with
          | Some v => vbind (vv (q_sub q) v) (fun x =>
                      vbind (required_fields rest) (fun l => VOk ((q_name q, x) :: l)))
          | None => if skips d (q_parent q) then required_fields rest else VErr
          end
      end.
    Definition required_object (r : list req) : vres out :=
      vbind (required_fields r) (fun l => VOk (OObj l)).

    (** ResponseObjectView<WithExtraFields> (ser.rs 26-65): here a missing field is an error. *)
    Fixpoint exact_fields (r : list req) : vres (list (nat * out)) :=
      match r with
      | [] => VOk []
      | q :: rest =>
          match find_value (q_key q) fs with
          | Some v => vbind (vv (q_sub q) v) (fun x =>
                      vbind (exact_fields rest) (fun l => VOk ((q_name q, x) :: l)))
          | None => VErr
          end
      end.
    Definition extra_object (extra : list (nat * out)) (r : list req) : vres out :=
      vbind (exact_fields r) (fun l => VOk (OObj (extra ++ l))).
  End Required.

  (** The requirement for a field, and those from it on: the while loop of ser.rs 123-179 and
      291-347.  [SeekCrash]: the requirement at hand is for a greater field, unreachable!. *)
  Inductive sought := SeekCrash | SeekEnd | SeekAt (q : req) (rest : list req).
  Fixpoint seek (f : nat) (r : list req) : sought :=
    match r with
    | [] => SeekEnd
    | q :: rest =>
        match Nat.compare f (q_field q) with
        | Lt => SeekCrash
        | Eq => SeekAt q rest
        | Gt => seek f rest
        end
    end.

  (** ResponseObjectView<ForFieldSet> (ser.rs 114-181). *)
  Section FieldSet.
    Variable vv : list req * list item -> A -> vres out.
    Variables (d : option nat) (fs : list (rkey * A)).
    Fixpoint set_fields_of (s : list item) (r : list req) : vres (list (nat * out)) :=
      match s with
      | [] => VOk []
      | i :: s' =>
          match seek (i_field i) r with
          | SeekAt q rest =>
              match find_value (q_key q) fs with
              | Some v => vbind (vv (q_sub q, i_sub i) v) (fun x =>
                          vbind (set_fields_of s' rest) (fun l => VOk ((q_name q, x) :: l)))
              | None => if skips d (q_parent q) then set_fields_of s' rest else VErr
              end
          | _ => VCrash
          end
      end.
    Definition set_object (w : list req * list item) : vres out :=
      vbind (set_fields_of (snd w) (fst w)) (fun l => VOk (OObj l)).
  End FieldSet.

  (** ResponseObjectView<ForInjection> (ser.rs 246-377).  The pointer into the requirements
      stays at the one that was used; when it has reached the end the entry is left out. *)
  Section Injection.
    Variable vv : list req * inj -> A -> vres out.
    Variables (d : option nat) (fs : list (rkey * A)).
    Section Entries.
      Variable inject : inj -> vres out.
      Fixpoint entries (l : list (nat * inj)) (r : list req) : vres (list (nat * out)) :=
        match l with
        | [] => VOk []
        | (k, ISelect f next) :: l' =>
            match seek f r with
            | SeekCrash => VCrash
            | SeekEnd => entries l' []
            | SeekAt q rest =>
                match find_value (q_key q) fs with
                | Some v => vbind (vv (q_sub q, next) v) (fun x =>
                            vbind (entries l' (q :: rest)) (fun l => VOk ((k, x) :: l)))
                | None => if skips d (q_parent q) then entries l' (q :: rest) else VErr
                end
            end
        | (k, IDefault x) :: l' => vbind (entries l' r) (fun l => VOk ((k, x) :: l))
        | (k, i) :: l' => vbind (inject i) (fun x =>
                          vbind (entries l' r) (fun l => VOk ((k, x) :: l)))
        end.
    End Entries.
    Fixpoint inject (r : list req) (i : inj) : vres out :=
      match i with
      | ISelect f next =>
          match find (fun q => Nat.eqb (q_field q) f) r with
          | None => VErr
          | Some q =>
              match find_value (q_key q) fs with
              | None => VErr
              | Some v => vv (q_sub q, next) v
              end
          end
      | IObject l => vbind (entries (inject r) l r) (fun l => VOk (OObj l))
      | IDefault x => VOk x
      | IIdentity => VCrash
      end.
    Definition inject_object (w : list req * inj) : vres out := inject (fst w) (snd w).
  End Injection.
End Objects.

(** ** Values

    ResponseValueView<ForwardView<V>> (ser.rs 185-244) and ResponseValueView<ForInjection>
    (ser.rs 379-460), which are alike; what is asserted in debug builds only is left out. *)
Definition leaf (v : val) : vres out :=
  match v with
  | VNull => VOk ONull
  | VBool b => VOk (OBool b)
  | VInt z => VOk (OInt z)
  | VFloat f => VOk (OFloat f)
  | VStr s => VOk (OStr s)
  | VAny o => VOk o
  | VInts l => VOk (OList (map OInt l))
  | VFloats l => VOk (OList (map OFloat l))
  | _ => VErr
  end.

Section Values.
  Variable V : Type.
  Variable object : forall A, (V -> A -> vres out) -> option nat -> list (rkey * A) -> V -> vres out.
  Variable ps : list part.

  Fixpoint view (fuel : nat) (w : V) (v : val) : vres out :=
    match fuel with
    | O => VFuel
    | S n =>
        match v with
        | VInacc i => match get_inacc ps i with Some v' => view n w v' | None => VCrash end
        | VList i =>
            match get_list ps i with
            | Some vs => vbind (vall (map (view n w) vs)) (fun l => VOk (OList l))
            | None => VCrash
            end
        | VObj i =>
            match get_obj ps i with
            | Some o => object val (view n) (o_def o) (o_fields o) w
            | None => VCrash
            end
        | _ => leaf v
        end
    end.
End Values.

Definition view_required := view (list req) (@required_object).
Definition view_set := view (list req * list item) (@set_object).
Definition view_injection := view (list req * inj) (@inject_object).

(** The object itself is written for a subgraph or an extension. *)
Definition at_object (ps : list part) (i : id) (k : option nat -> fields -> vres out) : vres out :=
  match get_obj ps i with Some o => k (o_def o) (o_fields o) | None => VCrash end.

(** FederationEntityResolver::build_executor (federation.rs 65-108): the parents whose
    representation can be written, with it, and the others.  None: a panic. *)
Section Entities.
  Variables (fuel : nat) (ps : list part) (typename : nat) (tname : string) (r : list req).

  Definition representation (i : id) : vres out :=
    at_object ps i (fun _ fs => extra_object (view_required ps fuel) fs [(typename, OStr tname)] r).

  Fixpoint executor (l : list (nat * id)) : option (list (nat * out) * list nat) :=
    match l with
    | [] => Some ([], [])
    | (n, i) :: l' =>
        match representation i, executor l' with
        | VOk x, Some (a, b) => Some ((n, x) :: a, b)
        | VErr, Some (a, b) => Some (a, n :: b)
        | _, _ => None
        end
    end.
End Entities.

(** ** Authorization of the response (response_modifier.rs) *)

(** ResponseObjectRef (object_set.rs 9-14); paths are innermost first. *)
Record oref := MkRef { r_id : id; r_path : list vid; r_type : nat }.

(** AuthorizationDecisions, and the failure of the extension. *)
Inductive decision :=
| GrantAll
| DenyAll (e : nat)
| DenySome (l : list (nat * nat)) (errors : list nat)
| Failed (e : nat).

(** ResponseModifierRuleTarget: a field or the parent entity of a field, or its output. *)
Inductive rule := OnField | OnOutput.

(** A target of the modifier: the objects of the set, if there are any; the type of the target
    unless it is the type of the set; the field's key and whether its type is required; what
    the directive asks for of each object, and the requirements of the field. *)
Record target := MkTarget {
  t_refs : option (list oref);
  t_type : option entity;
  t_key : rkey;
  t_nonnull : bool;
  t_args : list (list item);
  t_reqs : list req
}.

(** ResponseBuilder: the root, the parts, and the errors with path and key. *)
Record state := MkState {
  s_root : option id;
  s_parts : list part;
  s_errs : list (list vid * option nat * nat)
}.

(** propagate_null (write/mod.rs 51-57). *)
Definition null_up (path : list vid) (s : state) : res state :=
  match find vid_nullable path with
  | None => Ok (MkState None (s_parts s) (s_errs s))
  | Some v => bind (null_at (s_parts s) v) (fun ps => Ok (MkState (s_root s) ps (s_errs s)))
  end.

(** make_inacessible (write/mod.rs 59-61). *)
Definition null_field (o : id) (k : rkey) (s : state) : res state :=
  bind (null_at (s_parts s) (IField o k true)) (fun ps => Ok (MkState (s_root s) ps (s_errs s))).

Definition push_error (path : list vid) (k : option nat) (e : nat) (s : state) : state :=
  MkState (s_root s) (s_parts s) (s_errs s ++ [(path, k, e)]).

(** One denied object (response_modifier.rs 84-108, 116-139, 186-194, 198-205). *)
Definition deny (u : rule) (t : target) (o : oref) (e : nat) (s : state) : res state :=
  match u with
  | OnField =>
      bind (if t_nonnull t then null_up (r_path o) s else null_field (r_id o) (t_key t) s)
        (fun s => Ok (push_error (r_path o) (Some (snd (t_key t))) e s))
  | OnOutput =>
      bind (null_up (r_path o) s) (fun s => Ok (push_error (r_path o) None e s))
  end.

Fixpoint deny_each (u : rule) (t : target) (l : list (oref * nat)) (s : state) : res state :=
  match l with
  | [] => Ok s
  | (o, e) :: l' => bind (deny u t o e s) (deny_each u t l')
  end.

(** element_to_error: indices of objects and of errors; out of bounds is a panic. *)
Fixpoint deny_some (u : rule) (t : target) (objects : list oref) (errors : list nat) (l : list (nat * nat))
  (s : state) : res state :=
  match l with
  | [] => Ok s
  | (i, j) :: l' =>
      match nth_error objects i, nth_error errors j with
      | Some o, Some e => bind (deny u t o e s) (deny_some u t objects errors l')
      | _, _ => Panic
      end
  end.

(** The objects of a target (response_modifier.rs 25-37; object_set.rs 43-104). *)
Definition objects_of (t : target) : list oref :=
  match t_refs t with
  | None => []
  | Some l => match t_type t with None => l | Some e => filter (fun o => is_a (r_type o) e) l end
  end.

Section Authorize.
  (** The extension: for the how-manieth target, and what it is told of each object. *)
  Variable D : nat -> list (list (vres out)) -> decision.
  Variable fuel : nat.

  Definition told (ps : list part) (t : target) : list (list (vres out)) :=
    map (fun o => map (fun s => at_object ps (r_id o)
                               (fun d fs => set_object (view_set ps fuel) d fs (t_reqs t, s)))
                    (t_args t))
      (objects_of t).

  (** execute_response_modifier (response_modifier.rs 18-218). *)
  Fixpoint authorize (u : rule) (n : nat) (l : list target) (s : state) : res state :=
    match l with
    | [] => Ok s
    | t :: l' =>
        bind (match objects_of t with
              | [] => Ok s
              | objects =>
                  match D n (told (s_parts s) t) with
                  | GrantAll => Ok s
                  | DenySome ds errors => deny_some u t objects errors ds s
                  | DenyAll e | Failed e => deny_each u t (map (fun o => (o, e)) objects) s
                  end
              end) (authorize u (S n) l')
    end.
End Authorize.

(** The data sent to the client. *)
Definition data (fuel : nat) (s : state) : option out :=
  match s_root s with
  | None => Some ONull
  | Some i => ser fuel (s_parts s) (VObj i)
  end.
