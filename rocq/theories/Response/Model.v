(** Model of the response store: the values of a response, the parts they live
    in, null propagation, the merging of a new part into the response, and the
    serialisation sent to the client.

    Sources (all under crates/engine/src/response):
    - value.rs 1-85 (ResponseObject, ResponseObjectField, ResponseValue)
    - data.rs 28-48, 160-302, 312-363 (DataParts, DataPart, make_inaccessible)
    - path.rs 12-76 (ResponseValueId)
    - write/part.rs 49-70, 72-165 (propagate_null, insert_..._update)
    - write/merge.rs 11-161
    - write/mod.rs 83-122 (ResponseBuilder::ingest)
    - read/ser/data.rs 31-121
    - crates/engine/operation/src/model/response_key.rs 23-60

    Simplifications:
    - A QueryPosition is an Option<NonZero<u16>>; it is written here as the
      u16 it is stored as, 0 being None.  The u16 is unbounded.
    - Response keys are interned strings; a key is its number.
    - Strings of the response are Coq strings rather than pointers into the
      bytes of the part.  Values of custom scalars are a tree held by the value
      rather than lists and maps of the part; so are lists of Int! and Float!.
    - Floats are either an integral number or an opaque number with a
      fractional part.
    - sort_unstable_by is an insertion sort: fields with equal keys keep their
      order here while the code gives no guarantee.
    - Locations and messages of errors are left out; an error is its path. *)

From Coq Require Import List Arith ZArith String Bool.
Import ListNotations.
Local Open Scope nat_scope.

(** ** Values *)

(** A float: integral, or with a fractional part (opaque). *)
Inductive fl := FInt (z : Z) | FFrac (n : nat).

(** What the client receives. *)
Inductive out :=
| ONull | OBool (b : bool) | OInt (z : Z) | OFloat (f : fl) | OStr (s : string)
| OList (l : list out) | OObj (l : list (nat * out)).

(** PositionedResponseKey (response_key.rs 23-28): query position, 0 when the
    field is not sent to the client, and response key.  The derived order is
    lexicographic, None being first. *)
Notation rkey := (nat * nat)%type.

Definition kcmp (a b : rkey) : comparison :=
  match Nat.compare (fst a) (fst b) with
  | Eq => Nat.compare (snd a) (snd b)
  | c => c
  end.

Definition keqb (a b : rkey) : bool :=
  (fst a =? fst b) && (snd a =? snd b).

(** ResponseObjectId, ResponseListId, ...: the part and the index in it. *)
Notation id := (nat * nat)%type.

Definition ideqb (a b : id) : bool := (fst a =? fst b) && (snd a =? snd b).

(** ResponseValue (value.rs 50-91). *)
Inductive val :=
| VNull | VBool (b : bool) | VInt (z : Z) | VFloat (f : fl) | VStr (s : string)
| VList (i : id) | VObj (i : id) | VInacc (i : id) | VUnexp
| VAny (o : out) | VInts (l : list Z) | VFloats (l : list fl).

Notation fields := (list (rkey * val))%type.

(** ResponseObject (value.rs 8-13). *)
Record obj := MkObj { o_def : option nat; o_fields : fields }.

(** DataPart (data.rs 160-176). *)
Record part := MkPart {
  p_objs : list obj;
  p_lists : list (list val);
  p_inacc : list val
}.

Definition empty_part : part := MkPart [] [] [].

(** ResponseValueId (path.rs 12-34). *)
Inductive vid :=
| IField (o : id) (k : rkey) (nullable : bool)
| IIndex (l : id) (i : nat) (nullable : bool)
| INum (p : nat) (i : nat).

(** is_nullable (path.rs 59-66). *)
Definition vid_nullable (v : vid) : bool :=
  match v with
  | IField _ _ n => n
  | IIndex _ _ n => n
  | INum _ _ => false
  end.

(** part_id (path.rs 68-75). *)
Definition vid_part (v : vid) : nat :=
  match v with
  | IField o _ _ => fst o
  | IIndex l _ _ => fst l
  | INum p _ => p
  end.

(** ** Lists of fields *)

Fixpoint insert_field (f : rkey * val) (l : fields) : fields :=
  match l with
  | [] => [f]
  | g :: r => match kcmp (fst f) (fst g) with
              | Lt => f :: g :: r
              | _ => g :: insert_field f r
              end
  end.

(** sort_unstable_by(|a, b| a.key.cmp(&b.key)) *)
Definition sort_fields (l : fields) : fields := fold_left (fun acc f => insert_field f acc) l [].

Fixpoint set_nth {A} (n : nat) (x : A) (l : list A) : list A :=
  match l, n with
  | [], _ => []
  | _ :: r, O => x :: r
  | y :: r, S n' => y :: set_nth n' x r
  end.

(** binary_search_by on the sorted fields of an object: the index of the field
    with this key. *)
Fixpoint find_key (k : rkey) (l : fields) (i : nat) : option nat :=
  match l with
  | [] => None
  | g :: r => if keqb (fst g) k then Some i else find_key k r (S i)
  end.

(** ** Parts *)

Definition with_objs (p : part) (l : list obj) : part := MkPart l (p_lists p) (p_inacc p).
Definition with_lists (p : part) (l : list (list val)) : part := MkPart (p_objs p) l (p_inacc p).
Definition with_inacc (p : part) (l : list val) : part := MkPart (p_objs p) (p_lists p) l.

(** push_inaccessible_value (data.rs 304-311); [pid] is the id of the part. *)
Definition push_inacc (pid : nat) (p : part) (v : val) : part * id :=
  (with_inacc p (p_inacc p ++ [v]), (pid, List.length (p_inacc p))).

(** push_object (data.rs 313-320), reserve_object_id (322-324) and put_object
    (326-329). *)
Definition push_obj (pid : nat) (p : part) (o : obj) : part * id :=
  (with_objs p (p_objs p ++ [o]), (pid, List.length (p_objs p))).
Definition reserve_obj (pid : nat) (p : part) : part * id := push_obj pid p (MkObj None []).
Definition put_obj (p : part) (i : id) (o : obj) : part :=
  with_objs p (set_nth (snd i) o (p_objs p)).

(** reserve_list_id and put_list (data.rs 330-363). *)
Definition reserve_list (pid : nat) (p : part) : part * id :=
  (with_lists p (p_lists p ++ [[]]), (pid, List.length (p_lists p))).
Definition put_list (p : part) (i : id) (l : list val) : part :=
  with_lists p (set_nth (snd i) l (p_lists p)).

(** The value of a field is replaced; [i] is the index of the field. *)
Definition set_value (l : fields) (i : nat) (v : val) : fields :=
  match nth_error l i with
  | Some (k, _) => set_nth i (k, v) l
  | None => l
  end.

(** make_inaccessible (data.rs 243-302).  None: the code panics (an object or
    a list which doesn't exist, an index out of bounds, an index of a list of
    numbers). *)
Definition make_inaccessible (pid : nat) (p : part) (v : vid) : option part :=
  match v with
  | IField o k _ =>
      match nth_error (p_objs p) (snd o) with
      | None => None
      | Some ob =>
          match find_key k (o_fields ob) 0 with
          | Some i =>
              match nth_error (o_fields ob) i with
              | None => None
              | Some (_, old) =>
                  let fs := set_value (o_fields ob) i (VInacc (pid, List.length (p_inacc p))) in
                  Some (with_inacc (put_obj p o (MkObj (o_def ob) fs)) (p_inacc p ++ [old]))
              end
          | None =>
              Some (put_obj p o (MkObj (o_def ob) (insert_field (k, VNull) (o_fields ob))))
          end
      end
  | IIndex l i _ =>
      match nth_error (p_lists p) (snd l) with
      | None => None
      | Some vs =>
          match nth_error vs i with
          | None => None
          | Some old =>
              let vs' := set_nth i (VInacc (pid, List.length (p_inacc p))) vs in
              Some (with_inacc (put_list p l vs') (p_inacc p ++ [old]))
          end
      end
  | INum _ _ => None
  end.

(** ** The response *)

(** ObjectUpdate (part.rs 252-257); a default field is a key and, for
    __typename, its value. *)
Inductive update :=
| UFields (i : id) (fs : fields)
| UDefault (i : id) (ds : list (rkey * option string)).

(** ResponsePartBuilder (part.rs 16-26), with SeedState.bubbling_up_deser_error
    (state.rs 22).  [b_refs] are the objects pushed into object sets: set, object
    and its type. *)
Record builder := MkB {
  b_part : part;
  b_errs : list (list vid * option nat);
  b_up : bool;
  b_nulls : list vid;
  b_updates : list update;
  b_refs : list (nat * (id * nat));
  b_bub : bool
}.

(** create_part (write/mod.rs 70-72) *)
Definition new_builder : builder := MkB empty_part [] false [] [] [] false.

(** ResponseBuilder (write/mod.rs 17-25): the parts, the root object unless a
    null was propagated up to the root, and the errors. *)
Record response := MkR {
  r_root : option id;
  r_parts : list part;
  r_errs : list (list vid * option nat)
}.

(** ResponseBuilder::new (write/mod.rs 28-46): the root object, empty, is the
    first object of the first part. *)
Definition new_response : response :=
  MkR (Some (0, 0)) [MkPart [MkObj None []] [] []] [].

Inductive res (A : Type) := Ok (a : A) | Panic | NoFuel.
Arguments Ok {A}. Arguments Panic {A}. Arguments NoFuel {A}.

Definition bind {A B} (r : res A) (k : A -> res B) : res B :=
  match r with Ok a => k a | Panic => Panic | NoFuel => NoFuel end.

(** Index<ResponseObjectId>, Index<ResponseListId>,
    Index<ResponseInaccessibleValueId> (data.rs 57-130): an index out of bounds
    panics (None). *)
Definition get_obj (ps : list part) (i : id) : option obj :=
  match nth_error ps (fst i) with
  | Some p => nth_error (p_objs p) (snd i)
  | None => None
  end.
Definition get_list (ps : list part) (i : id) : option (list val) :=
  match nth_error ps (fst i) with
  | Some p => nth_error (p_lists p) (snd i)
  | None => None
  end.
Definition get_inacc (ps : list part) (i : id) : option val :=
  match nth_error ps (fst i) with
  | Some p => nth_error (p_inacc p) (snd i)
  | None => None
  end.

Definition set_fields (ps : list part) (i : id) (fs : fields) : list part :=
  match nth_error ps (fst i) with
  | Some p =>
      match nth_error (p_objs p) (snd i) with
      | Some o => set_nth (fst i) (put_obj p i (MkObj (o_def o) fs)) ps
      | None => ps
      end
  | None => ps
  end.

(** *** merge_with_default_object (merge.rs 11-72) *)

Definition default_value (v : option string) : val :=
  match v with Some s => VStr s | None => VNull end.

(** The loop (25-60) and the loop after it (61-66).  [ex] is what remains of
    the fields present before the merge.  When they are exhausted the current
    default field is pushed and the loop is left; the remaining default fields
    are then pushed with the key of the current one, as the code does. *)
Fixpoint default_loop (ex : fields) (ds : list (rkey * option string)) (pushed : fields) : fields :=
  match ds with
  | [] => pushed
  | (k, v) :: rest =>
      (fix skip (ex : fields) : fields :=
         match ex with
         | [] => pushed ++ (k, default_value v) :: map (fun d => (k, default_value (snd d))) rest
         | e :: ex' =>
             match kcmp (fst e) k with
             | Lt => skip ex'
             | Gt => default_loop ex rest (pushed ++ [(k, default_value v)])
             | Eq => default_loop ex' rest pushed
             end
         end) ex
  end.

Definition merge_default (ps : list part) (i : id) (ds : list (rkey * option string)) : res (list part) :=
  match ds with
  | [] => Ok ps
  | _ =>
      match get_obj ps i with
      | None => Panic
      | Some o => Ok (set_fields ps i (sort_fields (o_fields o ++ default_loop (o_fields o) ds [])))
      end
  end.

(** *** recursive_merge_object (merge.rs 74-121) *)
Section Merge.
  (** recursive_merge_value, see below. *)
  Variable mv : list part -> val -> val -> res (list part).

  (** The loop (88-115) and the append after it (116); the same shape as
      [default_loop].  Returns the store and the fields pushed at the end of
      the existing ones. *)
  Fixpoint merge_loop (ps : list part) (ex new pushed : fields) : res (list part * fields) :=
    match new with
    | [] => Ok (ps, pushed)
    | f :: rest =>
        (fix skip (ex : fields) : res (list part * fields) :=
           match ex with
           | [] => Ok (ps, pushed ++ f :: rest)
           | e :: ex' =>
               match kcmp (fst e) (fst f) with
               | Lt => skip ex'
               | Gt => merge_loop ps ex rest (pushed ++ [f])
               | Eq => bind (mv ps (snd e) (snd f)) (fun ps' => merge_loop ps' ex' rest pushed)
               end
           end) ex
    end.

  (** The fields are taken out of the object (84) and put back (120). *)
  Definition merge_obj (ps : list part) (i : id) (new : fields) : res (list part) :=
    match new with
    | [] => Ok ps
    | _ =>
        match get_obj ps i with
        | None => Panic
        | Some o =>
            bind (merge_loop (set_fields ps i []) (o_fields o) new [])
              (fun r => Ok (set_fields (fst r) i (sort_fields (o_fields o ++ snd r))))
        end
    end.

  (** recursive_merge_list (merge.rs 150-160): elements are merged pairwise and
      the rest of the longer list is left alone.  The lists themselves are not
      modified by the merge of their elements, so they are read once. *)
  Fixpoint merge_elems (ps : list part) (ex new : list val) : res (list part) :=
    match ex, new with
    | e :: ex', f :: new' => bind (mv ps e f) (fun ps' => merge_elems ps' ex' new')
    | _, _ => Ok ps
    end.

  Definition merge_list (ps : list part) (e n : id) : res (list part) :=
    match get_list ps e, get_list ps n with
    | Some le, Some ln => merge_elems ps le ln
    | _, _ => Panic
    end.
End Merge.

(** recursive_merge_value (merge.rs 123-148).  [Panic] is the unreachable! of
    line 142, or an index out of bounds. *)
Fixpoint merge_value (fuel : nat) (ps : list part) (existing new : val) : res (list part) :=
  match fuel with
  | O => NoFuel
  | S fuel' =>
      let mv := merge_value fuel' in
      match existing, new with
      | VObj e, VObj n =>
          match get_obj ps n with
          | None => Panic
          | Some o => merge_obj mv (set_fields ps n []) e (o_fields o)
          end
      | VList e, VList n => merge_list mv ps e n
      | VInacc e, VInacc n =>
          match get_inacc ps e, get_inacc ps n with
          | Some ve, Some vn => mv ps ve vn
          | _, _ => Panic
          end
      | VInacc e, n =>
          match get_inacc ps e with Some ve => mv ps ve n | None => Panic end
      | e, VInacc n =>
          match get_inacc ps n with Some vn => mv ps e vn | None => Panic end
      | VNull, VNull => Ok ps
      | _, _ => Panic
      end
  end.

Definition merge_object (fuel : nat) := merge_obj (merge_value fuel).

(** *** ingest (write/mod.rs 83-122) *)

Definition apply_update (fuel : nat) (ps : list part) (u : update) : res (list part) :=
  match u with
  | UFields i fs => merge_object fuel ps i (sort_fields fs)
  | UDefault i ds => merge_default ps i ds
  end.

Fixpoint apply_updates (fuel : nat) (ps : list part) (us : list update) : res (list part) :=
  match us with
  | [] => Ok ps
  | u :: r => bind (apply_update fuel ps u) (fun ps' => apply_updates fuel ps' r)
  end.

(** self.data_parts[value_id.part_id()].make_inaccessible(value_id) *)
Definition null_at (ps : list part) (v : vid) : res (list part) :=
  match nth_error ps (vid_part v) with
  | None => Panic
  | Some p =>
      match make_inaccessible (vid_part v) p v with
      | None => Panic
      | Some p' => Ok (set_nth (vid_part v) p' ps)
      end
  end.

Fixpoint null_all (ps : list part) (vs : list vid) : res (list part) :=
  match vs with
  | [] => Ok ps
  | v :: r => bind (null_at ps v) (fun ps' => null_all ps' r)
  end.

(** The part was reserved when it was created (new_part, data.rs 31-39); here
    it is added when it is ingested, so parts are ingested in the order they
    were created. *)
Definition ingest (fuel : nat) (r : response) (b : builder) : res response :=
  let ps := r_parts r ++ [b_part b] in
  let errs := r_errs r ++ b_errs b in
  if b_up b then Ok (MkR None ps errs)
  else
    bind (apply_updates fuel ps (b_updates b)) (fun ps1 =>
    bind (null_all ps1 (b_nulls b)) (fun ps2 =>
    Ok (MkR (r_root r) ps2 errs))).

(** *** Serialisation (read/ser/data.rs 31-121) *)

(** The fields come first that have no query position; they are skipped until
    the first one which has one, and everything is sent from there on
    (41-54). *)
Fixpoint drop_hidden (l : fields) : fields :=
  match l with
  | [] => []
  | f :: r => if Nat.eqb (fst (fst f)) 0 then drop_hidden r else l
  end.

Fixpoint all_some {A} (l : list (option A)) : option (list A) :=
  match l with
  | [] => Some []
  | None :: _ => None
  | Some a :: r => match all_some r with Some r' => Some (a :: r') | None => None end
  end.

(** SerializableResponseValue (81-121).  None: a value which doesn't exist, or
    not enough fuel. *)
Fixpoint ser (fuel : nat) (ps : list part) (v : val) : option out :=
  match v with
  | VNull | VInacc _ | VUnexp => Some ONull
  | VBool b => Some (OBool b)
  | VInt z => Some (OInt z)
  | VFloat f => Some (OFloat f)
  | VStr s => Some (OStr s)
  | VAny o => Some o
  | VInts l => Some (OList (map OInt l))
  | VFloats l => Some (OList (map OFloat l))
  | VList i =>
      match fuel with
      | O => None
      | S n =>
          match get_list ps i with
          | None => None
          | Some vs => option_map OList (all_some (map (ser n ps) vs))
          end
      end
  | VObj i =>
      match fuel with
      | O => None
      | S n =>
          match get_obj ps i with
          | None => None
          | Some o =>
              option_map OObj
                (all_some (map (fun f => option_map (pair (snd (fst f))) (ser n ps (snd f)))
                             (drop_hidden (o_fields o))))
          end
      end
  end.

(** The data sent to the client (build, write/mod.rs 135-150): null when a null
    was propagated up to the root. *)
Definition ser_data (fuel : nat) (r : response) : option out :=
  match r_root r with
  | None => Some ONull
  | Some i => ser fuel (r_parts r) (VObj i)
  end.

(** ** Null propagation in a part (write/part.rs 49-70) *)

(** propagate_null_parent_path; paths are innermost first. *)
Definition propagate_parent (pp : list vid) (b : builder) : builder :=
  match find vid_nullable pp with
  | Some v => MkB (b_part b) (b_errs b) (b_up b) (b_nulls b ++ [v]) (b_updates b) (b_refs b) (b_bub b)
  | None => MkB (b_part b) (b_errs b) true (b_nulls b) (b_updates b) (b_refs b) (b_bub b)
  end.

Definition propagate_null (pp lp : list vid) (b : builder) : builder :=
  match find vid_nullable lp with
  | Some v => MkB (b_part b) (b_errs b) (b_up b) (b_nulls b ++ [v]) (b_updates b) (b_refs b) (b_bub b)
  | None => propagate_parent pp b
  end.

Definition push_err (path : list vid) (k : option nat) (b : builder) : builder :=
  MkB (b_part b) (b_errs b ++ [(path, k)]) (b_up b) (b_nulls b) (b_updates b) (b_refs b) (b_bub b).

Definition push_update (u : update) (b : builder) : builder :=
  MkB (b_part b) (b_errs b) (b_up b) (b_nulls b) (b_updates b ++ [u]) (b_refs b) (b_bub b).

Definition with_part (b : builder) (p : part) : builder :=
  MkB p (b_errs b) (b_up b) (b_nulls b) (b_updates b) (b_refs b) (b_bub b).

(** OnRootFieldsError (prepare/cached/shape/root.rs 17-27), with the key the
    error is reported at and the default fields. *)
Inductive on_error :=
| OnPropagate (k : nat)
| OnDefault (k : nat) (ds : list (rkey * option string))
| OnSkip.

(** insert_empty_update (part.rs 76-90); the object is its id and its path. *)
Definition insert_empty_update (oe : on_error) (oid : id) (pp : list vid) (b : builder) : builder :=
  match oe with
  | OnPropagate _ => propagate_parent pp b
  | OnDefault _ ds => push_update (UDefault oid ds) b
  | OnSkip => b
  end.

(** insert_propagated_empty_update (part.rs 120-131) *)
Definition insert_propagated_empty_update (oe : on_error) (oid : id) (b : builder) : builder :=
  match oe with
  | OnDefault _ ds => push_update (UDefault oid ds) b
  | _ => b
  end.

(** insert_error_update (part.rs 133-165), with a single error. *)
Definition insert_error_update (oe : on_error) (oid : id) (pp : list vid) (b : builder) : builder :=
  match oe with
  | OnPropagate k => propagate_parent pp (push_err pp (Some k) b)
  | OnDefault k ds => push_update (UDefault oid ds) (push_err pp (Some k) b)
  | OnSkip => b
  end.
