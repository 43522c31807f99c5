(** Entity requests: from the list of entities to the objects they update (C23).

    Modelled code (crates/engine/src):
    - resolver/graphql/federation/mod.rs 147-203, 219-332: what is fetched
    - resolver/graphql/federation/without_cache.rs 22-66, with_cache.rs 24-238
    - resolver/graphql/cache.rs 107-121: hits and misses
    - resolver/graphql/deserialize/response.rs 49-160, entities.rs 22-252
    - response/write/deserialize/root/batch_objects.rs 59-126, root/mod.rs 35-79,
      mod.rs 48-158, state.rs 80-84

    Simplifications: reading one element into the selected fields is an oracle (its own
    behaviour is the subject of Response).  Updates are recorded as they are inserted
    for an object; whether one is then dropped, completed with defaults or propagated
    depends on the shape of the selection (Response).  The serialization of the request
    does not fail.  JSON text is given as what the deserializer sees of it: complete
    values, possibly followed by a syntax error. *)

From Coq Require Import List NArith Bool Lia Arith Permutation.
From Verif.OpCache Require Import Tiered.
Import ListNotations.

(** A parent object. *)
Definition id := nat.

Section Batch.
  Variables E F : Type.

  (** What comes out of reading an element with the seed of the selected fields:
      [Fails true]: a syntax error already reported while reading a field. *)
  Inductive outcome :=
  | Fields (f : F)
  | Null
  | Invalid
  | Fails (reported : bool).

  Variable read : E -> outcome.

  Inductive update :=
  | UFields (f : F)
  | UEmpty
  | UError
  (** after an error that was already reported *)
  | UPropagated.

  Definition updates := list (id * update).

  (** ** What the deserializer sees *)

  Inductive entities :=
  | ENull
  | EOther
  (** [closed]: up to the end of the list, otherwise there is a syntax error *)
  | EList (es : list E) (closed : bool).

  Inductive data_member := DEntities (v : entities) | DUnknown.

  Inductive data :=
  | DNull
  (** any complete value that is neither null nor an object *)
  | DOther
  | DObject (ms : list data_member) (closed : bool).

  Inductive member :=
  | MData (d : data)
  (** the number of errors; [None]: not a list of GraphQL errors *)
  | MErrors (n : option nat)
  | MUnknown.

  Inductive body :=
  | BOther
  | BObject (ms : list member) (closed : bool).

  (** ** Reading *)

  (** root/mod.rs 35-79.  The flag is [bubbling_up_deser_error]. *)
  Definition read_one (i : id) (e : E) : updates * bool * bool :=
    match read e with
    | Fields f => ([(i, UFields f)], false, true)
    | Null => ([(i, UEmpty)], false, true)
    | Invalid => ([(i, UError)], false, true)
    | Fails true => ([(i, UPropagated)], true, false)
    | Fails false => ([(i, UError)], true, false)
    end.

  (** batch_objects.rs 92-107, with_cache.rs 185-217 *)
  Definition report (flag : bool) (i : id) : id * update := (i, if flag then UPropagated else UError).

  (** part.rs 93-121 *)
  Definition empty_updates (ids : list id) : updates := map (fun i => (i, UEmpty)) ids.

  (** part.rs 168-213: the error is attached to the first. *)
  Definition error_updates (ids : list id) : updates :=
    match ids with
    | [] => []
    | i :: r => (i, UError) :: empty_updates r
    end.

  (** batch_objects.rs 75-126 and with_cache.rs 162-238: the updates, the flag, whether
      the list was read; the last component is the elements read successfully, with
      the object they were read for. *)
  Fixpoint read_list (flag : bool) (ids : list id) (es : list E) (closed : bool)
    : updates * bool * bool * list (id * E) :=
    match ids with
    | [] => ([], flag, closed, [])
    | i :: ids' =>
        match es with
        | [] =>
            if closed then ((i, UError) :: empty_updates ids', flag, true, [])
            else (report flag i :: empty_updates ids', true, false, [])
        | e :: es' =>
            let '(us, flag', ok) := read_one i e in
            if ok then
              let '(us', flag'', ok', st) := read_list flag' ids' es' closed in
              (us ++ us', flag'', ok', (i, e) :: st)
            else (us ++ report flag' i :: empty_updates ids', true, false, [])
        end
    end.

  (** What has been done so far while reading the body. *)
  Record progress := MkP {
    p_updates : updates;
    p_flag : bool;
    (** whether the seed of the list has been used *)
    p_used : bool;
    p_stored : list (id * E)
  }.

  Definition run_list (p : progress) (ids : list id) (es : list E) (closed : bool) : progress * bool :=
    let '(us, flag, ok, st) := read_list (p_flag p) ids es closed in
    (MkP (p_updates p ++ us) flag true (p_stored p ++ st), ok).

  Definition mark_used (p : progress) : progress := MkP (p_updates p) (p_flag p) true (p_stored p).

  Section Body.
    (** Whether a null list is read as an empty one (batch_objects.rs 59-73); with_cache.rs
        147-152 asks for a list. *)
    Variable null_is_empty : bool.
    (** The fetched objects. *)
    Variable ids : list id.

    Definition read_entities (p : progress) (v : entities) : progress * bool :=
      match v with
      | ENull => if null_is_empty then run_list p ids [] true else (p, false)
      | EOther => (p, false)
      | EList es closed => run_list p ids es closed
      end.

    (** entities.rs 175-200; a second [_entities] is not consumed, which the parser
        rejects. *)
    Fixpoint data_members (p : progress) (taken : bool) (ms : list data_member) (closed : bool) : progress * bool :=
      match ms with
      | [] =>
          if closed then (if taken then (p, true) else (fst (run_list p ids [] true), true)) else (p, false)
      | DUnknown :: ms' => data_members p taken ms' closed
      | DEntities v :: ms' =>
          if taken then (p, false)
          else let '(p', ok) := read_entities p v in
            if ok then data_members p' true ms' closed else (p', false)
      end.

    (** entities.rs 22-36, 62-173 *)
    Definition read_data (p : progress) (d : data) : progress * bool :=
      match d with
      | DNull | DOther => (fst (run_list p ids [] true), true)
      | DObject ms closed => data_members p false ms closed
      end.

    Definition data_is_null (d : data) : bool := match d with DNull => true | _ => false end.

    (** telemetry graphql.rs: the status *)
    Inductive status := Success | FieldError | RequestError.

    (** response.rs 49-107; [dn]: whether data was seen and was null *)
    Fixpoint body_members (p : progress) (dn : option bool) (errors : option nat) (ms : list member) (closed : bool)
      : progress * option status :=
      match ms with
      | [] =>
          if closed then
            let n := match errors with Some n => n | None => 0 end in
            match dn with
            | None => (fst (run_list p ids [] true), Some RequestError)
            | Some _ => (p, Some (if n =? 0 then Success else FieldError))
            end
          else (p, None)
      | MUnknown :: ms' => body_members p dn errors ms' closed
      | MData d :: ms' =>
          match dn with
          | Some _ => (p, None)
          | None =>
              let '(p', ok) := read_data p d in
              if ok then body_members p' (Some (data_is_null d)) errors ms' closed else (p', None)
          end
      | MErrors n :: ms' =>
          match errors, n with
          | Some _, _ | _, None => (p, None)
          | None, Some n => body_members p dn (Some n) ms' closed
          end
      end.

    Definition read_body (p : progress) (b : body) : progress * option status :=
      match b with
      | BOther => (p, None)
      | BObject ms closed => body_members p None None ms closed
      end.
  End Body.

  (** ** Ingesting a response *)

  Inductive response := HttpError | Http (b : body).

  (** without_cache.rs 22-66 *)
  Definition ingest (parents fetched : list id) (r : response) : updates :=
    match r with
    | HttpError => error_updates parents
    | Http b =>
        let '(p, st) := read_body true fetched (MkP [] false false []) b in
        match st with
        | Some _ => p_updates p
        | None => p_updates p ++ (if p_flag p then [] else error_updates parents)
        end
    end.

  (** with_cache.rs 24-38 *)
  Fixpoint ingest_hits (flag : bool) (hits : list (id * E)) : updates * bool :=
    match hits with
    | [] => ([], flag)
    | (i, e) :: hits' =>
        let '(us, flag', _) := read_one i e in
        let '(us', flag'') := ingest_hits flag' hits' in (us ++ us', flag'')
    end.

  (** with_cache.rs 52-134; also the objects for which something is stored, if the
      headers allow it. *)
  Definition ingest_cached (parents : list id) (hits : list (id * E)) (misses : list id) (r : response)
    : updates * list (id * E) :=
    match r with
    | HttpError => (error_updates parents, [])
    | Http b =>
        let '(hs, flag) := ingest_hits false hits in
        let '(p, st) := read_body false misses (MkP hs flag false []) b in
        match st with
        | Some Success => (p_updates p, p_stored p)
        | Some _ => (p_updates p, [])
        | None => (p_updates p ++ (if p_flag p then [] else error_updates (if p_used p then [] else misses)), [])
        end
    end.

  (** cache.rs 107-121: what the cache has for the entities. *)
  Fixpoint lookup (cache : id -> option E) (ids : list id) : list (id * E) * list id :=
    match ids with
    | [] => ([], [])
    | i :: r =>
        let '(h, m) := lookup cache r in
        match cache i with Some e => ((i, e) :: h, m) | None => (h, i :: m) end
    end.

  (** mod.rs 147-203, 219-332.  [complete i]: the required fields of the object are
      there; [cache]: [None] if caching is not enabled for the subgraph.  What the
      subgraph answers depends on what it is asked for. *)
  Definition execute (parents : list id) (complete : id -> bool) (cache : option (id -> option E))
      (subgraph : list id -> response) : updates * list (id * E) :=
    let fetched := filter complete parents in
    let us := empty_updates (filter (fun i => negb (complete i)) parents) in
    match fetched with
    | [] => (us, [])
    | _ =>
        match cache with
        | None => (us ++ ingest parents fetched (subgraph fetched), [])
        | Some c =>
            let '(hits, misses) := lookup c fetched in
            match misses with
            | [] => (us ++ fst (ingest_hits false hits), [])
            | _ => let '(us', st) := ingest_cached parents hits misses (subgraph misses) in (us ++ us', st)
            end
        end
    end.

  (** ** Specification *)

  (** The update of an element that can be read. *)
  Definition update_of (o : outcome) : update :=
    match o with
    | Fields f => UFields f
    | Null => UEmpty
    | _ => UError
    end.

  (** The entities of a response. *)
  Fixpoint first_entities (ms : list data_member) : option entities :=
    match ms with
    | [] => None
    | DEntities v :: _ => Some v
    | DUnknown :: r => first_entities r
    end.

  Fixpoint first_data (ms : list member) : option data :=
    match ms with
    | [] => None
    | MData d :: _ => Some d
    | _ :: r => first_data r
    end.

  Definition elements_of (b : body) : list E :=
    match b with
    | BObject ms _ =>
        match first_data ms with
        | Some (DObject ds _) => match first_entities ds with Some (EList es _) => es | _ => [] end
        | _ => []
        end
    | BOther => []
    end.

  (** A GraphQL response: an object with data and maybe errors, each at most once; in
      the data a list of entities, at most once, or nothing of the sort. *)
  Definition is_entities (m : data_member) : bool := match m with DEntities _ => true | DUnknown => false end.
  Definition is_data (m : member) : bool := match m with MData _ => true | _ => false end.
  Definition is_errors (m : member) : bool := match m with MErrors _ => true | _ => false end.

  Definition readable (o : outcome) : Prop := match o with Fails _ => False | _ => True end.

  Definition data_valid (d : data) : Prop :=
    match d with
    | DObject ms closed =>
        closed = true /\ length (filter is_entities ms) <= 1 /\
        Forall (fun m => match m with
                         | DEntities (EList es c) => c = true /\ Forall (fun e => readable (read e)) es
                         | DEntities _ => False
                         | DUnknown => True end) ms
    | _ => True
    end.

  Definition valid (b : body) : Prop :=
    match b with
    | BOther => False
    | BObject ms closed =>
        closed = true /\ length (filter is_data ms) <= 1 /\ length (filter is_errors ms) <= 1 /\
        Forall (fun m => match m with MData d => data_valid d | MErrors n => n <> None | MUnknown => True end) ms
    end.

  (** The update of the object at a position of the request. *)
  Definition expected (es : list E) (n : nat) : update :=
    match nth_error es n with
    | Some e => update_of (read e)
    | None => if n =? length es then UError else UEmpty
    end.

  Definition answers (ids : list id) (es : list E) (us : updates) : Prop :=
    length us = length ids /\
    forall n i, nth_error ids n = Some i -> nth_error us n = Some (i, expected es n).
End Batch.

Arguments Fields {F}. Arguments Null {F}. Arguments Invalid {F}. Arguments Fails {F}.
Arguments UFields {F}. Arguments UEmpty {F}. Arguments UError {F}. Arguments UPropagated {F}.
Arguments ENull {E}. Arguments EOther {E}. Arguments EList {E}.
Arguments DEntities {E}. Arguments DUnknown {E}. Arguments DNull {E}. Arguments DOther {E}. Arguments DObject {E}.
Arguments MData {E}. Arguments MErrors {E}. Arguments MUnknown {E}. Arguments BOther {E}. Arguments BObject {E}.
Arguments HttpError {E}. Arguments Http {E}.
