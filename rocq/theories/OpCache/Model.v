(** Which document a request executes, and under which key the operation is
    cached (C24, C29, C30).

    Modelled code:
    - crates/engine/src/engine/cache.rs 69-130: the bytes hashed into a key
    - crates/engine/src/prepare/trusted_documents.rs 56-213 (extract), 215-268
      (permissive), 281-307 (fetch), 313-340 (persisted queries)
    - crates/engine/src/prepare/mod.rs 58-109: looking up, loading, inserting
    - crates/engine/src/engine.rs 226-250: warming

    Simplifications:
    - Strings are lists of bytes; machines are little endian with 64 bit [usize].
    - Parsing, binding, planning are an oracle [plan], a function of the schema,
      the operation name and the text.  A schema is its hash.
    - SHA-256 and the digest making up the key (BLAKE3 in base64, with the
      namespace in front) are oracles.
    - The trusted documents store is an oracle which may answer differently at
      every moment.  Failing to answer and not having the document are the same.
    - Errors have no content. *)

From Coq Require Import List Arith NArith Bool.
From Verif.OpCache Require Import Tiered.
Import ListNotations.
Local Open Scope nat_scope.

(** to_ne_bytes: the [k] lowest bytes of [n], lowest first. *)
Fixpoint le (k : nat) (n : N) : bytes :=
  match k with
  | O => []
  | S k' => (n mod 256)%N :: le k' (n / 256)%N
  end.

Definition le_len (b : bytes) : bytes := le 8 (N.of_nat (List.length b)).

(** PersistedQueryRequestExtension *)
Record ext := MkExt { e_version : N; e_hash : bytes }.

(** DocumentKey (cache.rs 21-38) *)
Inductive dockey :=
| KApq (name : option bytes) (e : ext)
| KTrusted (name : option bytes) (client id : bytes)
| KText (name : option bytes) (document : bytes).

Definition dk_name (k : dockey) : option bytes :=
  match k with KApq n _ | KTrusted n _ _ | KText n _ => n end.

Definition name_bytes (n : option bytes) : bytes := match n with Some b => b | None => [] end.

Definition tag_apq : bytes := [97; 112; 113]%N.
Definition tag_docid : bytes := [100; 111; 99; 105; 100]%N.
Definition tag_doc : bytes := [100; 111; 99]%N.

(** cache.rs 77-118, the bytes given to the hasher. *)
Definition key_bytes (schema : bytes) (k : dockey) : bytes :=
  schema ++
  match k with
  | KApq n e => tag_apq ++ [0%N] ++ name_bytes n ++ [0%N] ++ le 4 (e_version e) ++ e_hash e
  | KTrusted n c i => tag_docid ++ [0%N] ++ name_bytes n ++ [0%N] ++ le_len c ++ c ++ le_len i ++ i
  | KText n d => tag_doc ++ [0%N] ++ name_bytes n ++ [0%N] ++ d
  end.

(** hex::encode *)
Definition hex_digit (n : N) : N := if (n <? 10)%N then (48 + n)%N else (87 + n)%N.
Definition hex (b : bytes) : bytes := flat_map (fun x => [hex_digit (x / 16)%N; hex_digit (x mod 16)%N]) b.

Inductive mode := Enforce | Allow | Ignore.

Record config := MkCfg {
  g_mode : mode;
  (** name and value of the bypass header *)
  g_bypass : option (bytes * bytes);
  g_apq : bool
}.

Record request := MkReq {
  q_query : option bytes;
  q_name : option bytes;
  q_doc_id : option bytes;
  q_ext : option ext;
  (** x-grafbase-client-name *)
  q_client : option bytes;
  (** first value of a header, if it is readable as text *)
  q_header : bytes -> option bytes
}.

Definition non_empty (q : option bytes) : option bytes :=
  match q with Some [] => None | _ => q end.

Definition opt_beqb (a : option bytes) (b : bytes) : bool :=
  match a with Some a => beqb a b | None => false end.

(** DocumentOrFuture *)
Inductive source :=
| Inline (t : bytes)
| Store (client id : bytes)
| ApqQuery (q : option bytes) (e : ext).

Section Gateway.
  Variable sha256 : bytes -> bytes.

  (** trusted_documents.rs 72-75 *)
  Definition bypassed (cfg : config) (r : request) : bool :=
    match g_bypass cfg with
    | Some (name, value) => opt_beqb (q_header r name) value
    | None => false
    end.

  (** 215-268 (what is only logged is left out; see [SPeek]) *)
  Definition permissive (r : request) (client id : bytes) : dockey * source :=
    match non_empty (q_query r) with
    | Some t => (KText (q_name r) t, Inline t)
    | None => (KTrusted (q_name r) client id, Store client id)
    end.

  (** extract_operation_document, trusted_documents.rs 56-213 *)
  Definition extract (cfg : config) (r : request) : option (dockey * source) :=
    let text :=
      match q_query r with
      | Some t => Some (KText (q_name r) t, Inline t)
      | None => None
      end in
    match g_mode cfg, q_ext r, q_doc_id r with
    | Enforce, None, None =>
        if bypassed cfg r then text
        else
          match non_empty (q_query r), q_client r with
          | Some q, Some c =>
              let id := hex (sha256 q) in
              Some (KTrusted (q_name r) c id, Store c id)
          | _, _ => None
          end
    | Enforce, Some e, _ =>
        match q_client r with
        | Some c => Some (KTrusted (q_name r) c (hex (e_hash e)), Store c (hex (e_hash e)))
        | None => None
        end
    | Enforce, None, Some id =>
        match q_client r with
        | Some c => Some (KTrusted (q_name r) c id, Store c id)
        | None => None
        end
    | Allow, _, Some id =>
        match q_client r with
        | Some c => Some (permissive r c id)
        | None => None
        end
    | Allow, Some e, None =>
        if g_apq cfg then Some (KApq (q_name r) e, ApqQuery (q_query r) e)
        else
          match q_client r with
          | Some c => Some (permissive r c (hex (e_hash e)))
          | None => None
          end
    | Ignore, Some e, _ =>
        if g_apq cfg then Some (KApq (q_name r) e, ApqQuery (q_query r) e) else None
    | Ignore, None, _ | Allow, None, None => text
    end.

  (** into_operation_document (34-47), with what the store answers, and
      handle_apq (313-340) *)
  Definition load (src : source) (answer : option bytes) : option bytes :=
    match src with
    | Inline t => Some t
    | Store _ _ => answer
    | ApqQuery q e =>
        if negb (e_version e =? 1)%N then None
        else
          match non_empty q with
          | Some t => if beqb (sha256 t) (e_hash e) then Some t else None
          | None => None
          end
    end.

  Variable op : Type.
  (** CachedOperation: the document it was made from and the plan. *)
  Record cached := MkC { c_key : dockey; c_text : bytes; c_op : op }.

  Variable plan : bytes -> option bytes -> bytes -> option op.
  (** The key made of the hashed bytes (cache.rs 119-125). *)
  Variable digest : bytes -> bytes.
  (** What the store answers at a moment. *)
  Variable store : nat -> bytes -> bytes -> option bytes.

  (** Of an engine (a gateway before or after a reload): configuration, schema,
      and its operation cache. *)
  Variable cfg : nat -> config.
  Variable schema : nat -> bytes.
  Variable enabled distributed : nat -> bool.
  Variable prefix : nat -> bytes.

  Definition cache_key (g : nat) (k : dockey) : bytes := digest (key_bytes (schema g) k).

  Inductive pstate :=
  | Looking
  (** Failed, or the operation to be executed. *)
  | Finished (r : option cached).

  Record proc := MkP {
    p_gw : nat;
    p_req : request;
    p_key : dockey;
    p_src : source;
    (** which of the lookups is its own *)
    p_reader : nat;
    p_state : pstate
  }.

  Record sys := MkS {
    s_now : nat;
    s_tier : tier cached;
    s_procs : list proc;
    (** insertions which are yet to happen, in the background *)
    s_inserts : list (nat * bytes * cached)
  }.

  Definition s_new : sys := MkS 0 (t_new cached) [] [].

  Inductive sevent :=
  (** a request arrives at a gateway *)
  | SRequest (g : nat) (r : request)
  (** the lookup of the permissive mode, for logging only (236-251) *)
  | SPeek (g : nat) (k : dockey)
  (** a step of a lookup, a write, an eviction *)
  | STier (e : event cached)
  (** the lookup of a request is over; [ok]: what comes after (variables,
      complexity, the method) is fine *)
  | SServe (i : nat) (ok : bool)
  | SInsert (i : nat)
  (** engine [g] is warmed with what engine [g'] has under a key *)
  | SWarm (g g' : nat) (k : bytes).

  Definition t_do (t : tier cached) (e : event cached) : tier cached :=
    t_step cached enabled distributed prefix t e.

  (** A request's prepare_operation_without_cache: the text, then the plan. *)
  Definition fresh (now g : nat) (k : dockey) (src : source) : option cached :=
    let answer := match src with Store c i => store now c i | _ => None end in
    match load src answer with
    | None => None
    | Some t =>
        match plan (schema g) (dk_name k) t with
        | None => None
        | Some o => Some (MkC k t o)
        end
    end.

  Definition finish (p : proc) (r : option cached) : proc :=
    MkP (p_gw p) (p_req p) (p_key p) (p_src p) (p_reader p) (Finished r).

  (** mod.rs 64-108, from the result of the lookup on. *)
  Definition serve (s : sys) (i : nat) (ok : bool) : sys :=
    match nth_error (s_procs s) i with
    | Some p =>
        match p_state p, nth_error (t_readers (s_tier s)) (p_reader p) with
        | Looking, Some (_, _, RDone hit) =>
            match hit with
            | Some c =>
                MkS (s_now s) (s_tier s) (set_nth i (finish p (if ok then Some c else None)) (s_procs s)) (s_inserts s)
            | None =>
                let r := if ok then fresh (s_now s) (p_gw p) (p_key p) (p_src p) else None in
                MkS (s_now s) (s_tier s) (set_nth i (finish p r) (s_procs s))
                  (match r with
                   | Some c => s_inserts s ++ [(p_gw p, cache_key (p_gw p) (p_key p), c)]
                   | None => s_inserts s
                   end)
            end
        | _, _ => s
        end
    | None => s
    end.

  Definition s_act (s : sys) (e : sevent) : sys :=
    match e with
    | SRequest g r =>
        match extract (cfg g) r with
        | Some (k, src) =>
            MkS (s_now s) (t_do (s_tier s) (TGet g (cache_key g k)))
              (s_procs s ++ [MkP g r k src (List.length (t_readers (s_tier s))) Looking]) (s_inserts s)
        | None => s
        end
    | SPeek g k => MkS (s_now s) (t_do (s_tier s) (TGet g (cache_key g k))) (s_procs s) (s_inserts s)
    | STier e' =>
        match e' with
        | TInsert _ _ _ | TGet _ _ => s
        | _ => MkS (s_now s) (t_do (s_tier s) e') (s_procs s) (s_inserts s)
        end
    | SServe i ok => serve s i ok
    | SInsert i =>
        match nth_error (s_inserts s) i with
        | Some (g, k, c) => MkS (s_now s) (t_do (s_tier s) (TInsert g k c)) (s_procs s) (remove_nth i (s_inserts s))
        | None => s
        end
    | SWarm g g' k =>
        match mem_get cached enabled (s_tier s) g' k with
        | Some c =>
            match plan (schema g) (dk_name (c_key c)) (c_text c) with
            | Some o =>
                MkS (s_now s) (t_do (s_tier s) (TInsert g (cache_key g (c_key c)) (MkC (c_key c) (c_text c) o)))
                  (s_procs s) (s_inserts s)
            | None => s
            end
        | None => s
        end
    end.

  Definition s_step (s : sys) (e : sevent) : sys :=
    let s' := s_act s e in
    MkS (S (s_now s')) (s_tier s') (s_procs s') (s_inserts s').

  Definition s_run (es : list sevent) : sys := fold_left s_step es s_new.
End Gateway.

Arguments c_key {op}. Arguments c_text {op}. Arguments c_op {op}. Arguments MkC {op}.
Arguments SRequest {op}. Arguments SPeek {op}. Arguments STier {op}. Arguments SServe {op}.
Arguments SInsert {op}. Arguments SWarm {op}.
Arguments s_procs {op}. Arguments s_tier {op}. Arguments s_inserts {op}. Arguments s_now {op}.
Arguments p_gw {op}. Arguments p_req {op}. Arguments p_key {op}. Arguments p_src {op}.
Arguments p_reader {op}. Arguments p_state {op}.
Arguments Finished {op}. Arguments Looking {op}. Arguments MkS {op}. Arguments MkP {op}.
