(** What C24, C29 and C30 claim, in terms of requests and texts. *)

From Coq Require Import List Arith NArith Bool.
From Verif.OpCache Require Import Tiered Model.
Import ListNotations.
Local Open Scope nat_scope.

Definition nul_free (b : bytes) : Prop := ~ In 0%N b.

Definition plain (n : option bytes) : Prop :=
  match n with Some b => nul_free b | None => True end.

(** The same operation name, if having none and having the empty one is the same. *)
Definition same_name (n n' : option bytes) : Prop :=
  n = n' \/ (n = None /\ n' = Some []) \/ (n = Some [] /\ n' = None).

(** Short enough for lengths to fit in a machine. *)
Definition small (b : bytes) : Prop := (N.of_nat (List.length b) < 2 ^ 56)%N.

(** The same document: the same text, the same identifier for the same client, or
    the same hash. *)
Inductive same_document : dockey -> dockey -> Prop :=
| SD_text : forall n n' d, same_name n n' -> same_document (KText n d) (KText n' d)
| SD_trusted : forall n n' c i, same_name n n' -> same_document (KTrusted n c i) (KTrusted n' c i)
| SD_apq : forall n n' v h, same_name n n' -> same_document (KApq n (MkExt v h)) (KApq n' (MkExt v h)).

(** What fits in the types of the code. *)
Definition dk_sized (k : dockey) : Prop :=
  match k with
  | KApq _ e => (e_version e < 2 ^ 32)%N
  | KTrusted _ c i => small c /\ small i
  | KText _ _ => True
  end.

(** The identifier of a trusted document a request refers to: the hash of the
    persisted query extension, the one given, or the hash of the text. *)
Definition refers_to (sha256 : bytes -> bytes) (r : request) : option bytes :=
  match q_ext r with
  | Some e => Some (hex (e_hash e))
  | None =>
      match q_doc_id r with
      | Some i => Some i
      | None => match q_query r with Some [] | None => None | Some t => Some (hex (sha256 t)) end
      end
  end.

(** The client presents the configured header, and only a text. *)
Definition bypasses (cfg : config) (r : request) : Prop :=
  q_ext r = None /\ q_doc_id r = None /\
  exists name value, g_bypass cfg = Some (name, value) /\ q_header r name = Some value.

(** A persisted query, for the gateway. *)
Definition persisted (cfg : config) (r : request) (e : ext) : Prop :=
  g_mode cfg <> Enforce /\ g_apq cfg = true /\ q_ext r = Some e /\ (g_mode cfg = Ignore \/ q_doc_id r = None).

(** The request's own text is to be executed. *)
Definition inlines (cfg : config) (r : request) (t : bytes) : Prop :=
  q_query r = Some t /\
  match g_mode cfg with
  | Enforce => bypasses cfg r
  | Allow =>
      (q_ext r = None /\ q_doc_id r = None) \/
      (t <> [] /\ (q_doc_id r <> None \/ (q_ext r <> None /\ g_apq cfg = false)))
  | Ignore => q_ext r = None
  end.
