(** What the configuration of message signatures says, independently of how it's merged and looked up. *)
From Coq Require Import List Bool Ascii String PeanoNat NArith.
From Verif.Signing Require Import Model.
Import ListNotations.

(** A subgraph's own section about signatures. *)
Definition OwnSection (c : config) (n : string) (s : sig_config) : Prop :=
  exists sc, In (n, sc) (g_subgraphs c) /\ sc_signatures sc = Some s.

(** What the configuration says about a setting for the subgraph [n]: what the subgraph's section says, and what the gateway's
    says if that one says nothing or there's none. *)
Inductive Says (c : config) (n : string) {A} (setting : sig_config -> option A) : option A -> Prop :=
| says_own s v : OwnSection c n s -> setting s = Some v -> Says c n setting (Some v)
| says_gateway : (forall s, OwnSection c n s -> setting s = None) -> Says c n setting (setting (g_signatures c)).

(** Requests to the subgraph are to be signed. *)
Definition Enabled (c : config) (n : string) : Prop := Says c n c_enabled (Some true).

(** A header that connections have and not messages (RFC 2616, section 13.5.1). *)
Definition HopByHop (h : string) : Prop :=
  h = "connection"%string \/ h = "keep-alive"%string \/ h = "proxy-authenticate"%string \/
  h = "proxy-authorization"%string \/ h = "te"%string \/ h = "trailers"%string \/ h = "transfer-encoding"%string \/
  h = "upgrade"%string.

Definition Excluded (c : config) (n h : string) : Prop :=
  HopByHop h \/ exists l, Says c n c_exclude (Some l) /\ In h l.

(** What a configured list of included headers is meant to do. *)
Definition Included (c : config) (n h : string) : Prop :=
  forall l, Says c n c_include (Some l) -> In h l.

(** The derived components to sign. *)
Definition DerivedFor (c : config) (n : string) (l : list derived) : Prop :=
  Says c n c_derived (Some l) \/ (Says c n c_derived None /\ l = [RequestTarget]).

(** The names of the headers to sign: those of the request which aren't excluded, in order, once per value. *)
Inductive Covers (skip : string -> Prop) : list (string * string) -> list string -> Prop :=
| covers_nil : Covers skip [] []
| covers_keep h v l ns : ~ skip h -> Covers skip l ns -> Covers skip ((h, v) :: l) (h :: ns)
| covers_skip h v l ns : skip h -> Covers skip l ns -> Covers skip ((h, v) :: l) ns.

(** The identifier that is announced for a key. *)
Inductive Announces (fingerprint : key -> string) : option string -> key -> option string -> Prop :=
| an_config id k : Announces fingerprint (Some id) k (Some id)
| an_secret_kid a m id : Announces fingerprint None (Secret a m (Some id)) (Some id)
| an_shared_kid m id : Announces fingerprint None (Shared m (Some id)) (Some id)
| an_secret a m : Announces fingerprint None (Secret a m None) (Some (fingerprint (Secret a m None)))
| an_shared m : Announces fingerprint None (Shared m None) None.

(** What a file or a text contains. *)
Section Keys.
Variable read : string -> option string.
Variable b64 : string -> option bytes.
Variable b64url : string -> option bytes.
Variable pem : string -> option (algorithm * bytes).
Variable json : string -> option jwk.
Variable ec : algorithm -> string -> string -> string -> option bytes.

(** The algorithm of a curve. *)
Inductive CurveAlg : string -> string -> algorithm -> Prop :=
| curve_p256 : CurveAlg "EC" "P-256" EcdsaP256
| curve_p384 : CurveAlg "EC" "P-384" EcdsaP384.

(** A JSON web key and the key it stands for. *)
Inductive JwkKey (j : jwk) : key -> Prop :=
| jwk_ec c a d_ x_ y_ m :
  crv j = Some c -> CurveAlg (kty j) c a -> d j = Some d_ -> x j = Some x_ -> y j = Some y_ ->
  ec a x_ y_ d_ = Some m -> JwkKey j (Secret a m (kid j))
| jwk_ed d_ x_ private public :
  kty j = "OKP"%string -> crv j = Some "Ed25519"%string -> d j = Some d_ -> x j = Some x_ ->
  b64url d_ = Some private -> b64url x_ = Some public ->
  List.length private = 32 -> List.length public = 32 -> JwkKey j (Secret Ed25519 (private ++ public) (kid j))
| jwk_oct k_ m :
  kty j = "oct"%string -> alg j = Some "HS256"%string -> k j = Some k_ -> b64url k_ = Some m ->
  JwkKey j (Shared m (kid j)).

(** The text of a file is a JSON object: a brace after white space. *)
Inductive Space : ascii -> Prop :=
| space_space : Space " "
| space_control c : (9 <= N_of_ascii c <= 13)%N -> Space c.
Inductive JsonText : string -> Prop :=
| json_brace s : JsonText (String "{" s)
| json_space c s : Space c -> JsonText s -> JsonText (String c s).

(** The key a file contains, given the configured algorithm. *)
Inductive FileKey (want : option algorithm) (data : string) : key -> Prop :=
| file_jwk j key : JsonText data -> json data = Some j -> JwkKey j key -> FileKey want data key
| file_hmac m : ~ JsonText data -> want = Some HmacSha256 -> b64 data = Some m -> FileKey want data (Shared m None)
| file_pem a m : ~ JsonText data -> want <> Some HmacSha256 -> pem data = Some (a, m) ->
                 FileKey want data (Secret a m None).

(** The algorithm of a key. *)
Definition KeyFor (a : algorithm) (key : key) : Prop :=
  match key with Secret b _ _ => a = b | Shared _ _ => a = HmacSha256 end.

(** The key of a source, given the configured algorithm. *)
Inductive SourceKey (want : option algorithm) : key_source -> key -> Prop :=
| source_file name id data key :
  read name = Some data -> FileKey want data key -> (forall a, want = Some a -> KeyFor a key) ->
  SourceKey want (File name id) key
| source_inline text id m :
  (want = None \/ want = Some HmacSha256) -> b64 text = Some m -> SourceKey want (Inline text id) (Shared m None).

End Keys.
