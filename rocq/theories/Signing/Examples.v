(** Configurations, keys and requests; and what one may expect of them that doesn't hold. *)
From Coq Require Import List Bool Ascii String PeanoNat NArith Lia.
From Verif.Signing Require Import Model Spec Lemmas Properties Clients.
Import ListNotations.
Open Scope string_scope.
Open Scope list_scope.

(** Oracles: a few files; texts are their own bytes; components are to be distinct. *)
Definition text_bytes (s : string) : bytes := map N_of_ascii (list_ascii_of_string s).
Fixpoint zeros (n : nat) : string := match n with O => "" | S n => String "0" (zeros n) end.
Definition files (name : string) : option string :=
  if String.eqb name "hmac.key" then Some "secret"
  else if String.eqb name "p256.json" then Some "  {p256}"
  else if String.eqb name "ed.json" then Some "{ed}"
  else if String.eqb name "ed-swapped.json" then Some "{ed-swapped}"
  else if String.eqb name "ed.pem" then Some "PEM"
  else if String.eqb name "ca.pem" then Some "CA"
  else if String.eqb name "cas.pem" then Some "CA1 CA2"
  else if String.eqb name "me.pem" then Some "ME"
  else None.
Definition ed_jwk (private public : nat) : jwk :=
  {| kty := "OKP"; kid := None; crv := Some "Ed25519"; d := Some (zeros private); alg := None; k := None;
     x := Some (zeros public); y := None |}.
Definition web_keys (s : string) : option jwk :=
  if String.eqb s "  {p256}" then
    Some {| kty := "EC"; kid := Some "my-kid"; crv := Some "P-256"; d := Some "d"; alg := None; k := None; x := Some "x";
            y := Some "y" |}
  else if String.eqb s "{ed}" then Some (ed_jwk 32 32)
  else if String.eqb s "{ed-swapped}" then Some (ed_jwk 0 64)
  else None.
Definition some_bytes (s : string) : option bytes := Some (text_bytes s).
Definition pems (s : string) : option (algorithm * bytes) :=
  if String.eqb s "PEM" then Some (Ed25519, [1%N]) else None.
Definition curves (a : algorithm) (x y d : string) : option bytes := Some (text_bytes (x ++ y ++ d)).
Definition print_of (_ : key) : string := "fingerprint".

Definition component_dec : forall a b : component, {a = b} + {a <> b}.
Proof. decide equality; [apply string_dec|decide equality]. Defined.
Fixpoint distinct (l : list component) : bool :=
  match l with
  | [] => true
  | c :: l => negb (if in_dec component_dec c l then true else false) && distinct l
  end.
Definition yes {A} (_ : A) : bool := true.
Definition yes2 {A B} (_ : A) (_ : B) : bool := true.
Definition one_certificate (s : string) : option string := Some s.
Definition certificates (s : string) : option (list string) := Some ["CA1"; "CA2"].

Notation load := (load_from files some_bytes some_bytes pems web_keys curves).
Notation start := (new_fetcher files some_bytes some_bytes pems web_keys curves one_certificate certificates one_certificate).
Notation go := (send print_of yes distinct yes2).

(** Distinct components are what [distinct] accepts. *)
Lemma distinct_refuses l : ~ NoDup l -> distinct l = false.
Proof.
  induction l as [|c l IH]; intros H; [destruct H; constructor|]. cbn.
  destruct (in_dec component_dec c l) as [I_|NI]; [reflexivity|]. cbn. apply IH. intros K. apply H. constructor; assumption.
Qed.

Definition silent : sig_config :=
  {| c_enabled := None; c_algorithm := None; c_key := None; c_expiry := None; c_include := None; c_exclude := None;
     c_derived := None; c_parameters := None |}.
Definition gateway : sig_config :=
  {| c_enabled := Some true; c_algorithm := Some HmacSha256; c_key := Some (File "hmac.key" (Some "gw"));
     c_expiry := Some 90500%N; c_include := None; c_exclude := Some ["cookie"]; c_derived := None; c_parameters := None |}.
Definition products : sig_config :=
  {| c_enabled := None; c_algorithm := Some EcdsaP256; c_key := Some (File "p256.json" None); c_expiry := None;
     c_include := None; c_exclude := None; c_derived := Some [Method; Path]; c_parameters := Some [Nonce] |}.
Definition off : sig_config :=
  {| c_enabled := Some false; c_algorithm := None; c_key := Some (File "missing" None); c_expiry := None;
     c_include := None; c_exclude := None; c_derived := None; c_parameters := None |}.
Definition tls : mtls_config :=
  {| m_root := Some ("cas.pem", true); m_identity := Some "me.pem"; m_accept_invalid := false |}.
Definition sub (s : option sig_config) (m : option mtls_config) : subgraph_config := {| sc_signatures := s; sc_mtls := m |}.

Definition shop : config :=
  {| g_signatures := gateway;
     g_subgraphs := [("accounts", sub (Some off) None); ("gone", sub (Some {| c_enabled := Some true; c_algorithm := None;
                       c_key := Some (File "missing" None); c_expiry := None; c_include := None; c_exclude := None;
                       c_derived := None; c_parameters := None |}) None);
                     ("products", sub (Some products) (Some tls))] |}.
Definition schema : list string := ["products"; "accounts"; "reviews"].

Definition post : request :=
  {| r_method := "POST"; r_scheme := "https"; r_authority := "example.com"; r_path := "/graphql"; r_query := "";
     r_headers := [("content-type", "application/json"); ("te", "trailers"); ("cookie", "a=b"); ("x-id", "1")];
     r_body := "{ me }" |}.

Definition signature_of {E} (o : outcome E sent) : option (option signature) :=
  match o with Good t => Some (t_signature t) | _ => None end.
Definition started (c : config) : option fetcher := match start c schema with Good f => Some f | _ => None end.
Definition signed (c : config) (t : transport) (id : nat) (r : request) : option (option signature) :=
  match started c with Some f => signature_of (go f t id r 1000%N "nonce") | None => None end.

(** A subgraph with its own key, another that is off and one that only the gateway speaks of. *)
Example ex_products :
  match signed shop Http 0 post with
  | Some (Some s) =>
    p_components (s_params s) = [Header "content-type"; Header "x-id"; Derived Method; Derived Path] /\
    p_keyid (s_params s) = Some "my-kid" /\ p_alg (s_params s) = EcdsaP256 /\ p_nonce (s_params s) = Some "nonce" /\
    p_expires (s_params s) = Some 1090%N
  | _ => False
  end.
Proof. vm_compute. auto 10. Qed.
Example ex_accounts : signed shop Http 1 post = Some None.
Proof. vm_compute. reflexivity. Qed.
Example ex_reviews :
  match signed shop Http 2 post with
  | Some (Some s) =>
    s_base s = [(Header "content-type", "application/json"); (Header "x-id", "1"); (Derived RequestTarget, "/graphql")] /\
    p_keyid (s_params s) = Some "gw" /\ s_key s = Shared (text_bytes "secret") None /\ p_nonce (s_params s) = None
  | _ => False
  end.
Proof. vm_compute. auto 10. Qed.

(** The hypotheses of the theorems hold of this gateway. *)
Example ex_hypotheses :
  NoDup schema /\ NoDup (map fst (g_subgraphs shop)) /\ nth_error schema 0 = Some "products" /\ Enabled shop "products" /\
  ~ Enabled shop "accounts" /\ Enabled shop "reviews".
Proof.
  assert (ND : NoDup (map fst (g_subgraphs shop))).
  { repeat constructor; cbn; intros K; repeat (destruct K as [K|K]; [discriminate|]); contradiction. }
  split. { repeat constructor; cbn; intros K; repeat (destruct K as [K|K]; [discriminate|]); contradiction. }
  split; [exact ND|]. split; [reflexivity|].
  assert (OP : OwnSection shop "products" products) by (eexists; split; [right; right; left; reflexivity|reflexivity]).
  assert (OA : OwnSection shop "accounts" off) by (eexists; split; [left; reflexivity|reflexivity]).
  split; [apply (says_own_iff shop "products" products _ _ ND OP); reflexivity|].
  split; [intros K; apply (says_own_iff shop "accounts" off _ _ ND OA) in K; discriminate|].
  apply says_none_iff; [|reflexivity]. intros s (sc & A & _). cbn in A.
  repeat (destruct A as [A|A]; [discriminate|]). contradiction.
Qed.

(** Keys. *)
Example ex_load :
  load (File "ed.json" None) (Some Ed25519) = Good (Secret Ed25519 (text_bytes (zeros 64)) None) /\
  load (File "ed.json" None) (Some EcdsaP256) = Bad WrongAlgorithm /\
  load (File "ed.pem" None) None = Good (Secret Ed25519 [1%N] None) /\
  load (File "hmac.key" None) None = Bad BadKey /\
  load (Inline "secret" None) None = Good (Shared (text_bytes "secret") None) /\
  load (Inline "secret" None) (Some Ed25519) = Bad NotHmac /\
  load (File "missing" None) None = Bad NoFile.
Proof. vm_compute. auto 10. Qed.

(** The client of a subgraph. *)
Example ex_client :
  match started shop with
  | Some f => client_of f 0 = {| cl_accept_invalid := false; cl_roots := ["CA1"; "CA2"]; cl_identity := Some "ME" |} /\
              client_of f 1 = default_client
  | None => False
  end.
Proof. vm_compute. auto. Qed.

(** A list of included headers includes all others as well. *)
Definition including : config :=
  {| g_signatures := {| c_enabled := Some true; c_algorithm := None; c_key := Some (Inline "secret" None);
                        c_expiry := None; c_include := Some ["content-type"]; c_exclude := None; c_derived := None;
                        c_parameters := None |};
     g_subgraphs := [] |}.
Theorem C117_include_refuted : exists f t sg,
  start including schema = Good f /\ go f Http 0 post 1000%N "" = Good t /\ t_signature t = Some sg /\
  In (Header "x-id") (p_components (s_params sg)) /\ ~ Included including "products" "x-id".
Proof.
  do 3 eexists. split; [vm_compute; reflexivity|]. split; [vm_compute; reflexivity|]. split; [reflexivity|].
  split. { cbn. right; right; left; reflexivity. }
  intros K. specialize (K ["content-type"]). cbn in K.
  destruct K as [K|K]; [|discriminate|contradiction].
  apply says_none_iff; [|reflexivity]. intros s (sc & A & _). contradiction.
Qed.

(** An excluded header must be written in lower case. *)
Definition excluding : config :=
  {| g_signatures := {| c_enabled := Some true; c_algorithm := None; c_key := Some (Inline "secret" None);
                        c_expiry := None; c_include := None; c_exclude := Some ["X-Id"]; c_derived := None;
                        c_parameters := None |};
     g_subgraphs := [] |}.
Theorem C117_exclude_refuted : exists f t sg,
  start excluding schema = Good f /\ go f Http 0 post 1000%N "" = Good t /\ t_signature t = Some sg /\
  In (Header "x-id") (p_components (s_params sg)) /\ c_exclude (g_signatures excluding) = Some ["X-Id"].
Proof.
  do 3 eexists. split; [vm_compute; reflexivity|]. split; [vm_compute; reflexivity|]. split; [reflexivity|].
  split; [|reflexivity]. cbn. right; right; left; reflexivity.
Qed.

(** A signature says nothing about the operation that is sent. *)
Definition with_body (r : request) (b : string) : request :=
  {| r_method := r_method r; r_scheme := r_scheme r; r_authority := r_authority r; r_path := r_path r; r_query := r_query r;
     r_headers := r_headers r; r_body := b |}.
Theorem C117_body_refuted : exists f t t' sg,
  start shop schema = Good f /\ go f Http 0 post 1000%N "n" = Good t /\
  go f Http 0 (with_body post "mutation { deleteAll }") 1000%N "n" = Good t' /\
  t_signature t = Some sg /\ t_signature t' = Some sg /\ r_body (t_request t) <> r_body (t_request t').
Proof.
  do 4 eexists. split; [vm_compute; reflexivity|]. split; [vm_compute; reflexivity|]. split; [vm_compute; reflexivity|].
  split; [reflexivity|]. split; [reflexivity|]. cbn. discriminate.
Qed.

(** Nor, by default, about the host that it's sent to. *)
Definition with_host (r : request) (h : string) : request :=
  {| r_method := r_method r; r_scheme := r_scheme r; r_authority := h; r_path := r_path r; r_query := r_query r;
     r_headers := r_headers r; r_body := r_body r |}.
Theorem C117_host_refuted : exists f t t' sg,
  start shop schema = Good f /\ go f Http 2 post 1000%N "n" = Good t /\
  go f Http 2 (with_host post "evil.com") 1000%N "n" = Good t' /\
  t_signature t = Some sg /\ t_signature t' = Some sg /\ r_authority (t_request t) <> r_authority (t_request t').
Proof.
  do 4 eexists. split; [vm_compute; reflexivity|]. split; [vm_compute; reflexivity|]. split; [vm_compute; reflexivity|].
  split; [reflexivity|]. split; [reflexivity|]. cbn. discriminate.
Qed.

(** A request with a header of two values can't be sent. *)
Definition with_headers (r : request) (l : list (string * string)) : request :=
  {| r_method := r_method r; r_scheme := r_scheme r; r_authority := r_authority r; r_path := r_path r; r_query := r_query r;
     r_headers := l; r_body := r_body r |}.
Theorem C117_several_values_refuted : exists f r,
  start shop schema = Good f /\ r_headers r = [("accept", "text/html"); ("accept", "application/json")] /\
  go f Http 2 r 1000%N "n" = Bad BadComponents.
Proof.
  exists (match started shop with Some f => f | None => {| f_signer := {| by_subgraph := []; by_default := None |}; f_clients := [] |} end),
    (with_headers post [("accept", "text/html"); ("accept", "application/json")]).
  split; [vm_compute; reflexivity|]. split; [reflexivity|]. vm_compute. reflexivity.
Qed.

(** Subscriptions of a subgraph whose requests are to be signed, and to be sent with its client, are neither. *)
Theorem C117_subscriptions_refuted : exists f t,
  start shop schema = Good f /\ Enabled shop "products" /\ nth_error schema 0 = Some "products" /\
  go f Sse 0 post 1000%N "n" = Good t /\ t_signature t = None.
Proof.
  do 2 eexists. split; [vm_compute; reflexivity|]. split; [apply ex_hypotheses|]. split; [reflexivity|].
  split; [vm_compute; reflexivity|reflexivity].
Qed.
Theorem C118_subscriptions_refuted : exists f t,
  start shop schema = Good f /\ OwnTls shop "products" tls /\ m_identity tls = Some "me.pem" /\
  nth_error schema 0 = Some "products" /\ go f Sse 0 post 1000%N "n" = Good t /\ cl_identity (t_client t) = None.
Proof.
  do 2 eexists. split; [vm_compute; reflexivity|].
  split. { eexists; split; [right; right; left; reflexivity|reflexivity]. }
  split; [reflexivity|]. split; [reflexivity|]. split; [vm_compute; reflexivity|reflexivity].
Qed.

(** A web key with parts of the wrong lengths panics. *)
Theorem C117_panics_refuted : exists src want, load src want = Panic.
Proof. exists (File "ed-swapped.json" None), None. vm_compute. reflexivity. Qed.

(** Invalid certificates aren't accepted, although the settings say so, if they don't name a certificate as well. *)
Definition trusting : config :=
  {| g_signatures := silent;
     g_subgraphs := [("products", sub None (Some {| m_root := None; m_identity := None; m_accept_invalid := true |}))] |}.
Theorem C118_accept_invalid_refuted : exists f t m,
  start trusting schema = Good f /\ OwnTls trusting "products" m /\ m_accept_invalid m = true /\
  go f Http 0 post 1000%N "n" = Good t /\ cl_accept_invalid (t_client t) = false.
Proof.
  do 3 eexists. split; [vm_compute; reflexivity|]. split. { eexists; split; [left; reflexivity|reflexivity]. }
  split; [reflexivity|]. split; [vm_compute; reflexivity|reflexivity].
Qed.
