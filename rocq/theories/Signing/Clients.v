(** C118: requests to a subgraph are sent with the client its TLS settings describe. *)
From Coq Require Import List Bool Ascii String PeanoNat NArith Lia.
From Verif.Signing Require Import Model Spec Lemmas Properties.
Import ListNotations.

(** The TLS settings of a subgraph. *)
Definition OwnTls (c : config) (n : string) (m : mtls_config) : Prop :=
  exists sc, In (n, sc) (g_subgraphs c) /\ sc_mtls sc = Some m.

(** The settings name a certificate, of the server's authority or of the gateway. *)
Definition Names (m : mtls_config) : Prop := m_root m <> None \/ m_identity m <> None.

Section Clients.
Variable read : string -> option string.
Variable b64 : string -> option bytes.
Variable b64url : string -> option bytes.
Variable pem : string -> option (algorithm * bytes).
Variable json : string -> option jwk.
Variable ec : algorithm -> string -> string -> string -> option bytes.
Variable fingerprint : key -> string.
Variable component_ok : string -> bool.
Variable try_new : list component -> bool.
Variable signs : key -> list (component * string) -> bool.
Variable certificate : string -> option string.
Variable bundle : string -> option (list string).
Variable identity : string -> option string.

Notation new_signer := (new_signer read b64 b64url pem json ec).
Notation new_fetcher := (new_fetcher read b64 b64url pem json ec certificate bundle identity).
Notation send := (send fingerprint component_ok try_new signs).
Notation dedicated_clients := (dedicated_clients read certificate bundle identity).

(** The client that settings describe. *)
Inductive RootsOf (m : mtls_config) : list string -> Prop :=
| roots_none : m_root m = None -> RootsOf m []
| roots_one path data c :
  m_root m = Some (path, false) -> read path = Some data -> certificate data = Some c -> RootsOf m [c]
| roots_bundle path data cs :
  m_root m = Some (path, true) -> read path = Some data -> bundle data = Some cs -> RootsOf m cs.
Inductive IdentityOf (m : mtls_config) : option string -> Prop :=
| identity_none : m_identity m = None -> IdentityOf m None
| identity_some path data i :
  m_identity m = Some path -> read path = Some data -> identity data = Some i -> IdentityOf m (Some i).
Definition Describes (m : mtls_config) (cl : client) : Prop :=
  cl_accept_invalid cl = m_accept_invalid m /\ RootsOf m (cl_roots cl) /\ IdentityOf m (cl_identity cl).

Lemma roots_spec m rs : roots read certificate bundle m = Good rs <-> RootsOf m rs.
Proof.
  unfold roots. destruct (m_root m) as [[path [|]]|] eqn:Q.
  - rewrite bind_good. setoid_rewrite ok_or_good. split.
    + intros (b & A & B). apply (roots_bundle m path b rs Q A). exact B.
    + intros K; inversion K as [|p' d' c' A B C|p' d' cs A B C]; try congruence.
      exists d'. split; congruence.
  - rewrite bind_good. setoid_rewrite ok_or_good. setoid_rewrite bind_good. setoid_rewrite ok_or_good. split.
    + intros (b & A & c & B & H). injection H as <-. exact (roots_one m path b c Q A B).
    + intros K; inversion K as [|p' d' c' A B C|p' d' cs A B C]; try congruence.
      exists d'. split; [congruence|]. exists c'. split; [exact C|reflexivity].
  - split.
    + intros H; injection H as <-. constructor; exact Q.
    + intros K; inversion K as [|p' d' c' A B C|p' d' cs A B C]; congruence.
Qed.

Let identity_result (m : mtls_config) : outcome error (option string) :=
  match m_identity m with
  | None => Good None
  | Some path =>
    bind (ok_or NoFile (read path)) (fun bytes =>
    bind (ok_or BadCertificate (identity bytes)) (fun i => Good (Some i)))
  end.

Lemma identity_spec m i : identity_result m = Good i <-> IdentityOf m i.
Proof.
  unfold identity_result. destruct (m_identity m) as [path|] eqn:Q.
  - rewrite bind_good. setoid_rewrite ok_or_good. setoid_rewrite bind_good. setoid_rewrite ok_or_good. split.
    + intros (b & A & c & B & H). injection H as <-. exact (identity_some m path b c Q A B).
    + intros K; inversion K as [|p' d' c' A B C]; [congruence|].
      exists d'. split; [congruence|]. exists c'. auto.
  - split.
    + intros H; injection H as <-. constructor; exact Q.
    + intros K; inversion K as [|p' d' c' A B C]; congruence.
Qed.

(** One step of the loop. *)
Lemma clients_cons schema n sc l :
  dedicated_clients schema ((n, sc) :: l) =
  match sc_mtls sc with
  | None => dedicated_clients schema l
  | Some m =>
    match m_root m, m_identity m with
    | None, None => dedicated_clients schema l
    | _, _ =>
      match to_id schema n with
      | None => dedicated_clients schema l
      | Some id =>
        bind (roots read certificate bundle m) (fun rs =>
        bind (identity_result m) (fun i =>
        bind (dedicated_clients schema l) (fun rest =>
        Good ((id, {| cl_accept_invalid := m_accept_invalid m; cl_roots := rs; cl_identity := i |}) :: rest))))
      end
    end
  end.
Proof. reflexivity. Qed.

(** Either the loop skips a section, or it makes a client. *)
Lemma clients_step schema n sc l :
  (dedicated_clients schema ((n, sc) :: l) = dedicated_clients schema l /\
   (forall m id, sc_mtls sc = Some m -> Names m -> to_id schema n <> Some id)) \/
  exists m id, sc_mtls sc = Some m /\ Names m /\ to_id schema n = Some id /\
    dedicated_clients schema ((n, sc) :: l) =
    bind (roots read certificate bundle m) (fun rs =>
    bind (identity_result m) (fun i =>
    bind (dedicated_clients schema l) (fun rest =>
    Good ((id, {| cl_accept_invalid := m_accept_invalid m; cl_roots := rs; cl_identity := i |}) :: rest)))).
Proof.
  rewrite clients_cons. destruct (sc_mtls sc) as [m|] eqn:M; [|left; split; [reflexivity|discriminate]].
  assert (D : (m_root m = None /\ m_identity m = None) \/ Names m).
  { unfold Names. destruct (m_root m); [right; left; discriminate|]. destruct (m_identity m); [right; right; discriminate|auto]. }
  destruct D as [(A & B)|D].
  - rewrite A, B. left. split; [reflexivity|]. intros m' id E [K|K]; injection E as <-; congruence.
  - destruct (to_id schema n) as [id|] eqn:T.
    + right. exists m, id. split; [reflexivity|]. split; [exact D|]. split; [reflexivity|].
      destruct D as [D|D]; destruct (m_root m); try congruence; destruct (m_identity m); congruence.
    + left. split; [|intros; discriminate].
      destruct (m_root m), (m_identity m); reflexivity.
Qed.

Lemma clients_in schema l : forall cs id cl,
  dedicated_clients schema l = Good cs -> In (id, cl) cs ->
  exists n sc m, In (n, sc) l /\ sc_mtls sc = Some m /\ Names m /\ to_id schema n = Some id /\ Describes m cl.
Proof.
  induction l as [|[n sc] l IH]; intros cs id cl H K.
  - cbn in H. injection H as <-. contradiction.
  - destruct (clients_step schema n sc l) as [(E & _)|(m & i & M & Nm & T & E)]; rewrite E in H.
    + destruct (IH _ _ _ H K) as (n' & sc' & m & A & B). exists n', sc', m. split; [right; exact A|exact B].
    + apply bind_good in H. destruct H as (rs & HR & H). apply bind_good in H. destruct H as (ident & HI & H).
      apply bind_good in H. destruct H as (rest & HD & H). injection H as <-. destruct K as [K|K].
      * injection K as -> <-. exists n, sc, m. split; [left; reflexivity|]. do 3 (split; [assumption|]).
        split; [reflexivity|]. split; [apply roots_spec; exact HR|apply identity_spec; exact HI].
      * destruct (IH _ _ _ HD K) as (n' & sc' & m' & A & B). exists n', sc', m'. split; [right; exact A|exact B].
Qed.

Lemma clients_all schema l : forall cs n sc m id,
  dedicated_clients schema l = Good cs -> In (n, sc) l -> sc_mtls sc = Some m -> Names m -> to_id schema n = Some id ->
  exists cl, In (id, cl) cs /\ Describes m cl.
Proof.
  induction l as [|[n' sc'] l IH]; intros cs n sc m id H K M Nm T; [contradiction|].
  destruct (clients_step schema n' sc' l) as [(E & X)|(m' & i & M' & Nm' & T' & E)]; rewrite E in H.
  - destruct K as [K|K]; [|exact (IH _ _ _ _ _ H K M Nm T)].
    injection K as -> ->. destruct (X m id M Nm T).
  - apply bind_good in H. destruct H as (rs & HR & H). apply bind_good in H. destruct H as (ident & HI & H).
    apply bind_good in H. destruct H as (rest & HD & H). injection H as <-. destruct K as [K|K].
    + injection K as -> ->. assert (m' = m) as -> by congruence. assert (i = id) as -> by congruence.
      eexists. split; [left; reflexivity|].
      split; [reflexivity|]. split; [apply roots_spec; exact HR|apply identity_spec; exact HI].
    + destruct (IH _ _ _ _ _ HD K M Nm T) as (cl & A & B). exists cl. split; [right; exact A|exact B].
Qed.

Lemma clients_good schema l :
  (forall n sc m id, In (n, sc) l -> sc_mtls sc = Some m -> Names m -> to_id schema n = Some id ->
                     exists cl, Describes m cl) ->
  exists cs, dedicated_clients schema l = Good cs.
Proof.
  induction l as [|[n sc] l IH]; intros H; [exists []; reflexivity|].
  destruct IH as (cs & IH). { intros n' sc' m id K. apply (H n' sc' m id). right; exact K. }
  destruct (clients_step schema n sc l) as [(E & _)|(m & i & M & Nm & T & E)]; rewrite E; [exists cs; exact IH|].
  destruct (H n sc m i) as (cl & _ & B & C); [left; reflexivity|exact M|exact Nm|exact T|].
  apply roots_spec in B. apply identity_spec in C. rewrite B. cbn [bind]. rewrite C, IH. eexists; reflexivity.
Qed.

Lemma tls_unique c n m m' :
  NoDup (map fst (g_subgraphs c)) -> OwnTls c n m -> OwnTls c n m' -> m = m'.
Proof.
  intros ND (sc & A & B) (sc' & A' & B').
  assert (sc = sc') as <-; [|congruence].
  induction (g_subgraphs c) as [|[x t] l IH]; [contradiction|].
  cbn in ND; inversion ND as [|? ? NI ND']; subst.
  destruct A as [A|A], A' as [A'|A'].
  - congruence.
  - injection A as -> ->. exfalso; apply NI. apply (in_map fst) in A'. exact A'.
  - injection A' as -> ->. exfalso; apply NI. apply (in_map fst) in A. exact A.
  - exact (IH ND' A A').
Qed.

(** A request over HTTP is sent with the client of its subgraph: the one its settings describe if they name a certificate, and the
    common one otherwise. *)
Theorem C118_client c schema f id n r now nonce t :
  new_fetcher c schema = Good f -> NoDup schema -> NoDup (map fst (g_subgraphs c)) -> nth_error schema id = Some n ->
  send f Http id r now nonce = Good t ->
  (forall m, OwnTls c n m -> Names m -> Describes m (t_client t)) /\
  ((forall m, OwnTls c n m -> ~ Names m) -> t_client t = {| cl_accept_invalid := false; cl_roots := []; cl_identity := None |}).
Proof.
  intros H NS NC HN HS. unfold Model.new_fetcher in H.
  apply bind_good in H. destruct H as (sg & FSg & H). apply bind_good in H. destruct H as (cs & FC & H).
  injection H as <-. cbn [Model.send f_signer] in HS. apply bind_good in HS. destruct HS as (rs & _ & HS).
  injection HS as <-. cbn [t_client]. unfold client_of; cbn [f_clients].
  apply (to_id_spec schema n id NS) in HN. split.
  - intros m (sc & A & B) Nm.
    destruct (clients_all _ _ _ _ _ _ _ FC A B Nm HN) as (cl & K & _).
    destruct (get cs id) as [cl'|] eqn:G; [|destruct (get_none _ _ G cl K)].
    apply get_in in G. destruct (clients_in _ _ _ _ _ FC G) as (n' & sc' & m' & A' & B' & _ & T' & D).
    assert (n' = n) as ->.
    { apply (to_id_spec schema n' id NS) in T'. apply (to_id_spec schema n id NS) in HN. congruence. }
    rewrite (tls_unique c n m m' NC); [exact D|exists sc; auto|exists sc'; auto].
  - intros X. destruct (get cs id) as [cl'|] eqn:G; [|reflexivity]. exfalso.
    apply get_in in G. destruct (clients_in _ _ _ _ _ FC G) as (n' & sc' & m' & A' & B' & Nm & T' & D).
    assert (n' = n) as ->.
    { apply (to_id_spec schema n' id NS) in T'. apply (to_id_spec schema n id NS) in HN. congruence. }
    apply (X m'); [exists sc'; auto|exact Nm].
Qed.

(** The gateway starts exactly when the keys can be had (C117) and the named certificates of the schema's subgraphs can be read. *)
Theorem C118_starts c schema :
  NoDup schema ->
  ((exists f, new_fetcher c schema = Good f) <->
   (exists sg, new_signer c schema = Good sg) /\
   (forall n m, In n schema -> OwnTls c n m -> Names m -> exists cl, Describes m cl)).
Proof.
  intros NS. split.
  - intros (f & H). unfold Model.new_fetcher in H.
    apply bind_good in H. destruct H as (sg & FSg & H). apply bind_good in H. destruct H as (cs & FC & _).
    split; [exists sg; exact FSg|]. intros n m I_ (sc & A & B) Nm.
    apply In_nth_error in I_. destruct I_ as (id & I_). apply (to_id_spec schema n id NS) in I_.
    destruct (clients_all _ _ _ _ _ _ _ FC A B Nm I_) as (cl & _ & D). exists cl; exact D.
  - intros ((sg & FSg) & HC). unfold Model.new_fetcher. rewrite FSg.
    destruct (clients_good schema (g_subgraphs c)) as (cs & FC).
    { intros n sc m id A B Nm T. apply (HC n m); [|exists sc; auto|exact Nm].
      apply (to_id_spec schema n id NS) in T. exact (nth_error_In _ _ T). }
    cbn [bind]. rewrite FC. eexists; reflexivity.
Qed.

(** Subscriptions aren't sent with the client of their subgraph. *)
Theorem C118_subscriptions f t id r now nonce s :
  t <> Http -> send f t id r now nonce = Good s ->
  t_client s = {| cl_accept_invalid := false; cl_roots := []; cl_identity := None |}.
Proof. intros NT H. destruct t; [congruence| |]; injection H as <-; reflexivity. Qed.

End Clients.
