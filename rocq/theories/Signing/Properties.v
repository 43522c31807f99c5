(** C117: requests to subgraphs are signed as the configuration says. *)
From Coq Require Import List Bool Ascii String PeanoNat NArith Lia.
From Verif.Signing Require Import Model Spec Lemmas.
Import ListNotations.

Section Signing.
Variable read : string -> option string.
Variable b64 : string -> option bytes.
Variable b64url : string -> option bytes.
Variable pem : string -> option (algorithm * bytes).
Variable json : string -> option jwk.
Variable ec : algorithm -> string -> string -> string -> option bytes.
Variable fingerprint : key -> string.
Variable component_ok : string -> bool.
Variable try_new : list component -> bool.
Variable signs : key -> list (component * string) -> bool.
Variable certificate : string -> option string.
Variable bundle : string -> option (list string).
Variable identity : string -> option string.

Notation from_config := (from_config read b64 b64url pem json ec).
Notation subgraph_parameters := (subgraph_parameters read b64 b64url pem json ec).
Notation new_signer := (new_signer read b64 b64url pem json ec).
Notation new_fetcher := (new_fetcher read b64 b64url pem json ec certificate bundle identity).
Notation httpsig_params := (httpsig_params fingerprint component_ok try_new).
Notation sign := (sign fingerprint component_ok try_new signs).
Notation send := (send fingerprint component_ok try_new signs).
Notation SourceKey := (SourceKey read b64 b64url pem json ec).
Notation parse_jwk := (parse_jwk b64url json ec).

(** The settings of a subgraph. *)
Definition settles (c : config) (n : string) (e : sig_config) : Prop :=
  (forall r, Says c n c_enabled r <-> c_enabled e = r) /\
  (forall r, Says c n c_algorithm r <-> c_algorithm e = r) /\
  (forall r, Says c n c_key r <-> c_key e = r) /\
  (forall r, Says c n c_expiry r <-> c_expiry e = r) /\
  (forall r, Says c n c_exclude r <-> c_exclude e = r) /\
  (forall r, Says c n c_derived r <-> c_derived e = r) /\
  (forall r, Says c n c_parameters r <-> c_parameters e = r).

Lemma settles_own c n s :
  NoDup (map fst (g_subgraphs c)) -> OwnSection c n s -> settles c n (merge_config s (g_signatures c)).
Proof.
  intros ND O. do 6 (split; [intros r; apply (says_own_iff c n s _ r ND O)|]).
  intros r; apply (says_own_iff c n s _ r ND O).
Qed.

Lemma settles_none c n : (forall s, ~ OwnSection c n s) -> settles c n (g_signatures c).
Proof.
  intros O. do 6 (split; [intros r; apply (says_none_iff c n _ r O)|]).
  intros r; apply (says_none_iff c n _ r O).
Qed.

Lemma from_config_merge s g : from_config s (Some g) = from_config (merge_config s g) None.
Proof. reflexivity. Qed.

(** The entries of the table of subgraphs. *)
Lemma table_in g schema l : forall subs id p,
  subgraph_parameters g schema l = Good subs -> In (id, p) subs ->
  exists n sc s, In (n, sc) l /\ sc_signatures sc = Some s /\ to_id schema n = Some id /\ from_config s (Some g) = Good p.
Proof.
  induction l as [|[n sc] l IH]; cbn [Model.subgraph_parameters]; intros subs id p H K.
  - injection H as <-. contradiction.
  - destruct (to_id schema n) as [i|] eqn:T; [|destruct (IH _ _ _ H K) as (m & t & s & A & B); exists m, t, s;
      split; [right; exact A|exact B]].
    destruct (sc_signatures sc) as [s|] eqn:Q; [|destruct (IH _ _ _ H K) as (m & t & s & A & B); exists m, t, s;
      split; [right; exact A|exact B]].
    apply bind_good in H. destruct H as (p0 & F & H). apply bind_good in H. destruct H as (rest & R & H).
    injection H as <-. destruct K as [K|K].
    + injection K as -> ->. exists n, sc, s. split; [left; reflexivity|auto].
    + destruct (IH _ _ _ R K) as (m & t & s' & A & B). exists m, t, s'. split; [right; exact A|exact B].
Qed.

Lemma table_all g schema l : forall subs n sc s id,
  subgraph_parameters g schema l = Good subs -> In (n, sc) l -> sc_signatures sc = Some s -> to_id schema n = Some id ->
  exists p, In (id, p) subs /\ from_config s (Some g) = Good p.
Proof.
  induction l as [|[m t] l IH]; cbn [Model.subgraph_parameters]; intros subs n sc s id H K Q T; [contradiction|].
  destruct K as [K|K].
  - injection K as -> ->. rewrite T, Q in H.
    apply bind_good in H. destruct H as (p0 & F & H). apply bind_good in H. destruct H as (rest & R & H).
    injection H as <-. exists p0. split; [left; reflexivity|exact F].
  - destruct (to_id schema m) as [i|] eqn:T'; [|exact (IH _ _ _ _ _ H K Q T)].
    destruct (sc_signatures t) as [s'|] eqn:Q'; [|exact (IH _ _ _ _ _ H K Q T)].
    apply bind_good in H. destruct H as (p0 & F & H). apply bind_good in H. destruct H as (rest & R & H).
    injection H as <-. destruct (IH _ _ _ _ _ R K Q T) as (p & A & B). exists p; split; [right; exact A|exact B].
Qed.

Lemma table_good g schema l :
  (forall n sc s id, In (n, sc) l -> sc_signatures sc = Some s -> to_id schema n = Some id ->
                     exists p, from_config s (Some g) = Good p) ->
  exists subs, subgraph_parameters g schema l = Good subs.
Proof.
  induction l as [|[n sc] l IH]; cbn [Model.subgraph_parameters]; intros H; [exists []; reflexivity|].
  destruct IH as (subs & IH). { intros m t s id K; apply (H m t s id); right; exact K. }
  destruct (to_id schema n) as [i|] eqn:T; [|exists subs; exact IH].
  destruct (sc_signatures sc) as [s|] eqn:Q; [|exists subs; exact IH].
  destruct (H n sc s i) as (p & F); [left; reflexivity|exact Q|exact T|].
  rewrite F, IH. exists ((i, p) :: subs). reflexivity.
Qed.

Lemma parameters_spec c schema sg id n :
  new_signer c schema = Good sg -> NoDup schema -> NoDup (map fst (g_subgraphs c)) -> nth_error schema id = Some n ->
  exists e, settles c n e /\ from_config e None = Good (parameters_of sg id).
Proof.
  intros H NS NC HN. unfold Model.new_signer in H.
  apply bind_good in H. destruct H as (dflt & FD & H). apply bind_good in H. destruct H as (subs & FS & H).
  injection H as <-. unfold parameters_of; cbn.
  apply (to_id_spec schema n id NS) in HN.
  destruct (get subs id) as [p|] eqn:G.
  - apply get_in in G. destruct (table_in _ _ _ _ _ _ FS G) as (m & sc & s & A & B & T & F).
    assert (m = n) as ->.
    { apply (to_id_spec schema m id NS) in T. apply (to_id_spec schema n id NS) in HN. congruence. }
    exists (merge_config s (g_signatures c)). split; [|rewrite <- from_config_merge; exact F].
    apply settles_own; [exact NC|]. exists sc; auto.
  - exists (g_signatures c). split; [|exact FD].
    apply settles_none. intros s (sc & A & B).
    destruct (table_all _ _ _ _ _ _ _ _ FS A B HN) as (p & K & _). exact (get_none _ _ G p K).
Qed.

(** What is loaded of settled settings. *)
Lemma from_config_spec e o :
  from_config e None = Good o <->
  (c_enabled e <> Some true /\ o = None) \/
  (c_enabled e = Some true /\ exists src key, c_key e = Some src /\ SourceKey (c_algorithm e) src key /\
   o = Some {| g_key := key; g_key_id := source_id src; g_expiry := c_expiry e; g_include := c_include e;
               g_exclude := or_default [] (c_exclude e) ++ hop_by_hop;
               g_derived := or_default [RequestTarget] (c_derived e);
               g_parameters := or_default [] (c_parameters e) |}).
Proof.
  unfold Model.from_config. destruct (c_enabled e) as [[|]|]; cbn.
  - split.
    + intros H. right. split; [reflexivity|]. destruct (c_key e) as [src|]; [|discriminate].
      apply bind_good in H. destruct H as (key & A & B). apply load_spec in A. injection B as <-.
      exists src, key; auto.
    + intros [(H & _)|(_ & src & key & A & B & ->)]; [congruence|]. rewrite A. apply load_spec in B. rewrite B. reflexivity.
  - split; [intros H; injection H as <-; left; split; [discriminate|reflexivity]|].
    intros [(_ & ->)|(H & _)]; [reflexivity|discriminate].
  - split; [intros H; injection H as <-; left; split; [discriminate|reflexivity]|].
    intros [(_ & ->)|(H & _)]; [reflexivity|discriminate].
Qed.

(** ** Starting *)

(** The key of a subgraph can be had. *)
Definition HasKey (c : config) (n : string) : Prop :=
  exists src want key, Says c n c_key (Some src) /\ Says c n c_algorithm want /\ SourceKey want src key.

(** The gateway starts exactly when every key that is needed can be had: the gateway's own if it signs, and that of every
    subgraph of the schema with its own section that says, or inherits, that it signs.  Sections of subgraphs that the schema
    doesn't have are ignored. *)
Theorem C117_starts c schema :
  NoDup schema -> NoDup (map fst (g_subgraphs c)) ->
  ((exists sg, new_signer c schema = Good sg) <->
   (c_enabled (g_signatures c) = Some true -> exists src key,
      c_key (g_signatures c) = Some src /\ SourceKey (c_algorithm (g_signatures c)) src key) /\
   (forall n s, In n schema -> OwnSection c n s -> Enabled c n -> HasKey c n)).
Proof.
  intros NS NC. split.
  - intros (sg & H). unfold Model.new_signer in H.
    apply bind_good in H. destruct H as (dflt & FD & H). apply bind_good in H. destruct H as (subs & FS & _).
    split.
    + intros En. apply from_config_spec in FD. destruct FD as [(X & _)|(_ & src & key & A & B & _)]; [contradiction|].
      exists src, key; auto.
    + intros n s I_ O En. pose proof O as (sc & A & B).
      apply In_nth_error in I_. destruct I_ as (id & I_). apply (to_id_spec schema n id NS) in I_.
      destruct (table_all _ _ _ _ _ _ _ _ FS A B I_) as (p & _ & F). rewrite from_config_merge in F.
      destruct (settles_own c n s NC O) as (S1 & S2 & S3 & _).
      apply from_config_spec in F. apply S1 in En.
      destruct F as [(X & _)|(_ & src & key & C & D & _)]; [contradiction|].
      exists src, (c_algorithm (merge_config s (g_signatures c))), key.
      split; [apply S3; exact C|]. split; [apply S2; reflexivity|exact D].
  - intros (HG & HS). unfold Model.new_signer.
    assert (FD : exists dflt, from_config (g_signatures c) None = Good dflt).
    { destruct (c_enabled (g_signatures c)) as [[|]|] eqn:En.
      - destruct (HG eq_refl) as (src & key & A & B). eexists. apply from_config_spec. right.
        split; [exact En|]. exists src, key. split; [exact A|]. split; [exact B|reflexivity].
      - exists None. apply from_config_spec. left. split; [congruence|reflexivity].
      - exists None. apply from_config_spec. left. split; [congruence|reflexivity]. }
    destruct FD as (dflt & FD). rewrite FD.
    destruct (table_good (g_signatures c) schema (g_subgraphs c)) as (subs & FS).
    { intros n sc s id A B T. assert (O : OwnSection c n s) by (exists sc; auto).
      destruct (settles_own c n s NC O) as (S1 & S2 & S3 & _).
      apply (to_id_spec schema n id NS) in T. apply nth_error_In in T. rewrite from_config_merge.
      destruct (c_enabled (merge_config s (g_signatures c))) as [[|]|] eqn:En.
      - destruct (HS n s T O) as (src & want & key & K1 & K2 & K3); [apply S1; reflexivity|].
        apply S3 in K1. apply S2 in K2. eexists. apply from_config_spec. right.
        split; [exact En|]. exists src, key. split; [exact K1|]. split; [rewrite K2; exact K3|reflexivity].
      - exists None. apply from_config_spec. left. split; [congruence|reflexivity].
      - exists None. apply from_config_spec. left. split; [congruence|reflexivity]. }
    cbn. rewrite FS. eexists; reflexivity.
Qed.

(** A key that is loaded is one for the configured algorithm; an inline key is always a shared one. *)
Theorem C117_key src want key :
  load_from read b64 b64url pem json ec src want = Good key <-> SourceKey want src key.
Proof. apply load_spec. Qed.

Theorem C117_algorithm src want key a :
  load_from read b64 b64url pem json ec src want = Good key -> want = Some a -> KeyFor a key.
Proof. intros H. apply load_spec in H. exact (source_key_alg _ _ _ _ _ _ src want key a H). Qed.

(** The only key that makes the gateway panic is an Ed25519 web key, whose parts are of 64 bytes together, and not of 32 each. *)
Theorem C117_panics src want :
  load_from read b64 b64url pem json ec src want = Panic <->
  exists name id data j d_ x_ private public,
    src = File name id /\ read name = Some data /\ JsonText data /\ json data = Some j /\
    kty j = "OKP"%string /\ crv j = Some "Ed25519"%string /\ d j = Some d_ /\ x j = Some x_ /\
    b64url d_ = Some private /\ b64url x_ = Some public /\
    List.length private <> 32 /\ List.length private + List.length public = 64.
Proof.
  assert (OK : forall {A} e (o : option A), ok_or e o <> (Panic : outcome error A)) by (intros A e []; discriminate).
  assert (BP : forall {A B} (o : outcome error A) (f : A -> outcome error B),
    bind o f = Panic -> o = Panic \/ exists a, o = Good a /\ f a = Panic).
  { intros A B [a| |] f H; cbn in H; [right; exists a; auto|discriminate|left; reflexivity]. }
  split.
  - destruct src as [name id|text id]; cbn [Model.load_from]; intros H.
    + unfold from_file in H. apply BP in H. destruct H as [H|(data & R & H)]; [destruct (OK _ _ _ H)|].
      apply ok_or_good in R. apply BP in H. destruct H as [H|(key & F & H)].
      2:{ destruct key as [[]|]; destruct want as [[]|]; discriminate. }
      destruct (looks_like_json data) eqn:J.
      2:{ exfalso. destruct want as [[]|]; apply BP in H; destruct H as [H|(a & _ & H)];
          first [destruct (OK _ _ _ H)|discriminate]. }
      apply json_spec in J. unfold Model.parse_jwk in H.
      destruct (json data) as [j|] eqn:Jd; [|discriminate].
      assert (NEC : forall a, bind (validate_private_key j)
        (fun _ => bind (ec_key_from_jwk ec a j) (fun m => Good (Secret a m (kid j)))) <> Panic).
      { intros a K. apply BP in K. destruct K as [K|(z & _ & K)]; [destruct (OK _ _ _ K)|].
        apply BP in K. destruct K as [K|(m & _ & K)]; [|discriminate].
        unfold ec_key_from_jwk in K.
        repeat (apply BP in K; destruct K as [K|(? & _ & K)]; [destruct (OK _ _ _ K)|]). destruct (OK _ _ _ K). }
      destruct (String.eqb (kty j) "EC").
      { exfalso. destruct (crv j) as [c|]; [|discriminate].
        destruct (String.eqb c "P-256"); [exact (NEC _ H)|]. destruct (String.eqb c "P-384"); [exact (NEC _ H)|discriminate]. }
      destruct (String.eqb_spec (kty j) "OKP") as [T|].
      { destruct (crv j) as [c|] eqn:Cr; [|discriminate]. destruct (String.eqb_spec c "Ed25519") as [->|]; [|discriminate].
        apply ed_panic in H. destruct H as (d_ & x_ & p & u & H).
        exists name, id, data, j, d_, x_, p, u. auto 10. }
      exfalso. destruct (String.eqb (kty j) "oct"); [|discriminate].
      destruct (alg j) as [a|]; [|discriminate]. destruct (String.eqb a "HS256"); [|discriminate].
      destruct (Model.k j) as [k_|]; [|discriminate]. destruct (b64url k_); discriminate.
    + exfalso. unfold from_string in H. destruct want as [[]|]; try discriminate;
        apply BP in H; destruct H as [H|(a & _ & H)]; first [destruct (OK _ _ _ H)|discriminate].
  - intros (name & id & data & j & d_ & x_ & p & u & -> & R & J & Jd & T & Cr & D & X & P & U & Lp & Lt).
    cbn [Model.load_from]. unfold from_file. rewrite R. cbn [bind ok_or].
    apply json_spec in J. rewrite J. unfold Model.parse_jwk. rewrite Jd, T, Cr. cbn [String.eqb].
    assert (E : parse_ed25519 b64url j = Panic) by (apply ed_panic; exists d_, x_, p, u; auto 10).
    change (String.eqb "OKP" "EC") with false. change (String.eqb "OKP" "OKP") with true.
    change (String.eqb "Ed25519" "Ed25519") with true. cbv iota. rewrite E. reflexivity.
Qed.

(** ** Signing *)

Lemma mem_spec s l : mem s l = true <-> In s l.
Proof.
  unfold mem. rewrite existsb_exists. split.
  - intros (y & A & B). apply String.eqb_eq in B. congruence.
  - intros H. exists s. split; [exact H|apply String.eqb_refl].
Qed.

Lemma hop_spec h : In h hop_by_hop <-> HopByHop h.
Proof.
  unfold hop_by_hop, HopByHop. cbn [In]. split; intros H.
  - repeat (destruct H as [H|H]; [symmetry in H; tauto|]). contradiction.
  - repeat (destruct H as [H|H]; [symmetry in H; tauto|]). symmetry in H. tauto.
Qed.

Lemma include_spec p h : should_include_header p h = negb (mem h (g_exclude p)).
Proof.
  unfold should_include_header. destruct (mem h (g_exclude p)); [reflexivity|].
  destruct (g_include p) as [l|]; [destruct (mem h l); reflexivity|reflexivity].
Qed.

Lemma covers_spec p (skip : string -> Prop) headers :
  (forall h, In h (g_exclude p) <-> skip h) ->
  Covers skip headers (map fst (filter (fun e => should_include_header p (fst e)) headers)).
Proof.
  intros H. induction headers as [|[h v] l IH]; [constructor|]. cbn [filter fst]. rewrite include_spec.
  destruct (mem h (g_exclude p)) eqn:Q; cbn [negb map fst].
  - apply covers_skip; [|exact IH]. apply H. apply mem_spec. exact Q.
  - apply covers_keep; [|exact IH]. intros K. apply H in K. apply mem_spec in K. congruence.
Qed.

Lemma covers_unique skip headers a b : Covers skip headers a -> Covers skip headers b -> a = b.
Proof.
  intros A; revert b; induction A as [|h v l ns N1 _ IH|h v l ns N1 _ IH]; intros b B.
  - inversion B; reflexivity.
  - inversion B as [|? ? ? ns' N2 C|? ? ? ns' N2 C]; subst; [f_equal; auto|contradiction].
  - inversion B as [|? ? ? ns' N2 C|? ? ? ns' N2 C]; subst; [contradiction|auto].
Qed.

Lemma excluded_spec c n e h :
  settles c n e -> (In h (or_default [] (c_exclude e) ++ hop_by_hop) <-> Excluded c n h).
Proof.
  intros (_ & _ & _ & _ & S5 & _). unfold Excluded. rewrite in_app_iff, hop_spec. split.
  - intros [H|H]; [|left; exact H]. right. destruct (c_exclude e) as [l|] eqn:Q; [|contradiction].
    exists l. split; [apply S5; reflexivity|exact H].
  - intros [H|(l & A & B)]; [right; exact H|left]. apply S5 in A. rewrite A. exact B.
Qed.

Lemma derived_spec c n e l : settles c n e -> (DerivedFor c n l <-> or_default [RequestTarget] (c_derived e) = l).
Proof.
  intros (_ & _ & _ & _ & _ & S6 & _). unfold DerivedFor. rewrite !S6. destruct (c_derived e) as [m|]; cbn.
  - split; [intros [H|(H & _)]; congruence|intros ->; left; reflexivity].
  - split; [intros [H|(_ & ->)]; [discriminate|reflexivity]|intros <-; right; auto].
Qed.

(** What the signature of a request is to be. *)
Definition SignatureFor (c : config) (n : string) (r : request) (now : N) (nonce : string) (sg : signature) : Prop :=
  exists src want hs ds expiry ps,
    Says c n c_key (Some src) /\ Says c n c_algorithm want /\ SourceKey want src (s_key sg) /\
    Covers (Excluded c n) (r_headers r) hs /\ DerivedFor c n ds /\
    p_components (s_params sg) = map Header hs ++ map Derived ds /\
    s_base sg = map (fun x => (x, component_value r x)) (map Header hs ++ map Derived ds) /\
    KeyFor (p_alg (s_params sg)) (s_key sg) /\
    Announces fingerprint (source_id src) (s_key sg) (p_keyid (s_params sg)) /\
    p_created (s_params sg) = now /\
    Says c n c_expiry expiry /\
    (match expiry with
     | None => p_expires (s_params sg) = None
     | Some ms => exists s, p_expires (s_params sg) = Some (now + s)%N /\ (s * 1000 <= ms < (s + 1) * 1000)%N
     end) /\
    Says c n c_parameters ps /\
    (p_nonce (s_params sg) = Some nonce <-> exists l, ps = Some l /\ In Nonce l) /\
    (p_nonce (s_params sg) <> Some nonce -> p_nonce (s_params sg) = None).

Lemma seconds_spec (ms : N) : (ms / 1000 * 1000 <= ms < (ms / 1000 + 1) * 1000)%N.
Proof.
  assert (Z1 : (1000 <> 0)%N) by discriminate.
  pose proof (N.div_mod ms 1000 Z1) as D. pose proof (N.mod_lt ms 1000 Z1) as M.
  set (q := (ms / 1000)%N) in *. set (m := (ms mod 1000)%N) in *. clearbody q m. lia.
Qed.

Lemma params_good p headers now nonce ps :
  httpsig_params p headers now nonce = Good ps ->
  let hs := map fst (filter (fun e => should_include_header p (fst e)) headers) in
  forallb component_ok hs = true /\ try_new (map Header hs ++ map Derived (g_derived p)) = true /\
  ps = {|
    p_components := map Header hs ++ map Derived (g_derived p);
    p_created := now;
    p_expires := match g_expiry p with Some ms => Some (now + ms / 1000)%N | None => None end;
    p_nonce := match g_parameters p with [] => None | _ => Some nonce end;
    p_keyid := match g_key_id p with Some id => Some id
               | None => match g_key p with Shared _ None => None | key => Some (key_id fingerprint key) end end;
    p_alg := key_alg (g_key p) |}.
Proof.
  unfold Model.httpsig_params. destruct (forallb component_ok _) eqn:A; [|discriminate].
  destruct (try_new _) eqn:B; [|discriminate]. intros H. injection H as <-. auto.
Qed.

(** A request over HTTP is sent as it is, with a signature exactly when the configuration says so, and the signature is the one
    that is configured: its key, its algorithm, the headers and parts of the request it covers, and its parameters. *)
Theorem C117_signed c schema f id n r now nonce t :
  new_fetcher c schema = Good f -> NoDup schema -> NoDup (map fst (g_subgraphs c)) -> nth_error schema id = Some n ->
  send f Http id r now nonce = Good t ->
  t_request t = r /\
  ((~ Enabled c n /\ t_signature t = None) \/
   (Enabled c n /\ exists sg, t_signature t = Some sg /\ SignatureFor c n r now nonce sg)).
Proof.
  intros H NS NC HN HS. unfold Model.new_fetcher in H.
  apply bind_good in H. destruct H as (sg & FSg & H). apply bind_good in H. destruct H as (cs & FC & H).
  injection H as <-. cbn [Model.send f_signer] in HS.
  destruct (parameters_spec c schema sg id n FSg NS NC HN) as (e & SE & FE).
  apply bind_good in HS. destruct HS as ((r' & so) & HS & HT). injection HT as <-. cbn [t_request t_signature fst snd].
  unfold Model.sign in HS. destruct SE as (S1 & S2 & S3 & S4 & S5 & S6 & S7).
  assert (SE : settles c n e) by (unfold settles; auto 10).
  apply from_config_spec in FE. destruct FE as [(En & E)|(En & src & key & K1 & K2 & E)]; rewrite E in HS.
  - injection HS as <- <-. split; [reflexivity|]. left. split; [|reflexivity]. intros K. apply S1 in K. contradiction.
  - apply bind_good in HS. destruct HS as (ps & HP & HS).
    destruct (signs _ _); [|discriminate]. injection HS as <- <-. split; [reflexivity|]. right.
    split; [apply S1; exact En|]. eexists. split; [reflexivity|].
    apply params_good in HP. cbn [g_key g_key_id g_expiry g_exclude g_derived g_parameters] in HP.
    destruct HP as (_ & _ & EP).
    set (p := {| g_key := key; g_key_id := _; g_expiry := _; g_include := _; g_exclude := _; g_derived := _;
                 g_parameters := _ |}) in EP.
    exists src, (c_algorithm e), (map fst (filter (fun e => should_include_header p (fst e)) (r_headers r))),
      (or_default [RequestTarget] (c_derived e)), (c_expiry e), (c_parameters e).
    cbn [s_key s_params s_base g_key]. rewrite EP. cbn [p_components p_created p_expires p_nonce p_keyid p_alg].
    split; [apply S3; exact K1|]. split; [apply S2; reflexivity|]. split; [exact K2|].
    split. { apply covers_spec. intros h. apply (excluded_spec c n e h SE). }
    split. { apply (derived_spec c n e _ SE). reflexivity. }
    split; [reflexivity|]. split; [reflexivity|].
    split. { destruct key; reflexivity. }
    split; [clear; destruct (source_id src); [constructor|]; destruct key as [a m [i|]|m [i|]]; cbn [key_id]; constructor|]. split; [reflexivity|].
    split; [apply S4; reflexivity|].
    split.
    { destruct (c_expiry e) as [ms|]; [|reflexivity]. exists (ms / 1000)%N. split; [reflexivity|].
      apply seconds_spec. }
    split; [apply S7; reflexivity|].
    destruct (c_parameters e) as [[|[] l]|]; cbn.
    + split; [split; [discriminate|intros (l & A & B); injection A as <-; contradiction]|auto].
    + split; [split; [intros _; exists (Nonce :: l); split; [reflexivity|left; reflexivity]|auto]|congruence].
    + split; [split; [discriminate|intros (l & A & _); discriminate]|auto].
Qed.

(** A request isn't sent only if the parts it would sign aren't accepted or can't be signed. *)
Theorem C117_fails c schema f id n r now nonce e :
  new_fetcher c schema = Good f -> NoDup schema -> NoDup (map fst (g_subgraphs c)) -> nth_error schema id = Some n ->
  send f Http id r now nonce = Bad e ->
  Enabled c n /\ exists hs ds key, Covers (Excluded c n) (r_headers r) hs /\ DerivedFor c n ds /\
    ((e = BadComponents /\ exists h, In h hs /\ component_ok h = false) \/
     (e = BadComponents /\ try_new (map Header hs ++ map Derived ds) = false) \/
     (e = CannotSign /\
      signs key (map (fun x => (x, component_value r x)) (map Header hs ++ map Derived ds)) = false)).
Proof.
  intros H NS NC HN HS. unfold Model.new_fetcher in H.
  apply bind_good in H. destruct H as (sg & FSg & H). apply bind_good in H. destruct H as (cs & FC & H).
  injection H as <-. cbn [Model.send f_signer] in HS.
  destruct (parameters_spec c schema sg id n FSg NS NC HN) as (cf & SE & FE).
  unfold Model.sign in HS. pose proof SE as (S1 & _).
  apply from_config_spec in FE. destruct FE as [(En & E)|(En & src & key & K1 & K2 & E)]; rewrite E in HS.
  - discriminate.
  - split; [apply S1; exact En|].
    set (p := {| g_key := key; g_key_id := _; g_expiry := _; g_include := _; g_exclude := _; g_derived := _;
                 g_parameters := _ |}) in HS.
    exists (map fst (filter (fun e => should_include_header p (fst e)) (r_headers r))),
      (or_default [RequestTarget] (c_derived cf)), key.
    split. { apply covers_spec. intros h. apply (excluded_spec c n cf h SE). }
    split. { apply (derived_spec c n cf _ SE). reflexivity. }
    destruct (httpsig_params p (r_headers r) now nonce) as [ps|e'|] eqn:HP.
    + apply params_good in HP. destruct HP as (_ & _ & EP). cbn [bind] in HS.
      right; right. destruct (signs (g_key p) _) eqn:Q; [discriminate|]. injection HS as <-. split; [reflexivity|].
      rewrite EP in Q. exact Q.
    + injection HS as <-. unfold Model.httpsig_params in HP.
      destruct (forallb component_ok _) eqn:A; cbn [negb] in HP.
      * right; left. destruct (try_new _) eqn:B in HP; [discriminate|]. injection HP as <-. split; [reflexivity|exact B].
      * left. injection HP as <-. split; [reflexivity|].
        clear -A. induction (map fst _) as [|h l IH]; [discriminate|]. cbn in A. apply andb_false_iff in A.
        destruct A as [A|A]; [exists h; split; [left; reflexivity|exact A]|].
        destruct (IH A) as (h' & I_ & K). exists h'. split; [right; exact I_|exact K].
    + unfold Model.httpsig_params in HP. destruct (negb _); [discriminate|]. destruct (negb _); discriminate.
Qed.

(** Sending never panics. *)
Theorem C117_no_panic f t id r now nonce : send f t id r now nonce <> Panic.
Proof.
  destruct t; try discriminate. cbn [Model.send]. unfold Model.sign.
  destruct (parameters_of _ _) as [p|]; [|discriminate].
  unfold Model.httpsig_params. destruct (negb _); [discriminate|]. destruct (negb _); [discriminate|]. cbn [bind].
  destruct (signs _ _); discriminate.
Qed.

Lemma nodup_app_l {A} (a b : list A) : NoDup (a ++ b) -> NoDup a.
Proof.
  induction a as [|x a IH]; cbn; intros H; [constructor|]. inversion H as [|? ? NI ND]; subst. constructor; [|auto].
  intros K. apply NI. apply in_app_iff. left; exact K.
Qed.

Lemma several_dup p h (v w : string) l1 l2 l3 ds :
  should_include_header p h = true ->
  ~ NoDup (map Header (map fst (filter (fun e => should_include_header p (fst e)) (l1 ++ (h, v) :: l2 ++ (h, w) :: l3)))
           ++ ds).
Proof.
  intros HI D. apply nodup_app_l in D. rewrite filter_app in D. cbn [filter fst] in D. rewrite HI in D.
  rewrite filter_app in D. cbn [filter fst] in D. rewrite HI in D. rewrite !map_app in D. cbn [map fst] in D.
  rewrite !map_app in D. cbn [map fst] in D.
  apply NoDup_remove_2 in D. apply D. rewrite !in_app_iff. right; right; left; reflexivity.
Qed.

(** A header with several values is a component several times: where components must be distinct (RFC 9421, section 2.5), the
    request isn't sent, unless the header is excluded. *)
Theorem C117_several_values c schema f id n r now nonce h v w l1 l2 l3 :
  (forall l, ~ NoDup l -> try_new l = false) ->
  new_fetcher c schema = Good f -> NoDup schema -> NoDup (map fst (g_subgraphs c)) -> nth_error schema id = Some n ->
  Enabled c n -> r_headers r = l1 ++ (h, v) :: l2 ++ (h, w) :: l3 -> ~ Excluded c n h ->
  send f Http id r now nonce = Bad BadComponents.
Proof.
  intros TN H NS NC HN En HR NX. cbn [Model.send]. unfold Model.sign.
  unfold Model.new_fetcher in H. apply bind_good in H. destruct H as (sg & FSg & H).
  apply bind_good in H. destruct H as (cs & FC & H). injection H as <-. cbn [f_signer].
  destruct (parameters_spec c schema sg id n FSg NS NC HN) as (cf & SE & FE). pose proof SE as (S1 & _).
  apply from_config_spec in FE. destruct FE as [(NE & _)|(_ & src & key' & _ & _ & E)].
  { apply S1 in En. contradiction. }
  rewrite E.
  set (p := {| g_key := key'; g_key_id := _; g_expiry := _; g_include := _; g_exclude := _; g_derived := _;
               g_parameters := _ |}).
  assert (HI : should_include_header p h = true).
  { rewrite include_spec. destruct (mem h (g_exclude p)) eqn:M; [|reflexivity]. exfalso. apply NX.
    apply (excluded_spec c n cf h SE). apply mem_spec in M. exact M. }
  unfold Model.httpsig_params. destruct (negb (forallb _ _)); [reflexivity|].
  rewrite TN; [reflexivity|]. rewrite HR. apply several_dup. exact HI.
Qed.

(** ** What a signature doesn't protect *)

(** The same request with another body has the same signature. *)
Theorem C117_body f id r r' now nonce t :
  r_method r' = r_method r -> r_scheme r' = r_scheme r -> r_authority r' = r_authority r -> r_path r' = r_path r ->
  r_query r' = r_query r -> r_headers r' = r_headers r ->
  send f Http id r now nonce = Good t ->
  exists t', send f Http id r' now nonce = Good t' /\ t_signature t' = t_signature t.
Proof.
  intros E1 E2 E3 E4 E5 E6 H. cbn [Model.send] in *. unfold Model.sign in *. rewrite E6.
  destruct (parameters_of (f_signer f) id) as [p|].
  - apply bind_good in H. destruct H as ((r1 & s1) & H & HT). apply bind_good in H. destruct H as (ps & HP & H).
    rewrite HP. cbn [bind].
    assert (EB : map (fun x => (x, component_value r' x)) (p_components ps) =
                 map (fun x => (x, component_value r x)) (p_components ps)).
    { apply map_ext. intros [h|[]]; cbn; rewrite ?E1, ?E2, ?E3, ?E4, ?E5, ?E6; reflexivity. }
    rewrite EB. destruct (signs _ _); [|discriminate]. injection H as <- <-. injection HT as <-.
    eexists; split; reflexivity.
  - apply bind_good in H. destruct H as ((r1 & s1) & H & HT). injection H as <- <-. injection HT as <-.
    eexists; split; reflexivity.
Qed.

(** Without configured derived components, the same request to another host, by another scheme or with another method has the same
    signature. *)
Theorem C117_host c schema f id n r r' now nonce t :
  new_fetcher c schema = Good f -> NoDup schema -> NoDup (map fst (g_subgraphs c)) -> nth_error schema id = Some n ->
  Says c n c_derived None ->
  r_path r' = r_path r -> r_query r' = r_query r -> r_headers r' = r_headers r ->
  send f Http id r now nonce = Good t ->
  exists t', send f Http id r' now nonce = Good t' /\ t_signature t' = t_signature t.
Proof.
  intros H NS NC HN SD E4 E5 E6 HS.
  unfold Model.new_fetcher in H. apply bind_good in H. destruct H as (sg & FSg & H).
  apply bind_good in H. destruct H as (cs & FC & H). injection H as <-. cbn [Model.send f_signer] in *.
  destruct (parameters_spec c schema sg id n FSg NS NC HN) as (cf & SE & FE).
  unfold Model.sign in *. rewrite E6. pose proof SE as (_ & _ & _ & _ & _ & S6 & _). apply S6 in SD.
  apply from_config_spec in FE. destruct FE as [(_ & E)|(_ & src & key' & _ & _ & E)]; rewrite E in *.
  - apply bind_good in HS. destruct HS as ((r1 & s1) & HS & HT). injection HS as <- <-. injection HT as <-.
    eexists; split; reflexivity.
  - apply bind_good in HS. destruct HS as ((r1 & s1) & HS & HT). apply bind_good in HS. destruct HS as (ps & HP & HS).
    rewrite HP. cbn [bind].
    apply params_good in HP. destruct HP as (_ & _ & EP). cbn [g_derived] in EP. rewrite SD in EP. cbn [or_default] in EP.
    assert (EB : map (fun x => (x, component_value r' x)) (p_components ps) =
                 map (fun x => (x, component_value r x)) (p_components ps)).
    { rewrite EP. cbn [p_components]. rewrite !map_app. f_equal.
      - rewrite !map_map. apply map_ext. intros h. cbn. rewrite E6. reflexivity.
      - cbn. rewrite E4, E5. reflexivity. }
    rewrite EB. destruct (signs _ _); [|discriminate]. injection HS as <- <-. injection HT as <-.
    eexists; split; reflexivity.
Qed.

(** Subscriptions are never signed. *)
Theorem C117_subscriptions f t id r now nonce s :
  t <> Http -> send f t id r now nonce = Good s -> t_signature s = None /\ t_request s = r.
Proof. intros NT H. destruct t; [congruence| |]; injection H as <-; auto. Qed.

End Signing.

(** The configured key is a file or a text, not both and not none. *)
Theorem C117_source file inline id :
  match read_source file inline id with
  | Some (File n i) => file = Some n /\ inline = None /\ i = id
  | Some (Inline t i) => inline = Some t /\ file = None /\ i = id
  | None => (file = None <-> inline = None)
  end.
Proof. destruct file, inline; cbn; auto; split; congruence. Qed.
