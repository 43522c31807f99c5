(** C124: pages of other origins can do what the configuration permits. *)
From Coq Require Import List Bool Ascii String NArith Lia.
From Verif.Cors Require Import Model Spec.
Import ListNotations.
Open Scope string_scope.
Open Scope list_scope.

Lemma existsb_in : forall s l, existsb (String.eqb s) l = true <-> In s l.
Proof.
  intros s l. rewrite existsb_exists. split.
  - intros (x & H & E). apply String.eqb_eq in E. subst x. exact H.
  - intros H. exists s. split; [exact H|apply String.eqb_refl].
Qed.

Lemma existsb_char : forall c l, existsb (Ascii.eqb c) l = true <-> In c l.
Proof.
  intros s l. rewrite existsb_exists. split.
  - intros (x & H & E). apply Ascii.eqb_eq in E. subst x. exact H.
  - intros H. exists s. split; [exact H|apply Ascii.eqb_refl].
Qed.

Lemma has_wild_spec : forall s, has_wild s = true <-> Wild s.
Proof.
  induction s as [|c s IH]; cbn [has_wild].
  - split; [discriminate|]. intros (a & c & b & E & _). destruct a; discriminate.
  - rewrite orb_true_iff, existsb_char, IH. split.
    + intros [H|(a & d & b & -> & H)]; [exists "", c, s; split; [reflexivity|exact H]|].
      exists (String c a), d, b. split; [reflexivity|exact H].
    + intros (a & d & b & E & H). destruct a as [|x a]; cbn [String.append] in E; injection E as <- ->; [left; exact H|].
      right. exists a, d, b. split; [reflexivity|exact H].
Qed.

Lemma has_wild_false : forall s, has_wild s = false <-> ~ Wild s.
Proof. intros s. rewrite <- has_wild_spec, not_true_iff_false. reflexivity. Qed.

Section Globs.
Variable glob : string -> string -> bool.

(** Which origins are answered with what. *)
Lemma origins_answer : forall l o, origins_of glob (Some (Explicit l)) = Some o ->
  forall s v, answer_origin o s = Some v <-> s = Some v /\ Listed glob l v.
Proof.
  intros l o E s v.
  assert (Lst : forall x, Listed glob l x <->
    existsb (String.eqb x) (filter (fun s => negb (has_wild s)) (map u_origin l)) ||
    existsb (fun g => glob g x) (filter has_wild (map u_origin l)) = true).
  { intros x. rewrite orb_true_iff, existsb_in, existsb_exists, filter_In, in_map_iff. split.
    - intros (u & Hu & [[W <-]|[W G]]).
      + left. split; [exists u; split; [reflexivity|exact Hu]|]. apply has_wild_false in W. rewrite W. reflexivity.
      + right. exists (u_origin u). split; [|exact G]. rewrite filter_In. split; [apply in_map, Hu|apply has_wild_spec, W].
    - intros [((u & <- & Hu) & W)|(g & Hg & G)].
      + exists u. split; [exact Hu|]. left. split; [|reflexivity]. apply has_wild_false. destruct (has_wild (u_origin u)); [discriminate|reflexivity].
      + apply filter_In in Hg. destruct Hg as [Hg W]. apply in_map_iff in Hg. destruct Hg as (u & <- & Hu). exists u. split; [exact Hu|].
        right. split; [apply has_wild_spec, W|exact G]. }
  assert (G : forall f, (forall x, f x = true <-> Listed glob l x) ->
    (match s with Some s => if f s then Some s else None | None => None end = Some v <-> s = Some v /\ Listed glob l v)).
  { intros f F. destruct s as [s|]; [|split; [discriminate|intros [H _]; discriminate]].
    destruct (f s) eqn:Fs.
    - split; [intros H; injection H as <-; split; [reflexivity|apply F, Fs]|intros [H _]; exact H].
    - split; [discriminate|]. intros [H L]. injection H as ->. apply F in L. congruence. }
  cbn [origins_of] in E. cbv zeta in E.
  destruct (filter has_wild (map u_origin l)) as [|g gs] eqn:Eg.
  - destruct (existsb (String.eqb "*") _); [discriminate|]. injection E as <-. cbn [answer_origin].
    apply (G (fun x => existsb (String.eqb x) (filter (fun s => negb (has_wild s)) (map u_origin l)))).
    intros x. rewrite Lst. cbn [existsb]. rewrite orb_false_r. reflexivity.
  - destruct (filter (fun s => negb (has_wild s)) (map u_origin l)) as [|c cs] eqn:Ec; injection E as <-; cbn [answer_origin];
      apply G; intros x; rewrite Lst; reflexivity.
Qed.

Lemma listed_no_star : forall l, existsb (String.eqb "*") (filter (fun s => negb (has_wild s)) (map u_origin l)) = false.
Proof.
  intros l. apply not_true_iff_false. rewrite existsb_in, filter_In. intros [_ H]. discriminate.
Qed.

Lemma origins_total : forall o, exists x, origins_of glob o = Some x.
Proof.
  intros [[|l]|]; try (eexists; reflexivity). cbn [origins_of]. cbv zeta. rewrite listed_no_star.
  destruct (filter has_wild (map u_origin l)); [eexists; reflexivity|]. destruct (filter _ (map u_origin l)); eexists; reflexivity.
Qed.

(** * Names of headers *)

Lemma lower_char_spec : forall c, SameLetter c (lower_char c) /\ ~ (65 <= N_of_ascii (lower_char c) <= 90)%N.
Proof.
  intros c. unfold lower_char. destruct ((N.leb 65 (N_of_ascii c) && N.leb (N_of_ascii c) 90)%N) eqn:E.
  - apply andb_true_iff in E. destruct E as [A B]. apply N.leb_le in A. apply N.leb_le in B.
    rewrite N_ascii_embedding by lia. split; [|lia]. apply upper; [lia|]. rewrite N_ascii_embedding by lia. reflexivity.
  - split; [constructor|]. intros [A B]. apply N.leb_le in A. apply N.leb_le in B. rewrite A, B in E. discriminate.
Qed.

Lemma lower_char_unique : forall c d, SameLetter c d -> ~ (65 <= N_of_ascii d <= 90)%N -> d = lower_char c.
Proof.
  intros c d Sl H. unfold lower_char. destruct Sl as [c|c d A B].
  - destruct ((N.leb 65 (N_of_ascii c) && N.leb (N_of_ascii c) 90)%N) eqn:E; [|reflexivity].
    apply andb_true_iff in E. destruct E as [A B]. apply N.leb_le in A. apply N.leb_le in B. lia.
  - destruct A as [A1 A2]. apply N.leb_le in A1. apply N.leb_le in A2. rewrite A1, A2. cbn [andb]. rewrite <- B, ascii_N_embedding. reflexivity.
Qed.

Lemma lower_spec : forall s t, LowerOf s t <-> t = lower s.
Proof.
  induction s as [|c s IH]; intros t; cbn [lower].
  - split; [intros H; inversion H; reflexivity|intros ->; constructor].
  - split.
    + intros H. inversion H as [|c' d s' t' A B C]; subst. rewrite (lower_char_unique _ _ A B). apply IH in C. rewrite C. reflexivity.
    + intros ->. destruct (lower_char_spec c) as [A B]. constructor; [exact A|exact B|]. apply IH. reflexivity.
Qed.

Definition tokens : list ascii :=
  list_ascii_of_string "!#$%&'*+-.^_`|~0123456789abcdefghijklmnopqrstuvwxyzABCDEFGHIJKLMNOPQRSTUVWXYZ".

Lemma token_char_spec : forall c, token_char c = true <-> In c tokens.
Proof.
  assert (H : forall c, token_char c = existsb (Ascii.eqb c) tokens)
    by (intros [[] [] [] [] [] [] [] []]; vm_compute; reflexivity).
  intros c. rewrite H. apply existsb_char.
Qed.

Lemma token_spec : forall s, (forall a c b, s = (a ++ String c b)%string -> In c tokens) <-> token s = true.
Proof.
  induction s as [|c s IH]; cbn [token].
  - split; [reflexivity|]. intros _ a c b E. destruct a; discriminate.
  - rewrite andb_true_iff, <- IH, token_char_spec. split.
    + intros H. split; [apply (H "" c s); reflexivity|]. intros a d b ->. apply (H (String c a) d b). reflexivity.
    + intros [A B] a d b E. destruct a as [|x a]; cbn [String.append] in E; injection E as <- ->; [exact A|]. apply (B a d b). reflexivity.
Qed.

Lemma header_name_spec : forall s n, header_name s = Some n <-> Token s /\ LowerOf s n.
Proof.
  intros s n. unfold header_name, Token. change (list_ascii_of_string _) with tokens. rewrite token_spec, lower_spec.
  destruct (String.eqb s "") eqn:E.
  - apply String.eqb_eq in E. subst s. cbn [negb andb]. split; [discriminate|]. intros [[H _] _]. destruct H. reflexivity.
  - apply String.eqb_neq in E. cbn [negb andb]. destruct (token s).
    + split; [intros H; injection H as <-; tauto|intros [_ ->]; reflexivity].
    + split; [discriminate|]. intros [[_ H] _]. discriminate.
Qed.

Lemma read_names : forall l r, read_each header_name l = Some r ->
  (forall x, In x l -> Token x) /\ (forall h, In h r <-> exists x, In x l /\ LowerOf x h).
Proof.
  induction l as [|s l IH]; intros r E; cbn [read_each] in E.
  - injection E as <-. split; [intros x []|]. intros h. split; [intros []|intros (x & [] & _)].
  - destruct (header_name s) as [n|] eqn:H; [|discriminate]. destruct (read_each header_name l) as [r'|]; [|discriminate].
    injection E as <-. destruct (IH r' eq_refl) as [A B]. apply header_name_spec in H. destruct H as [H1 H2]. split.
    + intros x [<-|Hx]; [exact H1|apply A, Hx].
    + intros h. cbn [In]. rewrite B. split.
      * intros [<-|(x & Hx & L)]; [exists s; tauto|exists x; tauto].
      * intros (x & [<-|Hx] & L); [left; apply lower_spec in L; apply lower_spec in H2; congruence|right; exists x; tauto].
Qed.

Lemma read_names_total : forall l, (forall x, In x l -> Token x) -> exists r, read_each header_name l = Some r.
Proof.
  induction l as [|s l IH]; intros H; cbn [read_each]; [eexists; reflexivity|].
  assert (E : header_name s = Some (lower s)) by (apply header_name_spec; split; [apply H; left; reflexivity|apply lower_spec; reflexivity]).
  rewrite E. destruct (IH (fun x Hx => H x (or_intror Hx))) as (r & ->). eexists. reflexivity.
Qed.

Lemma lower_of_star : forall x, LowerOf x "*" <-> x = "*".
Proof.
  intros x. split.
  - intros H. inversion H as [|c d s t A B C]; subst. inversion C; subst. inversion A as [|c' d' U V]; subst; [reflexivity|].
    exfalso. change (N_of_ascii "*") with 42%N in V. lia.
  - intros ->. apply lower_spec. reflexivity.
Qed.

(** What a list of names says. *)
Definition Says (o : option (any_or string)) (open : Prop) (h : string) : Prop :=
  match o with
  | None => False
  | Some Any => h = "*" \/ open
  | Some (Explicit l) => (exists x, In x l /\ LowerOf x h) \/ (In "*" l /\ open)
  end.

Lemma names_say : forall o r, names o = Some r -> forall (open : Prop) h,
  (In h r \/ (In "*" r /\ open)) <-> Says o open h.
Proof.
  intros [[|l]|] r E open h; cbn [names Says] in *.
  - injection E as <-. cbn [In]. split; [intros [[H|[]]|[_ H]]; [left; congruence|right; exact H]|]. intros [->|H]; tauto.
  - destruct (read_names _ _ E) as [_ B]. rewrite !B. split.
    + intros [H|[(x & Hx & L) H]]; [left; exact H|right; apply lower_of_star in L; subst x; tauto].
    + intros [H|[H1 H2]]; [left; exact H|right]. split; [|exact H2]. exists "*". split; [exact H1|apply lower_of_star; reflexivity].
  - injection E as <-. cbn [In]. tauto.
Qed.

(** * The layer *)

Lemma build_fields : forall c l, build glob (Some c) = Some l ->
  origins_of glob (allow_origins c) = Some (l_origins l) /\ names (allow_headers c) = Some (l_headers l) /\
  names (expose_headers c) = Some (l_expose l) /\ l_credentials l = allow_credentials c /\
  l_methods l = match allow_methods c with None => [] | Some Any => ["*"] | Some (Explicit m) => m end /\
  l_private l = allow_private_network c /\ l_max_age l = max_age c.
Proof.
  intros c l E. cbn [build] in E. destruct (origins_of glob (allow_origins c)) as [o|]; [|discriminate].
  destruct (names (allow_headers c)) as [h|]; [|discriminate]. destruct (names (expose_headers c)) as [e|]; [|discriminate].
  cbv zeta in E. destruct (usable _); [|discriminate]. injection E as <-. cbn. tauto.
Qed.

Lemma star_is_no_origin : forall c l s, build glob (Some c) = Some l -> allow_origins c = Some (Explicit s) ->
  forall r, a_origin (respond l r) = r_origin r /\ (exists v, r_origin r = Some v /\ Listed glob s v) \/
            a_origin (respond l r) = None /\ forall v, r_origin r = Some v -> ~ Listed glob s v.
Proof.
  intros c l s B E r. destruct (build_fields _ _ B) as (O & _). rewrite E in O. cbn [respond a_origin].
  pose proof (origins_answer _ _ O (r_origin r)) as A. destruct (answer_origin (l_origins l) (r_origin r)) as [v|].
  - left. destruct (A v) as [A1 _]. destruct (A1 eq_refl) as [A2 A3]. split; [congruence|]. exists v. tauto.
  - right. split; [reflexivity|]. intros v Hv Lv. destruct (A v) as [_ A2]. discriminate A2. tauto.
Qed.

(** The asterisk is no origin of a page. *)
Lemma check_spec : forall config l g r, build glob config = Some l -> r_origin r = Some (g_origin g) -> g_origin g <> "*" ->
  (Check g (respond l r) <-> PermitsOrigin glob config g).
Proof.
  intros [c|] l g r B R NS; unfold Check, PermitsOrigin.
  - destruct (build_fields _ _ B) as (O & _ & _ & Cr & _). change (a_credentials (respond l r)) with (l_credentials l). rewrite Cr.
    destruct (allow_origins c) as [[|s]|] eqn:Eo.
    + cbn [origins_of] in O. injection O as O. cbn [respond a_origin]. rewrite <- O. cbn [answer_origin]. split.
      * intros [[H _]|[H _]]; [exact H|]. injection H as H. congruence.
      * intros H. left. tauto.
    + destruct (star_is_no_origin _ _ _ B Eo r) as [[A (v & V & Lv)]|[A N1]].
      * rewrite A, R in *. injection V as <-. split.
        -- intros [[_ H]|[_ H]]; [injection H as H; congruence|]. tauto.
        -- intros [_ H]. right. tauto.
      * rewrite A. split; [intros [[_ H]|[H _]]; discriminate|]. intros [H _]. destruct (N1 _ R H).
    + cbn [origins_of] in O. injection O as O. cbn [respond a_origin]. rewrite <- O. cbn [answer_origin existsb]. rewrite R.
      split; [intros [[_ H]|[H _]]; discriminate|intros []].
  - cbn in B. injection B as <-. cbn. split; [intros [[H _]|[H _]]; [exact H|injection H as H; congruence]|]. intros H. left. tauto.
Qed.

(** The preflight of a page passes exactly if the configuration permits the request. *)
Theorem C124_preflight : forall config l g, build glob config = Some l -> g_origin g <> "*" ->
  (Passes g (respond l (preflight g)) <-> Permits glob config g).
Proof.
  intros config l g B NS. unfold Passes, Permits.
  rewrite (check_spec config l g (preflight g) B eq_refl NS).
  assert (M : (Simple (g_method g) \/ In (g_method g) (a_methods (respond l (preflight g))) \/
               (g_credentials g = false /\ In "*" (a_methods (respond l (preflight g))))) <-> PermitsMethod config g).
  { unfold PermitsMethod. change (a_methods (respond l (preflight g))) with (l_methods l).
    destruct config as [c|].
    - destruct (build_fields _ _ B) as (_ & _ & _ & _ & E & _). rewrite E. destruct (allow_methods c) as [[|ms]|]; cbn [In].
      + split; [intros [H|[[H|[]]|[H _]]]; [tauto|right; left; congruence|tauto]|]. intros [H|[H|H]]; [tauto| |tauto].
        right. left. left. congruence.
      + tauto.
      + tauto.
    - cbn in B. injection B as <-. cbn [l_methods In]. split; [intros [H|[[H|[]]|[H _]]]; [tauto|right; left; congruence|tauto]|].
      intros [H|[H|H]]; [tauto| |tauto]. right. left. left. congruence. }
  rewrite M.
  assert (Hd : forall h, (In h (a_headers (respond l (preflight g))) \/
     (g_credentials g = false /\ In "*" (a_headers (respond l (preflight g))) /\ h <> "authorization")) <-> PermitsHeader config g h).
  { intros h. change (a_headers (respond l (preflight g))) with (l_headers l). unfold PermitsHeader, Open. destruct config as [c|].
    - destruct (build_fields _ _ B) as (_ & E & _). pose proof (names_say _ _ E (g_credentials g = false /\ h <> "authorization") h) as N1.
      unfold Says in N1. rewrite <- N1. tauto.
    - cbn in B. injection B as <-. cbn [l_headers In]. split; [intros [[H|[]]|H]; [left; congruence|tauto]|]. intros [->|H]; tauto. }
  split; intros (A & C & D); (split; [exact A|]; split; [exact C|]; intros h Hh; apply Hd, D, Hh).
Qed.

(** A page that gets a response can read of it what the configuration exposes, and nothing if its origin is not permitted. *)
Theorem C124_reading : forall config l g h, build glob config = Some l -> g_origin g <> "*" -> g_method g <> "OPTIONS" ->
  (Readable g (respond l (actual g)) h <-> PermitsOrigin glob config g /\ PermitsReading config g h).
Proof.
  intros config l g h B NS NO. unfold Readable. rewrite (check_spec config l g (actual g) B eq_refl NS).
  assert (X : a_expose (respond l (actual g)) = l_expose l).
  { cbn [respond a_expose]. unfold is_options. cbn [actual r_method]. apply String.eqb_neq in NO. rewrite NO. reflexivity. }
  rewrite X. unfold PermitsReading. destruct config as [c|].
  - destruct (build_fields _ _ B) as (_ & _ & E & _). pose proof (names_say _ _ E (g_credentials g = false) h) as N1.
    unfold Says in N1. rewrite <- N1. tauto.
  - cbn in B. injection B as <-. cbn [l_expose In]. split; intros [A H]; (split; [exact A|]).
    + destruct H as [[H|[]]|[H _]]; [left; congruence|right; exact H].
    + destruct H as [->|H]; tauto.
Qed.

(** With the protection, nothing a page of another origin sends gets past it unless the configuration permits the request and
    its header. The header is none that browsers send without asking. *)
Theorem C124_csrf : forall config l csrf g, build glob config = Some l -> g_origin g <> "*" ->
  Sends l g -> reaches (Some csrf) (actual g) = true ->
  Permits glob config g /\ exists n, LowerOf csrf n /\ In n (g_headers g) /\ PermitsHeader config g n.
Proof.
  intros config l csrf g B NS Sd R. unfold reaches in R. apply andb_true_iff in R. destruct R as [R0 R].
  destruct (is_options (actual g)); [discriminate|]. cbn [orb] in R. destruct (header_name csrf) as [n|] eqn:E; [|discriminate].
  cbn [actual r_headers] in R. apply existsb_in in R. apply header_name_spec in E. destruct E as [_ E].
  destruct Sd as [[_ H]|P]; [rewrite H in R; destruct R|]. apply (C124_preflight _ _ _ B NS) in P. split; [exact P|].
  exists n. split; [exact E|]. split; [exact R|]. apply P, R.
Qed.

(** And those get past it. *)
Theorem C124_csrf_accepts : forall config l csrf g, build glob config = Some l -> g_origin g <> "*" -> g_method g <> "OPTIONS" ->
  Token csrf -> Permits glob config g -> (exists n, LowerOf csrf n /\ In n (g_headers g)) ->
  Sends l g /\ reaches (Some csrf) (actual g) = true.
Proof.
  intros config l csrf g B NS NO T P (n & Ln & Hn). split; [right; apply (C124_preflight _ _ _ B NS), P|].
  unfold reaches, is_options. cbn [actual r_method r_headers]. apply String.eqb_neq in NO. rewrite NO. cbn [negb andb orb].
  rewrite (proj2 (header_name_spec csrf n) (conj T Ln)). apply existsb_in, Hn.
Qed.

(** * Starting *)

Lemma is_star_spec : forall l, is_star l = true <-> l = ["*"].
Proof.
  intros [|s [|t l]]; cbn [is_star]; try (split; discriminate). rewrite String.eqb_eq. split; [intros ->; reflexivity|congruence].
Qed.

Lemma names_star : forall o r, names o = Some r -> (r = ["*"] <-> Star o).
Proof.
  intros [[|l]|] r E; cbn [names] in E; unfold Star.
  - injection E as <-. tauto.
  - split.
    + intros ->. right. destruct l as [|s [|t l]]; cbn [read_each] in E; try discriminate.
      * destruct (header_name s) as [n|] eqn:H; [|discriminate]. injection E as ->. apply header_name_spec in H.
        destruct H as [_ H]. apply lower_of_star in H. subst s. reflexivity.
      * destruct (header_name s), (header_name t), (read_each header_name l); discriminate.
    + intros [H|H]; [discriminate|]. injection H as ->. vm_compute in E. congruence.
  - injection E as <-. split; [discriminate|intros [H|H]; discriminate].
Qed.

(** The gateway starts exactly with the configurations that browsers understand and whose names are names. *)
Theorem C124_starts : forall c, (exists l, build glob (Some c) = Some l) <-> Usable c.
Proof.
  intros c. assert (Nt : forall o, (exists r, names o = Some r) <-> (forall l x, o = Some (Explicit l) -> In x l -> Token x)).
  { intros [[|l]|]; cbn [names].
    - split; [intros _ l x H; discriminate|intros _; eexists; reflexivity].
    - split; [intros (r & H) l' x E; injection E as <-; apply (read_names _ _ H)|]. intros H. apply read_names_total. intros x. apply H. reflexivity.
    - split; [intros _ l x H; discriminate|intros _; eexists; reflexivity]. }
  pose proof (Nt (allow_headers c)) as Nh. pose proof (Nt (expose_headers c)) as Ne.
  destruct (origins_total (allow_origins c)) as (o & Eo). cbn [build]. rewrite Eo. unfold Usable.
  destruct (names (allow_headers c)) as [h|] eqn:Hh.
  2:{ split; [intros (l & H); discriminate|]. intros [U _]. destruct (proj2 Nh) as (r & H); [|discriminate].
      intros l x E. apply (U l x). left. exact E. }
  destruct (names (expose_headers c)) as [e|] eqn:He.
  2:{ split; [intros (l & H); discriminate|]. intros [U _]. destruct (proj2 Ne) as (r & H); [|discriminate].
      intros l x E. apply (U l x). right. exact E. }
  cbv zeta. unfold usable. cbn [l_credentials l_headers l_methods l_origins l_expose].
  assert (T : forall l x, allow_headers c = Some (Explicit l) \/ expose_headers c = Some (Explicit l) -> In x l -> Token x).
  { intros l x [E|E] Hx; [apply (proj1 Nh (ex_intro _ h eq_refl) l x E Hx)|apply (proj1 Ne (ex_intro _ e eq_refl) l x E Hx)]. }
  destruct (allow_credentials c) eqn:Ec; cbn [negb orb].
  2:{ split; [intros _; split; [exact T|discriminate]|]. intros _. eexists. reflexivity. }
  assert (So : match o with Constant v => String.eqb v "*" | _ => false end = true <-> allow_origins c = Some Any).
  { destruct (allow_origins c) as [[|l]|]; cbn [origins_of] in Eo.
    - injection Eo as <-. split; reflexivity.
    - cbv zeta in Eo. split; [|discriminate]. destruct (filter has_wild (map u_origin l)).
      + destruct (existsb _ _); [discriminate|]. injection Eo as <-. discriminate.
      + destruct (filter _ (map u_origin l)); injection Eo as <-; discriminate.
    - injection Eo as <-. split; discriminate. }
  assert (Sm : is_star (match allow_methods c with None => [] | Some Any => ["*"] | Some (Explicit m) => m end) = true <-> Star (allow_methods c)).
  { rewrite is_star_spec. unfold Star. destruct (allow_methods c) as [[|m]|].
    - tauto.
    - split; [intros ->; right; reflexivity|]. intros [H|H]; [discriminate|]. injection H as ->. reflexivity.
    - split; [discriminate|intros [H|H]; discriminate]. }
  pose proof (names_star _ _ Hh) as Sh. pose proof (names_star _ _ He) as Se. rewrite <- is_star_spec in Sh, Se.
  destruct (is_star h) eqn:X1; cbn [orb negb].
  { split; [intros (l & H); discriminate|]. intros [_ U]. destruct (U eq_refl) as (_ & _ & U1 & _). destruct U1. apply Sh. reflexivity. }
  destruct (is_star (match allow_methods c with None => [] | Some Any => ["*"] | Some (Explicit m) => m end)) eqn:X2; cbn [orb negb].
  { split; [intros (l & H); discriminate|]. intros [_ U]. destruct (U eq_refl) as (_ & U1 & _). destruct U1. apply Sm. reflexivity. }
  destruct (match o with Constant v => String.eqb v "*" | _ => false end) eqn:X3; cbn [orb negb].
  { split; [intros (l & H); discriminate|]. intros [_ U]. destruct (U eq_refl) as (U1 & _). destruct U1. apply So. reflexivity. }
  destruct (is_star e) eqn:X4; cbn [orb negb].
  { split; [intros (l & H); discriminate|]. intros [_ U]. destruct (U eq_refl) as (_ & _ & _ & U1). destruct U1. apply Se. reflexivity. }
  split; [|intros _; eexists; reflexivity]. intros _. split; [exact T|]. intros _.
  split; [intros H; apply So in H; discriminate|]. split; [intros H; apply Sm in H; discriminate|].
  split; [intros H; apply Sh in H; discriminate|intros H; apply Se in H; discriminate].
Qed.

(** It starts without a configuration. *)
Theorem C124_default_starts : exists l, build glob None = Some l.
Proof. eexists. reflexivity. Qed.

(** No response names an origin that is not listed, whoever asks. *)
Theorem C124_origin : forall c l r v, build glob (Some c) = Some l -> a_origin (respond l r) = Some v ->
  (allow_origins c = Some Any /\ v = "*") \/
  (exists s, allow_origins c = Some (Explicit s) /\ r_origin r = Some v /\ Listed glob s v).
Proof.
  intros c l r v B E. destruct (build_fields _ _ B) as (O & _). cbn [respond a_origin] in E.
  destruct (allow_origins c) as [[|s]|].
  - cbn [origins_of] in O. injection O as O. rewrite <- O in E. cbn [answer_origin] in E. left. split; congruence.
  - right. exists s. split; [reflexivity|]. apply (origins_answer _ _ O). exact E.
  - cbn [origins_of] in O. injection O as O. rewrite <- O in E. cbn [answer_origin existsb] in E. destruct (r_origin r); discriminate.
Qed.

(** How long a preflight is remembered, and whether it is told of private networks. *)
Theorem C124_preflight_rest : forall c l g, build glob (Some c) = Some l ->
  a_max_age (respond l (preflight g)) = max_age c /\
  (forall r, a_private (respond l r) = true <-> allow_private_network c = true /\ r_wants_private r = true).
Proof.
  intros c l g B. destruct (build_fields _ _ B) as (_ & _ & _ & _ & _ & P & A). split; [exact A|].
  intros r. cbn [respond a_private]. rewrite P, andb_true_iff. reflexivity.
Qed.

End Globs.
