(* The passes over a document: what they report and when they panic. *)
From Coq Require Import Ascii String List Bool Arith Lia.
From Verif.SdlValidation Require Import Model Spec Facts CheckFacts CycleFacts.
Import ListNotations.
Local Open Scope string_scope.
Local Open Scope list_scope.

(* ------------------------------------------------------------ the first pass *)

Definition own_error (d : definition) (e : error) : Prop :=
  match d with
  | DSchema _ => False
  | DType t =>
      (t_extend t = false /\ specified_scalar (t_name t) /\ t_kind t <> KScalar /\
       e = ReservedName (t_name t)) \/
      (reserved (t_name t) /\ e = DoubleUnderscore (t_name t))
  | DDirective d => reserved (d_name d) /\ e = DirectiveName
  end.

Lemma is_scalar_iff : forall k, is_scalar k = false <-> k <> KScalar.
Proof. intros []; cbn; split; intros H; congruence. Qed.

Lemma first_pass_own : forall t e,
  In e ((if negb (t_extend t) && is_builtin_scalar (t_name t) && negb (is_scalar (t_kind t))
         then [ReservedName (t_name t)] else []) ++
        (if starts_dunder (t_name t) then [DoubleUnderscore (t_name t)] else [])) <->
  own_error (DType t) e.
Proof.
  intros t e. rewrite in_app_iff. cbn [own_error]. apply or_iff_compat.
  - destruct (negb (t_extend t) && is_builtin_scalar (t_name t) && negb (is_scalar (t_kind t))) eqn:B.
    + rewrite !andb_true_iff, !negb_true_iff, builtin_iff, is_scalar_iff in B. destruct B as [[B1 B2] B3].
      split; [intros [<-|[]]; auto|]. intros (_ & _ & _ & ->). now left.
    + split; [intros []|]. intros (H1 & H2 & H3 & _). exfalso.
      apply builtin_iff in H2. apply is_scalar_iff in H3. rewrite H1, H2, H3 in B. discriminate.
  - rewrite <- starts_dunder_iff. destruct (starts_dunder (t_name t)).
    + split; [intros [<-|[]]; auto|]. intros (_ & ->). now left.
    + split; [intros []|]. intros (H & _). discriminate.
Qed.

Lemma first_pass_errors : forall doc ctx e,
  In e (fst (first_pass doc ctx)) <->
  (exists d, In d doc /\ own_error d e) \/
  (exists n, e = DuplicateDefinition n /\
     ((exists t a x b, get n (definition_names ctx) = Some t /\ doc = a ++ x :: b /\ type_def n x) \/
      (exists a x b y c, doc = a ++ x :: b ++ y :: c /\ type_def n x /\ type_def n y))).
Proof.
  induction doc as [|d doc IH]; intros ctx e; cbn [first_pass fst].
  - split; [intros []|]. intros [(d & [] & _)|(n & _ & [(t & a & x & b & _ & E & _)|(a & x & b & y & c & E & _)])];
      destruct a; discriminate.
  - rewrite in_app_iff, IH.
    set (ctx' := snd match d with DSchema _ => ([], ctx) | DType t => first_pass_type t ctx
                     | DDirective d => first_pass_directive d ctx end).
    (* what is known afterwards *)
    assert (HK : forall n, get n (definition_names ctx') <> None <->
                           get n (definition_names ctx) <> None \/ type_def n d).
    { intros n. unfold ctx', type_def. destruct d as [s|t|dd]; cbn [snd first_pass_directive definition_names].
      - split; [auto|]. intros [H|(t & E & _)]; [exact H|discriminate].
      - unfold first_pass_type. destruct (t_extend t) eqn:X; cbn [snd definition_names].
        + assert (E : forall c, match t_kind t with
            | KObject impls fields | KInterface impls fields => mkcontext (definition_names c) (extension_names c) (directive_names c)
                (push (t_name t) fields (extended_fields c)) (extended_unions c)
                (extend (t_name t) impls (extended_interface_implementations c)) (extended_enums c)
            | KEnum values => mkcontext (definition_names c) (extension_names c) (directive_names c)
                (extended_fields c) (extended_unions c) (extended_interface_implementations c) (push (t_name t) values (extended_enums c))
            | KUnion members => mkcontext (definition_names c) (extension_names c) (directive_names c)
                (extended_fields c) (push (t_name t) members (extended_unions c))
                (extended_interface_implementations c) (extended_enums c)
            | _ => c end.(definition_names) = definition_names c) by (intros c; destruct (t_kind t); reflexivity).
          rewrite E. split; [auto|]. intros [H|(u & Eu & Hu & _)]; [exact H|]. injection Eu as ->. congruence.
        + rewrite get_insert. destruct (String.eqb_spec (t_name t) n) as [En|D].
          * split; [intros _; right; exists t; auto|discriminate].
          * split; [auto|]. intros [H|(u & Eu & _ & Hu)]; [exact H|]. injection Eu as ->. contradiction.
      - split; [auto|]. intros [H|(t & E & _)]; [exact H|discriminate]. }
    (* what is reported here *)
    assert (HE : In e (fst match d with DSchema _ => ([], ctx) | DType t => first_pass_type t ctx
                     | DDirective d => first_pass_directive d ctx end) <->
                 own_error d e \/
                 exists n, e = DuplicateDefinition n /\ get n (definition_names ctx) <> None /\ type_def n d).
    { unfold type_def. destruct d as [s|t|dd]; cbn [own_error].
      - cbn [fst In]. split; [tauto|]. intros [[]|(n & _ & _ & t & E & _)]. discriminate.
      - fold (own_error (DType t) e). unfold first_pass_type. destruct (t_extend t) eqn:X; cbn [fst].
        + rewrite <- (first_pass_own t e), X.
          split; [auto|]. intros [H|(n & _ & _ & u & E & Hu & _)]; [exact H|]. injection E as ->. congruence.
        + rewrite app_assoc, in_app_iff.
          rewrite <- (first_pass_own t e), X.
          apply or_iff_compat; [reflexivity|]. destruct (get (t_name t) (definition_names ctx)) as [u|] eqn:G.
          * split.
            -- intros [<-|[]]. exists (t_name t). split; [reflexivity|]. split; [congruence|]. exists t. auto.
            -- intros (n & -> & _ & v & Ev & _ & Hv). injection Ev as ->. left. now rewrite Hv.
          * split; [intros []|]. intros (n & _ & Hg & v & Ev & _ & Hv). injection Ev as ->. congruence.
      - cbn [first_pass_directive fst]. rewrite <- starts_dunder_iff.
        destruct (starts_dunder (d_name dd)); split.
        + intros [<-|[]]. auto.
        + intros [[_ ->]|(n & _ & _ & t & E & _)]; [now left|discriminate].
        + intros [].
        + intros [[H _]|(n & _ & _ & t & E & _)]; discriminate. }
    rewrite HE. clear HE IH. split.
    + intros [[H|(n & -> & HG & HT)]|[(d' & Hd' & H)|(n & -> & H)]].
      * left. exists d. split; [now left|exact H].
      * right. exists n. split; [reflexivity|]. left.
        destruct (get n (definition_names ctx)) as [t|]; [|contradiction].
        exists t, [], d, doc. auto.
      * left. exists d'. split; [now right|exact H].
      * right. exists n. split; [reflexivity|].
        destruct H as [(t & a & x & b & HG & -> & HT)|(a & x & b & y & c & -> & HT)].
        -- assert (HG' : get n (definition_names ctx') <> None) by congruence. apply HK in HG'.
           destruct HG' as [HG'|HG'].
           ++ left. destruct (get n (definition_names ctx)) as [t'|]; [|contradiction].
              exists t', (d :: a), x, b. auto.
           ++ right. exists [], d, a, x, b. auto.
        -- right. exists (d :: a), x, b, y, c. auto.
    + intros [(d' & [->|Hd'] & H)|(n & -> & [(t & a & x & b & HG & E & HT)|(a & x & b & y & c & E & HT1 & HT2)])].
      * left. now left.
      * right. left. exists d'. auto.
      * destruct a as [|z a]; cbn [app] in E; injection E as -> ->.
        -- left. right. exists n. split; [reflexivity|]. split; [congruence|exact HT].
        -- right. right. exists n. split; [reflexivity|]. left.
           assert (HG' : get n (definition_names ctx') <> None) by (apply HK; left; congruence).
           destruct (get n (definition_names ctx')) as [t'|]; [|contradiction]. exists t', a, x, b. auto.
      * destruct a as [|z a]; cbn [app] in E; injection E as -> ->.
        -- right. right. exists n. split; [reflexivity|]. left.
           assert (HG' : get n (definition_names ctx') <> None) by (apply HK; now right).
           destruct (get n (definition_names ctx')) as [t'|]; [|contradiction]. exists t', b, y, c. auto.
        -- right. right. exists n. split; [reflexivity|]. right. exists a, x, b, y, c. auto.
Qed.

Lemma first_pass_duplicate : forall doc e,
  In e (fst (first_pass doc empty_context)) <->
  (exists d, In d doc /\ own_error d e) \/
  (exists n, e = DuplicateDefinition n /\
     exists a x b y c, doc = a ++ x :: b ++ y :: c /\ type_def n x /\ type_def n y).
Proof.
  intros doc e. rewrite first_pass_errors. apply or_iff_compat; [reflexivity|].
  split; intros (n & -> & H); exists n; (split; [reflexivity|]).
  - destruct H as [(t & _ & _ & _ & H & _)|H]; [discriminate|exact H].
  - now right.
Qed.

Section Doc.
Variable opts : options.
Variable doc : document.
Let ctx := collected doc.

(* --------------------------------------------------------- schema definitions *)

Lemma check_root_ok : forall o d, check_root ctx o d <> None.
Proof.
  intros [n|] d; cbn [check_root]; [|discriminate].
  destruct (definition_of ctx n) as [t|]; [|discriminate]. destruct (is_object (t_kind t)); discriminate.
Qed.

Lemma is_object_iff : forall k, is_object k = false <-> forall is fs, k <> KObject is fs.
Proof.
  intros []; cbn; split; intros H; try reflexivity; try discriminate.
  exfalso. now apply (H implements fields).
Qed.

Definition root_error (o : option name) (root : name) (e : error) : Prop :=
  exists n, o = Some n /\
    ((undefined doc n /\ e = RootUnknown root n) \/
     (exists t, defined doc n t /\ (forall is fs, t_kind t <> KObject is fs) /\ e = RootNotObject root n)).

Lemma emits_check_root : forall o d e, emits (check_root ctx o d) e <-> root_error o d e.
Proof.
  intros [n|] d e; cbn [check_root]; unfold root_error.
  - destruct (definition_of ctx n) as [t|] eqn:E.
    + apply definition_of_iff in E. destruct (is_object (t_kind t)) eqn:K.
      * rewrite emits_no_error. split; [tauto|]. intros (m & Em & [[H _]|(u & Hu & HK & _)]); injection Em as <-.
        -- now apply (H t).
        -- rewrite (defined_unique _ _ _ _ Hu E) in HK. rewrite <- is_object_iff in HK. congruence.
      * rewrite emits_push_error. rewrite is_object_iff in K. pose proof (defined_name _ _ _ E) as (HN & _).
        rewrite HN. split.
        -- intros <-. exists n. split; [reflexivity|]. right. exists t. auto.
        -- intros (m & Em & [[H _]|(u & Hu & HK & ->)]); injection Em as <-; [|reflexivity].
           exfalso. now apply (H t).
    + apply definition_of_none in E. rewrite emits_push_error. split.
      * intros <-. exists n. split; [reflexivity|]. left. auto.
      * intros (m & Em & [[_ ->]|(u & Hu & _)]); injection Em as <-; [reflexivity|]. exfalso. now apply (E u).
  - rewrite emits_no_error. split; [tauto|]. intros (m & H & _). discriminate.
Qed.

Lemma schema_references_ok : forall s, validate_schema_references ctx s <> None.
Proof.
  intros s. unfold validate_schema_references. cbv zeta.
  split_then; try apply when_ok; apply check_root_ok.
Qed.

Lemma root_name_iff : forall s r n,
  root_name s r n <->
  (r = "Query" /\ n = or_default (s_query s) "Query") \/
  (r = "Mutation" /\ n = or_default (s_mutation s) "Mutation") \/
  (r = "Subscription" /\ n = or_default (s_subscription s) "Subscription").
Proof.
  intros s r n. unfold root_name, root_of. split.
  - intros (o & [[-> ->]|[[-> ->]|[-> ->]]] & [->|[-> ->]]); cbn [or_default]; auto.
  - intros [[-> ->]|[[-> ->]|[-> ->]]].
    + exists (s_query s). split; [auto|]. destruct (s_query s); cbn; auto.
    + exists (s_mutation s). split; [auto|]. destruct (s_mutation s); cbn; auto.
    + exists (s_subscription s). split; [auto|]. destruct (s_subscription s); cbn; auto.
Qed.

Definition references_error (s : schemadef) (e : error) : Prop :=
  (exists n r r', r <> r' /\ root_name s r n /\ root_name s r' n /\ e = RootTwice n) \/
  (exists r o, root_of s r o /\ root_error o r e).

Lemma emits_schema_references : forall s e,
  emits (validate_schema_references ctx s) e <-> references_error s e.
Proof.
  intros s e. pose proof (schema_references_ok s) as Hok.
  unfold validate_schema_references in *. cbv zeta in *.
  do 5 (rewrite emits_andthen by exact Hok; apply andthen_ok in Hok; destruct Hok as [_ Hok]).
  rewrite !emits_when, !emits_check_root, !String.eqb_eq. unfold references_error. split.
  - intros [[E <-]|[[E <-]|[[E <-]|[H|[H|H]]]]].
    + left. exists (or_default (s_query s) "Query"), "Query", "Mutation".
      split; [discriminate|]. rewrite !root_name_iff. auto 6.
    + left. exists (or_default (s_query s) "Query"), "Query", "Subscription".
      split; [discriminate|]. rewrite !root_name_iff. auto 6.
    + left. exists (or_default (s_mutation s) "Mutation"), "Mutation", "Subscription".
      split; [discriminate|]. rewrite !root_name_iff. auto 6.
    + right. exists "Query", (s_query s). unfold root_of. auto.
    + right. exists "Mutation", (s_mutation s). unfold root_of. auto.
    + right. exists "Subscription", (s_subscription s). unfold root_of. auto.
  - intros [(n & r & r' & D & H1 & H2 & ->)|(r & o & [[-> ->]|[[-> ->]|[-> ->]]] & H)]; auto 7.
    apply root_name_iff in H1, H2.
    destruct H1 as [[-> H1]|[[-> H1]|[-> H1]]], H2 as [[-> H2]|[[-> H2]|[-> H2]]];
      try (exfalso; now apply D); rewrite <- H1, <- H2; auto 7.
Qed.

Lemma schema_definitions_ok : forall l seen, validate_schema_definitions ctx seen l <> None.
Proof.
  induction l as [|s l IH]; intros seen; cbn [validate_schema_definitions]; [discriminate|].
  split_then; [apply validate_directives_ok|apply schema_references_ok|apply when_ok|apply IH].
Qed.

Lemma emits_schema_definitions : forall l seen e,
  emits (validate_schema_definitions ctx seen l) e <->
  (exists s, In s l /\ (directive_error doc (s_dirs s) LSchema e \/ references_error s e)) \/
  (e = DuplicateSchema /\
   ((seen = true /\ exists s, In s l /\ s_extend s = false) \/
    (exists a s b s' c, l = a ++ s :: b ++ s' :: c /\ s_extend s = false /\ s_extend s' = false))).
Proof.
  induction l as [|s l IH]; intros seen e; cbn [validate_schema_definitions].
  - rewrite emits_no_error. split; [tauto|]. intros [(s & [] & _)|(_ & [(_ & s & [] & _)|(a & s & b & s' & c & E & _)])].
    destruct a; discriminate.
  - assert (Hok : validate_schema_definitions ctx seen (s :: l) <> None) by apply schema_definitions_ok.
    cbn [validate_schema_definitions] in Hok.
    do 3 (rewrite emits_andthen by exact Hok; apply andthen_ok in Hok; destruct Hok as [_ Hok]).
    rewrite emits_when, emits_schema_references, IH.
    rewrite (emits_directives doc (s_dirs s) LSchema e : emits (validate_directives ctx _ _) _ <-> _).
    rewrite andb_true_iff, negb_true_iff, orb_true_iff, negb_true_iff. split.
    + intros [H|[H|[[[H1 H2] <-]|[(s' & Hs' & H)|(-> & H)]]]].
      * left. exists s. split; [now left|auto].
      * left. exists s. split; [now left|auto].
      * right. split; [reflexivity|]. left. split; [exact H2|]. exists s. split; [now left|exact H1].
      * left. exists s'. split; [now right|exact H].
      * right. split; [reflexivity|]. destruct H as [([H|H] & s' & Hs' & HE)|(a & s1 & b & s2 & c & -> & H)].
        -- left. split; [exact H|]. exists s'. split; [now right|exact HE].
        -- right. apply in_split in Hs'. destruct Hs' as (b & c & ->). exists [], s, b, s', c. auto.
        -- right. exists (s :: a), s1, b, s2, c. auto.
    + intros [(s' & [->|Hs'] & H)|(-> & H)].
      * tauto.
      * do 3 right. left. exists s'. auto.
      * destruct H as [(H & s' & [->|Hs'] & HE)|(a & s1 & b & s2 & c & E & H1 & H2)].
        -- right. right. left. auto.
        -- do 4 right. split; [reflexivity|]. left. split; [auto|]. exists s'. auto.
        -- do 4 right. split; [reflexivity|]. destruct a as [|z a]; cbn [app] in E; injection E as -> ->.
           ++ left. split; [auto|]. exists s2. split; [|exact H2]. apply in_app_iff. right. now left.
           ++ right. exists a, s1, b, s2, c. auto.
Qed.

Lemma schema_definitions_in : forall s, In s (schema_definitions doc) <-> In (DSchema s) doc.
Proof.
  intros s. clear ctx. induction doc as [|[s'|t|d] l IH]; cbn [schema_definitions In]; [tauto| | |].
  - rewrite IH. split; intros [H|H]; auto; left; congruence.
  - rewrite IH. split; [auto|]. intros [H|H]; [discriminate|exact H].
  - rewrite IH. split; [auto|]. intros [H|H]; [discriminate|exact H].
Qed.

Lemma schema_definitions_app : forall d d',
  schema_definitions (d ++ d') = schema_definitions d ++ schema_definitions d'.
Proof.
  induction d as [|[s|t|x] d IH]; intros d'; cbn [app schema_definitions]; [reflexivity| | |]; now rewrite IH.
Qed.

Lemma schema_definitions_split : forall d a s b,
  schema_definitions d = a ++ s :: b ->
  exists a' b', d = a' ++ DSchema s :: b' /\ schema_definitions a' = a /\ schema_definitions b' = b.
Proof.
  induction d as [|x d IH]; intros a s b E; [destruct a; discriminate|].
  destruct x as [s'|t|dd]; cbn [schema_definitions] in E.
  - destruct a as [|z a]; cbn [app] in E; injection E as -> E.
    + exists [], d. auto.
    + destruct (IH a s b E) as (a' & b' & -> & <- & <-). exists (DSchema z :: a'), b'. auto.
  - destruct (IH a s b E) as (a' & b' & -> & <- & <-). exists (DType t :: a'), b'. auto.
  - destruct (IH a s b E) as (a' & b' & -> & <- & <-). exists (DDirective dd :: a'), b'. auto.
Qed.

Lemma duplicate_schema_iff :
  (exists a s b s' c, schema_definitions doc = a ++ s :: b ++ s' :: c /\
     s_extend s = false /\ s_extend s' = false) <-> violates opts doc DuplicateSchema.
Proof.
  cbn [violates]. split.
  - intros (a & s & b & s' & c & E & H). apply schema_definitions_split in E.
    destruct E as (a' & r & E & _ & E'). apply schema_definitions_split in E'.
    destruct E' as (b' & c' & -> & _). exists a', s, b', s', c'. auto.
  - intros (a & s & b & s' & c & E & H).
    exists (schema_definitions a), s, (schema_definitions b), s', (schema_definitions c). split; [|exact H].
    rewrite E, schema_definitions_app. cbn [schema_definitions].
    rewrite schema_definitions_app. reflexivity.
Qed.

Lemma root_types_ok : validate_root_types ctx <> None.
Proof.
  unfold validate_root_types. apply for_each_ok. intros n _.
  destruct (definition_of ctx n); [apply when_ok|discriminate].
Qed.

Lemma emits_root_types : forall e,
  emits (validate_root_types ctx) e <->
  exists r t, (r = "Query" \/ r = "Mutation" \/ r = "Subscription") /\ defined doc r t /\
    (forall is fs, t_kind t <> KObject is fs) /\ e = RootShouldBeObject r.
Proof.
  intros e. pose proof root_types_ok as Hok. unfold validate_root_types in *.
  rewrite emits_for_each by exact Hok. split.
  - intros (r & Hr & He). destruct (definition_of ctx r) as [t|] eqn:E; [|destruct He].
    rewrite emits_when, negb_true_iff, is_object_iff in He. destruct He as [HK <-].
    apply definition_of_iff in E. exists r, t. split; [|auto].
    cbn [In] in Hr. intuition congruence.
  - intros (r & t & Hr & Ht & HK & ->). exists r. split; [cbn [In]; intuition congruence|].
    apply definition_of_iff in Ht. fold ctx in Ht. rewrite Ht.
    rewrite emits_when, negb_true_iff, is_object_iff. auto.
Qed.

(* ----------------------------------------------------------- the second pass *)

Definition kind_location (k : kind) : location :=
  match k with
  | KScalar => LScalar | KObject _ _ => LObject | KInterface _ _ => LInterface
  | KUnion _ => LUnion | KEnum _ => LEnum | KInput _ => LInputObject
  end.

Definition kind_ext (k : kind) : ext_kind :=
  match k with
  | KScalar => XScalar | KObject _ _ => XObject | KInterface _ _ => XInterface
  | KUnion _ => XUnion | KEnum _ => XEnum | KInput _ => XInput
  end.

Lemma extends_as_iff : forall k x, extends_as k x <-> kind_ext k = x.
Proof.
  intros k x. split.
  - intros H. destruct H; subst; reflexivity.
  - intros <-. destruct k; cbn [kind_ext]; econstructor; reflexivity.
Qed.

Lemma extends_known_iff : forall n is_kind x,
  (forall k, is_kind k = true <-> kind_ext k = x) ->
  (extends_known ctx n is_kind = false <-> not_of_kind doc n (fun k => extends_as k x)).
Proof.
  intros n is_kind x H. unfold extends_known, not_of_kind.
  destruct (definition_of ctx n) as [t|] eqn:E.
  - apply definition_of_iff in E. split.
    + intros K u Hu HX. rewrite (defined_unique _ _ _ _ Hu E) in HX.
      apply extends_as_iff, H in HX. congruence.
    + intros HN. destruct (is_kind (t_kind t)) eqn:K; [|reflexivity]. exfalso.
      apply (HN t E). apply extends_as_iff. now apply H.
  - apply definition_of_none in E. split; [|reflexivity]. intros _ t Ht. exfalso. now apply (E t).
Qed.

Definition extension_error (t : typedef) (e : error) : Prop :=
  directive_error doc (t_dirs t) (kind_location (t_kind t)) e \/
  (forbid_unknown opts = true /\ (t_kind t = KScalar -> ~ specified_scalar (t_name t)) /\
   not_of_kind doc (t_name t) (fun k => extends_as k (kind_ext (t_kind t))) /\
   e = ExtendUnknown (kind_ext (t_kind t)) (t_name t)).

Lemma validate_extension_ok : forall n dirs l known k, validate_extension opts ctx n dirs l known k <> None.
Proof. intros. unfold validate_extension. split_then; [apply validate_directives_ok|apply when_ok]. Qed.

Lemma emits_validate_extension : forall n dirs l known k e,
  emits (validate_extension opts ctx n dirs l known k) e <->
  directive_error doc dirs l e \/ (forbid_unknown opts = true /\ known = false /\ e = ExtendUnknown k n).
Proof.
  intros n dirs l known k e. unfold validate_extension.
  rewrite emits_andthen by apply validate_extension_ok.
  rewrite (emits_directives doc dirs l e : emits (validate_directives ctx _ _) _ <-> _).
  rewrite emits_when, andb_true_iff, negb_true_iff. intuition congruence.
Qed.

Lemma emits_extension : forall t e,
  t_extend t = true -> (emits (validate_type opts ctx t) e <-> extension_error t e).
Proof.
  intros t e X. unfold validate_type. rewrite X. cbv zeta. unfold extension_error.
  assert (HS : forall is_kind x, (forall k, is_kind k = true <-> kind_ext k = x) ->
    forall l, t_kind t <> KScalar ->
    (emits (validate_extension opts ctx (t_name t) (t_dirs t) l (extends_known ctx (t_name t) is_kind) x) e <->
     directive_error doc (t_dirs t) l e \/
     (forbid_unknown opts = true /\ (t_kind t = KScalar -> ~ specified_scalar (t_name t)) /\
      not_of_kind doc (t_name t) (fun k => extends_as k x) /\ e = ExtendUnknown x (t_name t)))).
  { intros is_kind x H l HK. rewrite emits_validate_extension, (extends_known_iff _ _ x H). tauto. }
  destruct (t_kind t) as [|is fs|is fs|ms|vs|fs] eqn:K; cbn [kind_location kind_ext].
  - rewrite emits_validate_extension, orb_false_iff, builtin_false_iff.
    rewrite (extends_known_iff (t_name t) is_scalar XScalar)
      by (intros []; cbn; split; intros; congruence).
    intuition.
  - apply HS; [intros []; cbn; split; intros; congruence|discriminate].
  - apply HS; [intros []; cbn; split; intros; congruence|discriminate].
  - apply HS; [intros []; cbn; split; intros; congruence|discriminate].
  - apply HS; [intros []; cbn; split; intros; congruence|discriminate].
  - apply HS; [intros []; cbn; split; intros; congruence|discriminate].
Qed.

Lemma validate_input_object_ok : forall n dirs fs, validate_input_object ctx n dirs fs <> None.
Proof.
  intros n dirs fs. unfold validate_input_object. split_then.
  - apply validate_directives_ok.
  - apply when_ok.
  - apply for_each_ok. intros f _. unfold validate_input_field. split_then.
    + apply validate_directives_ok.
    + apply check_input_ok.
  - apply input_object_cycles_ok.
Qed.

Definition input_field_error (n : name) (f : input_value) (e : error) : Prop :=
  directive_error doc (iv_dirs f) LInputFieldDefinition e \/
  input_error doc (iv_type f) (AtField n (iv_name f)) e.

Lemma emits_input_object : forall n dirs fs e,
  emits (validate_input_object ctx n dirs fs) e <->
  directive_error doc dirs LInputObject e \/ (fs = [] /\ e = EmptyInput n) \/
  (exists f, In f fs /\ input_field_error n f e) \/
  emits (input_object_cycles ctx n fs) e.
Proof.
  intros n dirs fs e. pose proof (validate_input_object_ok n dirs fs) as Hok.
  unfold validate_input_object in *.
  rewrite emits_andthen by exact Hok. apply andthen_ok in Hok. destruct Hok as [_ Hok].
  rewrite emits_andthen by exact Hok. apply andthen_ok in Hok. destruct Hok as [_ Hok].
  rewrite emits_andthen by exact Hok. apply andthen_ok in Hok. destruct Hok as [H1 _].
  rewrite (emits_directives doc dirs LInputObject e : emits (validate_directives ctx _ _) _ <-> _).
  rewrite emits_when, (emits_for_each _ _ _ H1).
  apply or_iff_compat; [reflexivity|]. apply or_iff_compat; [|apply or_iff_compat; [|reflexivity]].
  - destruct fs; split; intros [H E]; try discriminate; auto.
  - unfold input_field_error, validate_input_field.
    split; intros (f & Hf & He); exists f; (split; [exact Hf|]);
      (rewrite emits_andthen in * by (split_then; [apply validate_directives_ok|apply check_input_ok]));
      rewrite (emits_directives doc (iv_dirs f) LInputFieldDefinition e : emits (validate_directives ctx _ _) _ <-> _) in *;
      rewrite (emits_input doc (iv_type f) (AtField n (iv_name f)) e : emits (check_input ctx _ _) _ <-> _) in *;
      exact He.
Qed.

(* only enums can make the validator panic *)
Definition enum_panics (n : name) (vs : list (name * list name)) : Prop :=
  exists i j v, i < j /\ nth_error (map fst (all_values doc n vs)) i = Some v /\
    nth_error (map fst (all_values doc n vs)) j = Some v /\ length vs <= i.

Lemma validate_type_none : forall t,
  validate_type opts ctx t = None <->
  t_extend t = false /\ exists vs, t_kind t = KEnum vs /\ enum_panics (t_name t) vs.
Proof.
  intros t.
  assert (HN : forall r : report, r <> None -> (forall vs, t_kind t <> KEnum vs) \/ t_extend t = true ->
    (r = None <-> t_extend t = false /\ exists vs, t_kind t = KEnum vs /\ enum_panics (t_name t) vs)).
  { intros r Hr H. split; [contradiction|]. intros (X & vs & K & _).
    destruct H as [H|H]; [|congruence]. exfalso. now apply (H vs). }
  unfold validate_type. cbv zeta. destruct (t_kind t) as [|is fs|is fs|ms|vs|fs] eqn:K;
    destruct (t_extend t) eqn:X; try (apply HN; [|right; reflexivity]; apply validate_extension_ok);
    try (apply HN; [|left; discriminate]).
  - discriminate.
  - apply validate_object_ok.
  - apply validate_interface_ok.
  - apply validate_union_ok.
  - rewrite (validate_enum_none doc (t_name t) (t_dirs t) vs : validate_enum ctx _ _ _ = None <-> _). split.
    + intros H. split; [reflexivity|]. exists vs. auto.
    + intros (_ & vs' & E & H). injection E as <-. exact H.
  - apply validate_input_object_ok.
Qed.

Definition definition_error (n : name) (dirs : list name) (k : kind) (e : error) : Prop :=
  match k with
  | KScalar => False
  | KObject is fs =>
      directive_error doc dirs LObject e \/ implementer_error opts doc n is fs e \/
      (all_of doc n fs = [] /\ e = EmptyObject n) \/
      (exists f, In f (all_of doc n fs) /\ field_error opts doc n f e) \/
      (exists f, twice (map f_name (all_of doc n fs)) f /\ e = DuplicateField n f)
  | KInterface is fs =>
      directive_error doc dirs LInterface e \/ implementer_error opts doc n is fs e \/
      (fs = [] /\ e = EmptyInterface n) \/
      (exists f, In f fs /\ field_error opts doc n f e)
  | KUnion ms =>
      directive_error doc dirs LUnion e \/
      (exists m, In m (all_members doc n ms) /\ undefined doc m /\ e = UnionUnknown n m) \/
      (exists m t, In m (all_members doc n ms) /\ defined doc m t /\
         (forall is fs, t_kind t <> KObject is fs) /\ e = UnionNotObject n m) \/
      (exists m, twice (all_members doc n ms) m /\ e = UnionDuplicate n m)
  | KEnum vs =>
      directive_error doc dirs LEnum e \/
      (exists v, twice (map fst (all_values doc n vs)) v /\ e = DuplicateEnumValue n v) \/
      (exists v, In v (all_values doc n vs) /\ directive_error doc (snd v) LEnumValue e)
  | KInput fs =>
      directive_error doc dirs LInputObject e \/ (fs = [] /\ e = EmptyInput n) \/
      (exists f, In f fs /\ input_field_error n f e) \/
      emits (input_object_cycles ctx n fs) e
  end.

Lemma emits_definition : forall t e,
  t_extend t = false -> validate_type opts ctx t <> None ->
  (emits (validate_type opts ctx t) e <-> definition_error (t_name t) (t_dirs t) (t_kind t) e).
Proof.
  intros t e X Hok. unfold validate_type in *. rewrite X in *. cbv zeta in *. unfold definition_error.
  destruct (t_kind t) as [|is fs|is fs|ms|vs|fs].
  - apply emits_no_error.
  - apply emits_object.
  - apply emits_interface.
  - apply emits_union.
  - now apply emits_enum.
  - apply emits_input_object.
Qed.

Lemma directive_arguments_ok : forall d, validate_directive_arguments ctx d <> None.
Proof. intros d. apply for_each_ok. intros a _. apply check_input_ok. Qed.

Lemma emits_directive_arguments : forall d e,
  emits (validate_directive_arguments ctx d) e <->
  exists a, In a (d_args d) /\ input_error doc (iv_type a) (AtDirective (d_name d) (iv_name a)) e.
Proof.
  intros d e. unfold validate_directive_arguments.
  rewrite emits_for_each by (apply (directive_arguments_ok d)).
  split; intros (a & Ha & He); exists a; (split; [exact Ha|]);
    rewrite (emits_input doc (iv_type a) (AtDirective (d_name d) (iv_name a)) e : emits (check_input ctx _ _) _ <-> _) in *;
    exact He.
Qed.

(* ------------------------------------------------------------ the whole of it *)

Theorem validate_none :
  validate opts doc = None <->
  exists n dirs vs, declares doc n dirs (KEnum vs) /\ enum_panics n vs.
Proof.
  unfold validate. cbv zeta. fold (collected doc). fold ctx. rewrite !andthen_none. split.
  - intros [H|[H|[H|H]]].
    + discriminate.
    + exfalso. now apply schema_definitions_ok in H.
    + exfalso. destruct (schema_definitions doc); [now apply root_types_ok|discriminate].
    + unfold second_pass in H.
      destruct (existsb (fun d => match d with DType t => match validate_type opts ctx t with None => true | _ => false end
                                  | _ => false end) doc) eqn:E.
      * apply existsb_exists in E. destruct E as ([s|t|d] & Hd & E); try discriminate.
        destruct (validate_type opts ctx t) eqn:V; [discriminate|].
        apply validate_type_none in V. destruct V as (X & vs & K & HP).
        exists (t_name t), (t_dirs t), vs. split; [|exact HP].
        unfold declares. destruct t as [x n dirs k]. cbn in *. now subst.
      * exfalso. revert H. apply for_each_ok. intros d Hd. destruct d as [s|t|dd].
        -- discriminate.
        -- intros V. rewrite <- not_true_iff_false, existsb_exists in E. apply E.
           exists (DType t). split; [exact Hd|]. now rewrite V.
        -- apply directive_arguments_ok.
  - intros (n & dirs & vs & Hd & HP). do 3 right.
    destruct (second_pass opts ctx doc) as [l|] eqn:E; [|reflexivity]. exfalso.
    assert (Hok : second_pass opts ctx doc <> None) by congruence.
    unfold second_pass in Hok. rewrite for_each_ok in Hok. apply (Hok _ Hd).
    apply validate_type_none. cbn. split; [reflexivity|]. exists vs. auto.
Qed.

Definition any_error (e : error) : Prop :=
  (exists d, In d doc /\ own_error d e) \/
  (exists n, e = DuplicateDefinition n /\
     exists a x b y c, doc = a ++ x :: b ++ y :: c /\ type_def n x /\ type_def n y) \/
  (exists s, In (DSchema s) doc /\ (directive_error doc (s_dirs s) LSchema e \/ references_error s e)) \/
  (e = DuplicateSchema /\ violates opts doc DuplicateSchema) \/
  ((forall s, ~ In (DSchema s) doc) /\
   exists r t, (r = "Query" \/ r = "Mutation" \/ r = "Subscription") /\ defined doc r t /\
     (forall is fs, t_kind t <> KObject is fs) /\ e = RootShouldBeObject r) \/
  (exists d a, In (DDirective d) doc /\ In a (d_args d) /\
     input_error doc (iv_type a) (AtDirective (d_name d) (iv_name a)) e) \/
  (exists t, In (DType t) doc /\ t_extend t = true /\ extension_error t e) \/
  (exists n dirs k, declares doc n dirs k /\ definition_error n dirs k e).

Theorem emits_validate : forall e,
  validate opts doc <> None -> (emits (validate opts doc) e <-> any_error e).
Proof.
  intros e Hok. unfold validate in *. cbv zeta in *. fold (collected doc) in *. fold ctx in Hok |- *.
  rewrite emits_andthen by exact Hok. apply andthen_ok in Hok. destruct Hok as [_ Hok].
  rewrite emits_andthen by exact Hok. apply andthen_ok in Hok. destruct Hok as [_ Hok].
  rewrite emits_andthen by exact Hok. apply andthen_ok in Hok. destruct Hok as [_ Hok].
  unfold any_error. apply or_iff_group; [apply first_pass_duplicate|].
  rewrite emits_schema_definitions. apply or_iff_group.
  { apply or_iff_compat.
    - split; intros (s & Hs & H); exists s; (split; [now apply schema_definitions_in|exact H]).
    - split; intros [-> H]; (split; [reflexivity|]).
      + destruct H as [(H & _)|H]; [discriminate|]. now apply duplicate_schema_iff.
      + right. now apply duplicate_schema_iff. }
  apply or_iff_compat.
  { pose proof schema_definitions_in as HS. destruct (schema_definitions doc) as [|s l] eqn:ES.
    - rewrite emits_root_types. split; [|now intros [_ H]]. intros H. split; [|exact H].
      intros s Hs. now apply HS in Hs.
    - rewrite emits_no_error. split; [tauto|]. intros [H _]. apply (H s). apply HS. now left. }
  unfold second_pass in *. rewrite emits_for_each by exact Hok. rewrite for_each_ok in Hok. split.
  - intros ([s|t|d] & Hd & He).
    + destruct He.
    + right. destruct (t_extend t) eqn:X.
      * left. exists t. rewrite emits_extension in He by exact X. auto.
      * right. exists (t_name t), (t_dirs t), (t_kind t).
        rewrite emits_definition in He; [|exact X|exact (Hok _ Hd)]. split; [|exact He].
        unfold declares. destruct t as [x n dirs k]. cbn in *. now subst.
    + left. rewrite emits_directive_arguments in He. destruct He as (a & Ha & He). exists d, a. auto.
  - intros [(d & a & Hd & Ha & He)|[(t & Ht & X & He)|(n & dirs & k & Hd & He)]].
    + exists (DDirective d). split; [exact Hd|]. apply emits_directive_arguments. eauto.
    + exists (DType t). split; [exact Ht|]. now apply emits_extension.
    + exists (DType (mktype false n dirs k)). split; [exact Hd|].
      apply emits_definition; [reflexivity|exact (Hok _ Hd)|exact He].
Qed.

End Doc.
