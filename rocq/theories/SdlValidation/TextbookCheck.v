(* A sufficient test for the rules of the specification, for documents without
   directives: it only serves to show that concrete documents obey them. *)
From Coq Require Import Ascii String List Bool Arith Lia.
From Verif.SdlValidation Require Import Model Spec Facts CheckFacts CycleFacts DocFacts Textbook TextbookFacts.
Import ListNotations.
Local Open Scope string_scope.
Local Open Scope list_scope.

Fixpoint nodupb (l : list name) : bool :=
  match l with [] => true | x :: l => negb (existsb (String.eqb x) l) && nodupb l end.

Lemma nodupb_ok : forall l, nodupb l = true -> NoDup l.
Proof.
  induction l as [|x l IH]; cbn [nodupb]; intros H; constructor; apply andb_true_iff in H; destruct H as [H1 H2].
  - apply existsb_eqb_false. now apply negb_true_iff.
  - auto.
Qed.

Definition inclb (l m : list name) : bool := forallb (fun x => existsb (String.eqb x) m) l.

Lemma inclb_ok : forall l m, inclb l m = true -> incl l m.
Proof. intros l m H x Hx. unfold inclb in H. rewrite forallb_forall in H. apply existsb_eqb. auto. Qed.

Lemma not_reserved : forall n, starts_dunder n = false -> ~ reserved n.
Proof. intros n H HR. apply starts_dunder_iff in HR. congruence. Qed.

Definition types (doc : document) : list (name * kind) :=
  flat_map (fun d => match d with DType t => if t_extend t then [] else [(t_name t, t_kind t)] | _ => [] end) doc.

Lemma types_in : forall doc n k, In (n, k) (types doc) <-> exists dirs, declares doc n dirs k.
Proof.
  intros doc n k. unfold types, declares. rewrite in_flat_map. split.
  - intros ([s|t|d] & Hd & H); try contradiction. destruct (t_extend t) eqn:X; [contradiction|].
    destruct H as [E|[]]. injection E as <- <-. exists (t_dirs t). destruct t as [x n dirs k]. cbn in *. now subst.
  - intros (dirs & H). eexists. split; [exact H|]. now left.
Qed.

Definition ownerb (o : owner) (k : kind) : bool :=
  match o, k with Objects, KObject _ _ | Interfaces, KInterface _ _ => true | _, _ => false end.

Lemma ownerb_iff : forall o k, ownerb o k = true <-> of_owner o k.
Proof. intros [] []; cbn; split; intros H; try discriminate; tauto. Qed.

Definition owners (doc : document) (o : owner) : list (name * list name * list field) :=
  flat_map (fun p => if ownerb o (snd p)
                     then [(fst p, merged implements_part doc (fst p) (snd p), merged fields_part doc (fst p) (snd p))]
                     else []) (types doc).

Lemma owners_in : forall doc o n is fs, In (n, is, fs) (owners doc o) <-> has_fields doc o n is fs.
Proof.
  intros doc o n is fs. unfold owners, has_fields. rewrite in_flat_map. split.
  - intros ([m k] & Hm & H). cbn [fst snd] in H. destruct (ownerb o k) eqn:E; [|contradiction].
    destruct H as [E'|[]]. injection E' as <- <- <-. apply types_in in Hm. destruct Hm as (dirs & Hd).
    exists dirs, k. apply ownerb_iff in E. auto.
  - intros (dirs & k & Hd & HO & -> & ->). exists (n, k). split; [apply types_in; eauto|].
    cbn [fst snd]. apply ownerb_iff in HO. rewrite HO. now left.
Qed.

Definition fields_of (doc : document) (o : owner) : list field := flat_map snd (owners doc o).

Lemma fields_of_in : forall doc o n f, owned doc o n f -> In f (fields_of doc o).
Proof.
  intros doc o n f (dirs & k & Hd & HO & Hf). unfold fields_of. rewrite in_flat_map.
  exists (n, merged implements_part doc n k, merged fields_part doc n k). split; [|exact Hf].
  apply owners_in. exists dirs, k. auto.
Qed.

Definition inputs (doc : document) : list (list input_value) :=
  flat_map (fun p => match snd p with KInput fs => [merged inputs_part doc (fst p) (snd p)] | _ => [] end) (types doc).

Lemma inputs_in : forall doc n fs, input_fields doc n fs -> In fs (inputs doc).
Proof.
  intros doc n fs (dirs & fs0 & Hd & ->). unfold inputs. rewrite in_flat_map. exists (n, KInput fs0).
  split; [apply types_in; eauto|]. now left.
Qed.

Definition kind_of (doc : document) (n : name) (P : kind -> bool) : bool :=
  existsb (fun p => String.eqb (fst p) n && P (snd p)) (types doc).

Lemma kind_of_iff : forall doc n P, kind_of doc n P = true <-> exists dirs k, declares doc n dirs k /\ P k = true.
Proof.
  intros doc n P. unfold kind_of. rewrite existsb_exists. split.
  - intros ([m k] & H & E). cbn in E. apply andb_true_iff in E. destruct E as [E EP]. apply String.eqb_eq in E. subst m.
    apply types_in in H. destruct H as (dirs & H). eauto.
  - intros (dirs & k & H & HP). exists (n, k). split; [apply types_in; eauto|]. cbn. now rewrite String.eqb_refl, HP.
Qed.

Definition outputb (doc : document) (t : ty) : bool :=
  is_builtin_scalar (type_name t) || kind_of doc (type_name t) (fun k => negb (is_input k)).
Definition inputb (doc : document) (t : ty) : bool :=
  is_builtin_scalar (type_name t) || kind_of doc (type_name t) (fun k => is_input k || is_scalar k || is_enum k).

Lemma outputb_ok : forall doc t m, outputb doc t = true -> named_in m t -> output_type doc m.
Proof.
  intros doc t m H HN. apply type_name_iff in HN. subst m. unfold outputb in H. apply orb_true_iff in H.
  destruct H as [H|H]; [left; now apply builtin_iff|]. right. apply kind_of_iff in H. destruct H as (dirs & k & Hd & K).
  exists dirs, k. split; [exact Hd|]. intros fs ->. discriminate.
Qed.

Lemma inputb_ok : forall doc t m, inputb doc t = true -> named_in m t -> input_type doc m.
Proof.
  intros doc t m H HN. apply type_name_iff in HN. subst m. unfold inputb in H. apply orb_true_iff in H.
  destruct H as [H|H]; [left; now apply builtin_iff|]. right. apply kind_of_iff in H. destruct H as (dirs & k & Hd & K).
  exists dirs, k. split; [exact Hd|]. destruct k; try discriminate; exact Logic.I.
Qed.

Definition implementsb (doc : document) (n i : name) : bool :=
  existsb (fun e => String.eqb (fst (fst e)) n && existsb (String.eqb i) (snd (fst e)))
    (owners doc Objects ++ owners doc Interfaces).

Lemma implementsb_ok : forall doc n i, implementsb doc n i = true -> implements doc n i.
Proof.
  intros doc n i H. unfold implementsb in H. apply existsb_exists in H. destruct H as ([[m is] fs] & Hin & H).
  cbn in H. apply andb_true_iff in H. destruct H as [E H]. apply String.eqb_eq in E. subst m. apply existsb_eqb in H.
  apply in_app_iff in Hin. destruct Hin as [Hin|Hin]; apply owners_in in Hin; [exists Objects|exists Interfaces]; eauto.
Qed.

Definition memberb (doc : document) (o u : name) : bool :=
  existsb (fun p => String.eqb (fst p) u && existsb (String.eqb o) (merged members_part doc u (snd p))) (types doc).

Definition sub_typeb (doc : document) (a b : name) : bool :=
  String.eqb a b || (memberb doc a b && kind_of doc a is_object) || (kind_of doc b is_interface && implementsb doc a b).

Lemma sub_typeb_ok : forall doc a b, sub_typeb doc a b = true -> sub_type doc a b.
Proof.
  intros doc a b H. unfold sub_typeb in H. rewrite !orb_true_iff, !andb_true_iff in H.
  destruct H as [[H|[H1 H2]]|[H1 H2]].
  - apply String.eqb_eq in H. subst. constructor.
  - unfold memberb in H1. apply existsb_exists in H1. destruct H1 as ([m k] & Hin & H1). cbn in H1.
    apply andb_true_iff in H1. destruct H1 as [E H1]. apply String.eqb_eq in E. subst m.
    apply types_in in Hin. destruct Hin as (dirs & Hd). apply kind_of_iff in H2. destruct H2 as (d' & k' & Hd' & K').
    apply (subtype_member doc a b dirs k d' k'); [exact Hd|now apply existsb_eqb|exact Hd'|].
    destruct k'; try discriminate; exact Logic.I.
  - apply kind_of_iff in H1. destruct H1 as (dirs & k & Hd & K). apply implementsb_ok in H2.
    apply (subtype_implements doc a b dirs k); [exact Hd| |exact H2]. destruct k; try discriminate; exact Logic.I.
Qed.

Definition covariantb (doc : document) (a b : ty) : bool :=
  wrapper_types_fit a b && sub_typeb doc (type_name a) (type_name b).

Lemma covariantb_ok : forall doc a b, covariantb doc a b = true -> covariant doc a b.
Proof.
  intros doc a b H. unfold covariantb in H. apply andb_true_iff in H. destruct H as [H HS]. apply sub_typeb_ok in HS.
  revert b H HS. induction a as [n x|t IH x]; intros [m y|u y]; cbn [wrapper_types_fit type_name nullable];
    intros H HS; destruct (negb y && x) eqn:E; try discriminate.
  - destruct x.
    + destruct y; [|discriminate]. now constructor.
    + apply cov_non_null; [reflexivity|]. cbn [as_nullable]. now constructor.
  - specialize (IH u H HS). destruct x.
    + destruct y; [|discriminate]. now constructor.
    + apply cov_non_null; [reflexivity|]. cbn [as_nullable]. now constructor.
Qed.

(* what is asked of the fields of an implementer and of its interface *)
Definition fits (doc : document) (strict : bool) (x y : field) : bool :=
  covariantb doc (f_type x) (f_type y) &&
  inclb (map iv_name (f_args y)) (map iv_name (f_args x)) &&
  forallb (fun a => forallb (fun b => negb (String.eqb (iv_name a) (iv_name b)) || ty_eqb (iv_type a) (iv_type b)) (f_args y)
                    && (existsb (String.eqb (iv_name a)) (map iv_name (f_args y)) || nullable (iv_type a)
                        || (negb strict && has_default a)))
          (f_args x).

Definition implementations (doc : document) (o : owner) : list (list name * list name * list field * list field) :=
  flat_map (fun t => flat_map (fun i => if existsb (String.eqb (fst (fst i))) (snd (fst t))
                                        then [(snd (fst t), snd (fst i), snd t, snd i)] else [])
                              (owners doc Interfaces)) (owners doc o).

Lemma implementations_in : forall doc o n i is is' fs fs',
  implementation doc o n i is is' fs fs' -> In (is, is', fs, fs') (implementations doc o).
Proof.
  intros doc o n i is is' fs fs' (H1 & H2 & H3). apply owners_in in H1, H3. unfold implementations.
  apply in_flat_map. exists (n, is, fs). split; [exact H1|]. apply in_flat_map. exists (i, is', fs'). split; [exact H3|].
  cbn [fst snd]. apply existsb_eqb in H2. rewrite H2. now left.
Qed.

Definition implements_well (doc : document) (strict : bool) (e : list name * list name * list field * list field) : bool :=
  let '(is, is', fs, fs') := e in
  inclb is' is && inclb (map f_name fs') (map f_name fs) &&
  forallb (fun y => match find_field (f_name y) fs with Some x => fits doc strict x y | None => true end) fs'.

Lemma find_first : forall fs n x, the_field fs n x -> find_field n fs = Some x.
Proof.
  intros fs n x (a & b & -> & E & H). unfold find_field. induction a as [|y a IH]; cbn [app find].
  - subst n. now rewrite String.eqb_refl.
  - inversion H as [|z l N H']; subst. destruct (String.eqb_spec (f_name y) (f_name x)) as [D|D]; [contradiction|]. auto.
Qed.

Lemma fits_ok : forall doc strict o n i is is' fs fs' x y,
  forallb (implements_well doc strict) (implementations doc o) = true ->
  implementation doc o n i is is' fs fs' -> In y fs' -> the_field fs (f_name y) x ->
  fits doc strict x y = true.
Proof.
  intros doc strict o n i is is' fs fs' x y H HI Hy Hx. rewrite forallb_forall in H.
  specialize (H _ (implementations_in _ _ _ _ _ _ _ _ HI)). unfold implements_well in H.
  rewrite !andb_true_iff, !forallb_forall in H. destruct H as [_ H]. specialize (H y Hy).
  now rewrite (find_first _ _ _ Hx) in H.
Qed.

Definition default_root (r : name) : bool := existsb (String.eqb r) ["Query"; "Mutation"; "Subscription"].
Definition roots (doc : document) : list (name * name) :=
  flat_map (fun d => match d with
    | DSchema s => flat_map (fun p => match snd p with Some n => [(fst p, n)] | None => [] end)
                     [("Query", s_query s); ("Mutation", s_mutation s); ("Subscription", s_subscription s)]
    | _ => [] end) doc.

Lemma roots_in : forall doc s r n, In (DSchema s) doc -> root_of s r (Some n) -> In (r, n) (roots doc).
Proof.
  intros doc s r n Hs HR. unfold roots. apply in_flat_map. exists (DSchema s). split; [exact Hs|].
  apply in_flat_map. exists (r, Some n). split; [|now left].
  destruct HR as [[-> ->]|[[-> ->]|[-> ->]]]; cbn; auto.
Qed.

Definition defines_schema (doc : document) : bool :=
  existsb (fun d => match d with DSchema s => negb (s_extend s) | _ => false end) doc.

Lemma defines_schema_false : forall doc, (forall s, In (DSchema s) doc -> s_extend s = true) -> defines_schema doc = false.
Proof.
  intros doc H. apply Bool.not_true_iff_false. intros E. apply existsb_exists in E. destruct E as ([s|t|d] & Hd & E); try discriminate.
  rewrite (H s Hd) in E. discriminate.
Qed.

Fixpoint one_schema (doc : document) : bool :=
  match doc with
  | [] => true
  | DSchema s :: rest => (s_extend s || negb (defines_schema rest)) && one_schema rest
  | _ :: rest => one_schema rest
  end.

Lemma one_schema_ok : forall doc, one_schema doc = true -> holds OneSchema doc.
Proof.
  cbn [holds]. induction doc as [|d doc IH]; intros H a s b s' c E X; [destruct a; discriminate|].
  destruct a as [|d' a]; cbn [app] in E; injection E as -> ->.
  - cbn [one_schema] in H. rewrite X in H. cbn [orb] in H. apply andb_true_iff in H. destruct H as [H _].
    apply negb_true_iff in H. destruct (s_extend s') eqn:X'; [reflexivity|]. exfalso.
    assert (E : defines_schema (b ++ DSchema s' :: c) = true).
    { apply existsb_exists. exists (DSchema s'). split; [apply in_app_iff; right; now left|]. now rewrite X'. }
    congruence.
  - eapply IH; [|reflexivity|exact X]. destruct d'; cbn [one_schema] in H; try exact H.
    now apply andb_true_iff in H.
Qed.

Definition matches (doc : document) (d : definition) : bool :=
  match d with
  | DType t => negb (t_extend t) || (is_scalar (t_kind t) && is_builtin_scalar (t_name t)) ||
               kind_of doc (t_name t) (fun k => location_eqb (type_location k) (type_location (t_kind t)))
  | _ => true
  end.

(* no directives at all *)
Definition bare_field (f : field) : bool :=
  match f_dirs f with [] => true | _ => false end &&
  forallb (fun a => match iv_dirs a with [] => true | _ => false end) (f_args f).
Definition bare (d : definition) : bool :=
  match d with
  | DDirective _ => false
  | DSchema s => match s_dirs s with [] => true | _ => false end
  | DType t =>
      match t_dirs t with [] => true | _ => false end &&
      match t_kind t with
      | KScalar | KUnion _ => true
      | KObject _ fs | KInterface _ fs => forallb bare_field fs
      | KEnum vs => forallb (fun v => match snd v with [] => true | _ => false end) vs
      | KInput fs => forallb (fun a => match iv_dirs a with [] => true | _ => false end) fs
      end
  end.

Lemma merged_from : forall {A} (part : kind -> list A) doc n dirs k x,
  declares doc n dirs k -> In x (merged part doc n k) -> exists t, In (DType t) doc /\ In x (part (t_kind t)).
Proof.
  intros A part doc n dirs k x Hd Hx. unfold merged in Hx. apply in_app_iff in Hx. destruct Hx as [Hx|Hx].
  - exists (mktype false n dirs k). auto.
  - unfold extension_parts in Hx. apply in_flat_map in Hx. destruct Hx as ([s|t|d] & Ht & Hx); try contradiction.
    destruct (t_extend t); [|contradiction]. destruct (String.eqb (t_name t) n); [|contradiction]. eauto.
Qed.

Lemma bare_uses : forall doc p dirs l, forallb bare doc = true -> uses doc p dirs l -> dirs = [].
Proof.
  intros doc p dirs l H HU. rewrite forallb_forall in H.
  assert (HT : forall t, In (DType t) doc -> t_dirs t = []).
  { intros t Ht. specialize (H _ Ht). cbn [bare] in H. apply andb_true_iff in H. destruct H as [H _]. now destruct (t_dirs t). }
  assert (HF : forall o n f, owned doc o n f -> bare_field f = true).
  { intros o n f (d & k & Hd & _ & Hf). destruct (merged_from _ _ _ _ _ _ Hd Hf) as (t & Ht & Hin).
    specialize (H _ Ht). cbn [bare] in H. apply andb_true_iff in H. destruct H as [_ H].
    destruct (t_kind t); cbn in Hin; try contradiction; rewrite forallb_forall in H; auto. }
  destruct p as [| | | | | | | |o|o| | |]; cbn [uses] in HU; cbv zeta in HU;
    try (destruct HU as (t & Ht & <- & _); now apply HT).
  - destruct HU as (s & Hs & -> & _). specialize (H _ Hs). cbn in H. now destruct (s_dirs s).
  - destruct HU as (n & Hn & _). exact (HT _ Hn).
  - destruct HU as (n & Hn & _). exact (HT _ Hn).
  - destruct HU as (n & f & Hf & -> & _). specialize (HF _ _ _ Hf). unfold bare_field in HF.
    apply andb_true_iff in HF. destruct HF as [HF _]. now destruct (f_dirs f).
  - destruct HU as (n & f & a & Hf & Ha & -> & _). specialize (HF _ _ _ Hf). unfold bare_field in HF.
    apply andb_true_iff in HF. destruct HF as [_ HF]. rewrite forallb_forall in HF. specialize (HF a Ha).
    now destruct (iv_dirs a).
  - destruct HU as (n & d & vs & v & Hd & Hv & -> & _). destruct (merged_from _ _ _ _ _ _ Hd Hv) as (t & Ht & Hin).
    specialize (H _ Ht). cbn [bare] in H. apply andb_true_iff in H. destruct H as [_ H].
    destruct (t_kind t); cbn in Hin; try contradiction. rewrite forallb_forall in H. specialize (H v Hin).
    now destruct (snd v).
  - destruct HU as (n & fs & f & (d & fs0 & Hd & ->) & Hf & -> & _).
    destruct (merged_from _ _ _ _ _ _ Hd Hf) as (t & Ht & Hin).
    specialize (H _ Ht). cbn [bare] in H. apply andb_true_iff in H. destruct H as [_ H].
    destruct (t_kind t); cbn in Hin; try contradiction. rewrite forallb_forall in H. specialize (H f Hin).
    now destruct (iv_dirs f).
  - destruct HU as (d & a & Hd & _). specialize (H _ Hd). discriminate.
Qed.

Definition owner_check (doc : document) (o : owner) : bool :=
  forallb (fun e => match snd e with [] => false | _ => true end && nodupb (map f_name (snd e)) && nodupb (snd (fst e)) &&
                    forallb (fun i => kind_of doc i is_interface) (snd (fst e))) (owners doc o) &&
  forallb (fun f => negb (starts_dunder (f_name f)) && outputb doc (f_type f) && nodupb (map iv_name (f_args f)) &&
                    forallb (fun a => negb (starts_dunder (iv_name a)) && inputb doc (iv_type a)) (f_args f))
          (fields_of doc o) &&
  forallb (implements_well doc false) (implementations doc o).

Definition check (doc : document) : bool :=
  nodupb (map fst (types doc)) &&
  forallb (fun d => match d with DType t => negb (starts_dunder (t_name t)) | _ => true end) doc &&
  one_schema doc &&
  (forallb (fun p => kind_of doc (snd p) is_object) (roots doc) &&
   (defines_schema doc || forallb (fun p => negb (default_root (fst p)) || is_object (snd p)) (types doc))) &&
  forallb (fun p => forallb (fun q => negb (String.eqb (snd p) (snd q)) || String.eqb (fst p) (fst q)) (roots doc)) (roots doc) &&
  (existsb (fun d => match d with DSchema s => match s_query s with Some _ => true | None => false end | _ => false end) doc
   || (negb (defines_schema doc) && kind_of doc "Query" (fun _ => true))) &&
  forallb (matches doc) doc &&
  forallb (fun p => negb (is_builtin_scalar (fst p))) (types doc) &&
  owner_check doc Objects && owner_check doc Interfaces &&
  forallb (fun e => negb (existsb (String.eqb (fst (fst e))) (snd (fst e)))) (owners doc Interfaces) &&
  forallb (fun p => match snd p with
    | KUnion _ => nodupb (merged members_part doc (fst p) (snd p)) &&
                  forallb (fun m => kind_of doc m is_object) (merged members_part doc (fst p) (snd p))
    | KEnum _ => nodupb (map fst (merged values_part doc (fst p) (snd p)))
    | _ => true end) (types doc) &&
  forallb (fun fs => match fs with [] => false | _ => true end && nodupb (map iv_name fs) &&
    forallb (fun f => negb (starts_dunder (iv_name f)) && inputb doc (iv_type f) &&
                      match iv_type f with Named n false => negb (kind_of doc n is_input) | _ => true end) fs) (inputs doc) &&
  forallb bare doc.

Lemma defines_schema_ext : forall doc, defines_schema doc = false -> forall s, In (DSchema s) doc -> s_extend s = true.
Proof.
  intros doc H s Hs. destruct (s_extend s) eqn:E; [reflexivity|]. exfalso.
  assert (X : defines_schema doc = true) by (apply existsb_exists; exists (DSchema s); rewrite E; auto). congruence.
Qed.

Theorem check_ok : forall doc, check doc = true -> forall r, holds r doc.
Proof.
  intros doc H r. unfold check in H. rewrite !andb_true_iff in H.
  destruct H as [[[[[[[[[[[[[H1 H2] H3] [H4 H4']] H5] H6] H7] H8] HO] HI] H9] H10] H11] H12].
  assert (HOW : forall o, owner_check doc o = true) by (intros []; assumption). clear HO HI.
  assert (HO1 : forall o n is fs, has_fields doc o n is fs ->
     fs <> [] /\ NoDup (map f_name fs) /\ NoDup is /\
     forall i, In i is -> exists dirs k, declares doc i dirs k /\ an_interface k).
  { intros o n is fs HF. specialize (HOW o). unfold owner_check in HOW. rewrite !andb_true_iff in HOW.
    destruct HOW as [[HOW _] _]. rewrite forallb_forall in HOW. apply owners_in in HF. specialize (HOW _ HF).
    cbn [fst snd] in HOW. rewrite !andb_true_iff in HOW. destruct HOW as [[[A B] C] D].
    split; [now destruct fs|]. split; [now apply nodupb_ok|]. split; [now apply nodupb_ok|].
    intros i Hi. rewrite forallb_forall in D. specialize (D i Hi). apply kind_of_iff in D. destruct D as (d & k & Hd & K).
    exists d, k. split; [exact Hd|]. destruct k; try discriminate; exact Logic.I. }
  assert (HO2 : forall o n f, owned doc o n f ->
     ~ reserved (f_name f) /\ (forall m, named_in m (f_type f) -> output_type doc m) /\ NoDup (map iv_name (f_args f)) /\
     forall a, In a (f_args f) -> ~ reserved (iv_name a) /\ forall m, named_in m (iv_type a) -> input_type doc m).
  { intros o n f HF. specialize (HOW o). unfold owner_check in HOW. rewrite !andb_true_iff in HOW.
    destruct HOW as [[_ HOW] _]. rewrite forallb_forall in HOW. apply fields_of_in in HF. specialize (HOW _ HF).
    rewrite !andb_true_iff in HOW. destruct HOW as [[[A B] C] D].
    split; [now apply not_reserved, negb_true_iff|]. split; [intros m; now apply outputb_ok|].
    split; [now apply nodupb_ok|]. intros a Ha. rewrite forallb_forall in D. specialize (D a Ha).
    apply andb_true_iff in D. destruct D as [D E]. split; [now apply not_reserved, negb_true_iff|]. intros m. now apply inputb_ok. }
  assert (HO3 : forall o, forallb (implements_well doc false) (implementations doc o) = true).
  { intros o. specialize (HOW o). unfold owner_check in HOW. rewrite !andb_true_iff in HOW. tauto. }
  assert (HO4 : forall o n i is is' fs fs', implementation doc o n i is is' fs fs' ->
     incl is' is /\ incl (map f_name fs') (map f_name fs)).
  { intros o n i is is' fs fs' HF. specialize (HO3 o). rewrite forallb_forall in HO3.
    specialize (HO3 _ (implementations_in _ _ _ _ _ _ _ _ HF)). unfold implements_well in HO3.
    rewrite !andb_true_iff in HO3. destruct HO3 as [[A B] _]. split; now apply inclb_ok. }
  assert (HIN : forall n fs, input_fields doc n fs -> fs <> [] /\ NoDup (map iv_name fs) /\
     forall f, In f fs -> ~ reserved (iv_name f) /\ (forall m, named_in m (iv_type f) -> input_type doc m) /\
       forall m, iv_type f = Named m false -> kind_of doc m is_input = false).
  { intros n fs HF. apply inputs_in in HF. rewrite forallb_forall in H11. specialize (H11 _ HF).
    rewrite !andb_true_iff in H11. destruct H11 as [[A B] C]. split; [now destruct fs|]. split; [now apply nodupb_ok|].
    intros f Hf. rewrite forallb_forall in C. specialize (C f Hf). rewrite !andb_true_iff in C. destruct C as [[C D] E].
    split; [now apply not_reserved, negb_true_iff|]. split; [intros m; now apply inputb_ok|].
    intros m T. rewrite T in E. now apply negb_true_iff. }
  assert (HD : forall d, ~ In (DDirective d) doc).
  { intros d Hd. rewrite forallb_forall in H12. specialize (H12 _ Hd). discriminate. }
  assert (HU : forall p dirs l, uses doc p dirs l -> dirs = []) by (intros p dirs l; now apply bare_uses).
  rewrite forallb_forall in H2, H4, H5, H7, H8, H9, H10.
  destruct r as [| | | | | | | | |o|o|o|o|o|o|o|o|o| |o|o|o|o|o|o| | | | | | | | | | | | | | |p|p|p]; cbn [holds].
  - intros n a x b y c E Hx Hy. apply type_def_iff in Hx, Hy. destruct Hx as (dx & kx & ->), Hy as (dy & ky & ->).
    apply nodupb_ok in H1. rewrite E in H1. unfold types in H1. rewrite flat_map_app in H1. cbn [flat_map] in H1.
    rewrite flat_map_app in H1. cbn [flat_map t_extend t_name t_kind app] in H1.
    rewrite map_app in H1. cbn [map fst] in H1. rewrite map_app in H1. cbn [map fst] in H1.
    rewrite nodup_iff in H1. apply (H1 n). eexists _, _, _. reflexivity.
  - intros t Ht. apply not_reserved, negb_true_iff. exact (H2 _ Ht).
  - now apply one_schema_ok.
  - split.
    + intros s r n Hs HR. specialize (H4 _ (roots_in _ _ _ _ Hs HR)). cbn [snd] in H4. apply kind_of_iff in H4.
      destruct H4 as (d & k & Hd & K). exists d, k. split; [exact Hd|]. destruct k; try discriminate; exact Logic.I.
    + intros HE r dirs k HR Hd. rewrite (defines_schema_false doc HE) in H4'. cbn [orb] in H4'.
      rewrite forallb_forall in H4'. assert (Hin : In (r, k) (types doc)) by (apply types_in; eauto).
      specialize (H4' _ Hin). cbn [fst snd] in H4'. apply orb_true_iff in H4'. destruct H4' as [X|X].
      * exfalso. apply negb_true_iff in X. destruct HR as [-> |[-> | ->]]; discriminate.
      * destruct k; try discriminate; exact Logic.I.
  - intros s s' r r' n Hs Hs' HR HR'. specialize (H5 _ (roots_in _ _ _ _ Hs HR)). rewrite forallb_forall in H5.
    specialize (H5 _ (roots_in _ _ _ _ Hs' HR')). cbn [fst snd] in H5. rewrite String.eqb_refl in H5. cbn [negb orb] in H5.
    now apply String.eqb_eq.
  - apply orb_true_iff in H6. destruct H6 as [H6|H6].
    + left. apply existsb_exists in H6. destruct H6 as ([s|t|d] & Hs & E); try discriminate.
      destruct (s_query s) as [n|] eqn:Q; [|discriminate]. eauto.
    + right. apply andb_true_iff in H6. destruct H6 as [A B]. split; [now apply defines_schema_ext, negb_true_iff|].
      apply kind_of_iff in B. destruct B as (d & k & Hd & _). eauto.
  - intros n dirs k Hx. specialize (H7 _ Hx). cbn in H7. apply orb_true_iff in H7. destruct H7 as [H7|H7].
    + apply andb_true_iff in H7. destruct H7 as [A B]. left. split; [destruct k; try discriminate; reflexivity|now apply builtin_iff].
    + right. apply kind_of_iff in H7. destruct H7 as (d & k' & Hd & E). exists d, k'. split; [exact Hd|].
      now apply location_eqb_eq.
  - intros n dirs k Hd HS. assert (Hin : In (n, k) (types doc)) by (apply types_in; eauto). specialize (H8 _ Hin).
    cbn [fst] in H8. apply builtin_iff in HS. rewrite HS in H8. discriminate.
  - intros n dirs k Hd HS. assert (Hin : In (n, k) (types doc)) by (apply types_in; eauto). specialize (H8 _ Hin).
    cbn [fst] in H8. apply builtin_iff in HS. rewrite HS in H8. discriminate.
  - intros n is fs HF. now apply (HO1 o n is).
  - intros n is fs HF. now apply (HO1 o n is).
  - intros n f HF. now apply (HO2 o n).
  - intros n f m HF. now apply (HO2 o n).
  - intros n f HF. now apply (HO2 o n).
  - intros n f a HF Ha. now apply (HO2 o n f).
  - intros n f a m HF Ha. now apply (HO2 o n f).
  - intros n is fs HF. now apply (HO1 o n is fs).
  - intros n is fs i HF. now apply (HO1 o n is fs).
  - intros n is fs HF Hn. apply owners_in in HF. specialize (H9 _ HF). cbn [fst snd] in H9.
    apply existsb_eqb in Hn. rewrite Hn in H9. discriminate.
  - intros n i is is' fs fs' HF. now apply (HO4 o n i is is' fs fs').
  - intros n i is is' fs fs' HF. now apply (HO4 o n i is is' fs fs').
  - intros n i is is' fs fs' x y HF Hy Hx. pose proof (fits_ok _ _ _ _ _ _ _ _ _ _ _ (HO3 o) HF Hy Hx) as X.
    unfold fits in X. rewrite !andb_true_iff in X. apply covariantb_ok. tauto.
  - intros n i is is' fs fs' x y HF Hy Hx. pose proof (fits_ok _ _ _ _ _ _ _ _ _ _ _ (HO3 o) HF Hy Hx) as X.
    unfold fits in X. rewrite !andb_true_iff in X. apply inclb_ok. tauto.
  - intros n i is is' fs fs' x y a b HF Hy Hx Ha Hb E. pose proof (fits_ok _ _ _ _ _ _ _ _ _ _ _ (HO3 o) HF Hy Hx) as X.
    unfold fits in X. rewrite !andb_true_iff in X. destruct X as [_ X]. rewrite forallb_forall in X. specialize (X a Ha).
    apply andb_true_iff in X. destruct X as [X _]. rewrite forallb_forall in X. specialize (X b Hb).
    rewrite E, String.eqb_refl in X. cbn [negb orb] in X. now apply ty_eqb_eq.
  - intros n i is is' fs fs' x y a HF Hy Hx Ha HN. pose proof (fits_ok _ _ _ _ _ _ _ _ _ _ _ (HO3 o) HF Hy Hx) as X.
    unfold fits in X. rewrite !andb_true_iff in X. destruct X as [_ X]. rewrite forallb_forall in X. specialize (X a Ha).
    apply andb_true_iff in X. destruct X as [_ X]. rewrite !orb_true_iff in X. cbn [negb andb] in X.
    rewrite existsb_eqb in X. tauto.
  - intros n dirs ms m Hd Hm. assert (Hin : In (n, KUnion ms) (types doc)) by (apply types_in; eauto). specialize (H10 _ Hin).
    cbn [fst snd] in H10. apply andb_true_iff in H10. destruct H10 as [_ X]. rewrite forallb_forall in X. specialize (X m Hm).
    apply kind_of_iff in X. destruct X as (d & k & Hk & K). exists d, k. split; [exact Hk|]. destruct k; try discriminate; exact Logic.I.
  - intros n dirs ms Hd. assert (Hin : In (n, KUnion ms) (types doc)) by (apply types_in; eauto). specialize (H10 _ Hin).
    cbn [fst snd] in H10. apply andb_true_iff in H10. apply nodupb_ok. tauto.
  - intros n dirs vs Hd. assert (Hin : In (n, KEnum vs) (types doc)) by (apply types_in; eauto). specialize (H10 _ Hin).
    cbn [fst snd] in H10. now apply nodupb_ok.
  - intros n fs HF. now apply (HIN n).
  - intros n fs HF. now apply (HIN n).
  - intros n fs f HF Hf. now apply (HIN n fs).
  - intros n fs f m HF Hf. now apply (proj2 (proj2 (HIN n fs HF)) f Hf).
  - assert (X : forall n m, requires doc n m -> kind_of doc m is_input = false).
    { intros n m HR. induction HR as [n fs f m HF Hf T|n m p A IA B IB]; [now apply (proj2 (proj2 (HIN n fs HF)) f Hf)|exact IB]. }
    assert (Y : forall n m, requires doc n m -> kind_of doc n is_input = true).
    { intros n m HR. induction HR as [n fs f m (d & fs0 & HF & _) Hf T|n m p A IA B IB]; [|exact IA].
      apply kind_of_iff. exists d, (KInput fs0). auto. }
    intros n HR. specialize (X n n HR). specialize (Y n n HR). congruence.
  - intros n a x b y c E (d & -> & _). exfalso. apply (HD d). rewrite E. apply in_app_iff. right. now left.
  - intros d Hd. destruct (HD d Hd).
  - intros d Hd. destruct (HD d Hd).
  - intros d a Hd. destruct (HD d Hd).
  - intros d a m Hd. destruct (HD d Hd).
  - intros d a Hd. destruct (HD d Hd).
  - intros dirs l d HP Hd. rewrite (HU p dirs l HP) in Hd. destruct Hd.
  - intros dirs l d def HP Hd. rewrite (HU p dirs l HP) in Hd. destruct Hd.
  - intros dirs l d def HP (a & b & c & E). rewrite (HU p dirs l HP) in E. destruct a; discriminate.
Qed.
