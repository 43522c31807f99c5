(* Accepted documents and the rules of the specification. *)
From Coq Require Import Ascii String List Bool Arith Lia.
From Verif.SdlValidation Require Import Model Spec Facts CheckFacts CycleFacts DocFacts Textbook.
Import ListNotations.
Local Open Scope string_scope.
Local Open Scope list_scope.

Lemma nodup_iff : forall (l : list name), NoDup l <-> forall x, ~ twice l x.
Proof.
  intros l. split.
  - intros H x (a & b & c & ->). induction a as [|y a IH]; cbn [app] in H; inversion H as [|z l' N ND]; subst.
    + apply N. apply in_app_iff. right. now left.
    + auto.
  - induction l as [|x l IH]; intros H; constructor.
    + intros Hx. apply in_split in Hx. destruct Hx as (b & c & ->). apply (H x). now exists [], b, c.
    + apply IH. intros y (a & b & c & ->). apply (H y). now exists (x :: a), b, c.
Qed.

Lemma last_by_name : forall (l : list input_value) a,
  NoDup (map iv_name l) -> In a l -> last_with (fun z => iv_name z = iv_name a) l a.
Proof.
  intros l a H Ha. apply in_split in Ha. destruct Ha as (b & c & ->). exists b, c.
  split; [reflexivity|]. split; [reflexivity|]. apply Forall_forall. intros z Hz E.
  rewrite nodup_iff in H. apply (H (iv_name a)). apply in_split in Hz. destruct Hz as (u & v & ->).
  exists (map iv_name b), (map iv_name u), (map iv_name v). rewrite map_app. cbn [map]. rewrite map_app. cbn [map].
  now rewrite E.
Qed.

Lemma no_extension_parts : forall {A} (part : kind -> list A) doc n,
  no_extensions doc -> extension_parts part doc n = [].
Proof.
  intros A part doc n [H _]. unfold extension_parts. induction doc as [|d doc IH]; [reflexivity|]. cbn [flat_map].
  rewrite IH by (intros t Ht; apply H; now right). rewrite app_nil_r.
  destruct d as [s|t|d]; try reflexivity. rewrite (H t) by now left. reflexivity.
Qed.

Lemma merged_alone : forall {A} (part : kind -> list A) doc n k,
  no_extensions doc -> merged part doc n k = part k.
Proof. intros. unfold merged. rewrite no_extension_parts by assumption. apply app_nil_r. Qed.

Lemma type_def_iff : forall n d, type_def n d <-> exists dirs k, d = DType (mktype false n dirs k).
Proof.
  intros n d. split.
  - intros (t & -> & X & <-). exists (t_dirs t), (t_kind t). destruct t as [x m dirs k]. cbn in *. now subst.
  - intros (dirs & k & ->). exists (mktype false n dirs k). auto.
Qed.

Lemma defined_declares : forall doc n t, defined doc n t -> declares doc n (t_dirs t) (t_kind t).
Proof.
  intros doc n t H. destruct (defined_name _ _ _ H) as (<- & X & Hin). unfold declares.
  destruct t as [x m dirs k]. cbn in *. now subst.
Qed.

Lemma declares_some : forall doc n dirs k, declares doc n dirs k -> exists t, defined doc n t.
Proof.
  intros doc n dirs k H. destruct (last_def doc n) as [t|] eqn:E.
  - exists t. now apply last_def_iff.
  - apply not_type_def_last_def in E. rewrite Forall_forall in E. exfalso. apply (E _ H). apply type_def_iff. eauto.
Qed.

Lemma undefined_none : forall doc n, undefined doc n <-> forall dirs k, ~ declares doc n dirs k.
Proof.
  intros doc n. split.
  - intros H dirs k Hd. destruct (declares_some _ _ _ _ Hd) as (t & Ht). exact (H t Ht).
  - intros H t Ht. exact (H _ _ (defined_declares _ _ _ Ht)).
Qed.

Lemma defined_dec : forall doc n, (exists t, defined doc n t) \/ undefined doc n.
Proof.
  intros doc n. destruct (definition_of (collected doc) n) as [t|] eqn:E.
  - left. exists t. now apply definition_of_iff.
  - right. now apply definition_of_none.
Qed.

(* one definition per name *)
Lemma declares_defined : forall doc n dirs k,
  holds TypeNamesUnique doc -> declares doc n dirs k -> defined doc n (mktype false n dirs k).
Proof.
  intros doc n dirs k HU Hd. unfold declares in Hd. apply in_split in Hd. destruct Hd as (a & b & E).
  exists a, b. split; [exact E|]. split; [apply type_def_iff; eauto|].
  apply Forall_forall. intros d Hin Hd. apply in_split in Hin. destruct Hin as (u & v & ->).
  refine (HU n a _ u d v E _ Hd). apply type_def_iff. eauto.
Qed.

Lemma declares_unique : forall doc n dirs k dirs' k',
  holds TypeNamesUnique doc -> declares doc n dirs k -> declares doc n dirs' k' -> k = k' /\ dirs = dirs'.
Proof.
  intros doc n dirs k dirs' k' HU H H'.
  pose proof (defined_unique _ _ _ _ (declares_defined _ _ _ _ HU H) (declares_defined _ _ _ _ HU H')) as E.
  injection E as -> ->. auto.
Qed.

Lemma has_fields_implementer : forall doc o n is fs,
  has_fields doc o n is fs -> implementer doc n is fs.
Proof.
  intros doc o n is fs (dirs & k & Hd & HO & -> & ->).
  destruct o, k as [|is0 fs0|is0 fs0|ms|vs|fs0]; cbn in HO; try contradiction.
  - eapply implementer_object; eauto; reflexivity.
  - eapply implementer_interface; eauto; reflexivity.
Qed.

Lemma implementer_has_fields : forall doc n is fs,
  implementer doc n is fs -> exists o, has_fields doc o n is fs.
Proof.
  intros doc n is fs [dirs is0 fs0 Hd -> ->|dirs is0 fs0 Hd -> ->].
  - exists Objects, dirs, (KObject is0 fs0). cbn. auto.
  - exists Interfaces, dirs, (KInterface is0 fs0). cbn. auto.
Qed.

Lemma owned_object : forall doc n f, owned doc Objects n f -> checked_field doc n f.
Proof.
  intros doc n f (dirs & k & Hd & HO & Hf). destruct k; cbn in HO; try contradiction. eapply checked_object; eauto.
Qed.

Lemma owned_checked : forall doc o n f, no_extensions doc -> owned doc o n f -> checked_field doc n f.
Proof.
  intros doc o n f HX (dirs & k & Hd & HO & Hf). rewrite merged_alone in Hf by exact HX.
  destruct o, k as [|is0 fs0|is0 fs0|ms|vs|fs0]; cbn in HO; try contradiction.
  - eapply checked_object; [exact Hd|]. apply in_app_iff. now left.
  - eapply checked_interface; eauto.
Qed.

Lemma checked_owned : forall doc n f, checked_field doc n f -> exists o, owned doc o n f.
Proof.
  intros doc n f [dirs is fs Hd Hf|dirs is fs Hd Hf].
  - exists Objects, dirs, (KObject is fs). cbn. auto.
  - exists Interfaces, dirs, (KInterface is fs). split; [exact Hd|]. split; [exact Logic.I|].
    unfold merged. apply in_app_iff. now left.
Qed.

Lemma not_extended : forall doc n t, no_extensions doc -> ~ extended doc n t.
Proof.
  intros doc n t [HX _] H. destruct (extended_name _ _ _ H) as (_ & E & Hin). rewrite (HX t Hin) in E. discriminate.
Qed.

Section Accepted.
Variable opts : options.
Variable doc : document.
Hypothesis OK : forall e, ~ violates opts doc e.

Lemma acc_unique : holds TypeNamesUnique doc.
Proof. intros n a x b y c E H1 H2. apply (OK (DuplicateDefinition n)). cbn [violates]. exists a, x, b, y, c. auto. Qed.

Lemma acc_defined : forall n dirs k, declares doc n dirs k -> defined doc n (mktype false n dirs k).
Proof. intros. apply declares_defined; [exact acc_unique|assumption]. Qed.

Lemma kind_object_dec : forall k, an_object k \/ forall is fs, k <> KObject is fs.
Proof. intros []; cbn; try (right; discriminate). now left. Qed.

Lemma kind_interface_dec : forall k, an_interface k \/ forall is fs, k <> KInterface is fs.
Proof. intros []; cbn; try (right; discriminate). now left. Qed.

Lemma acc_object : forall t, (~ exists u, defined doc t u /\ forall is fs, t_kind u <> KObject is fs) ->
  ~ undefined doc t -> exists dirs k, declares doc t dirs k /\ an_object k.
Proof.
  intros t H1 H2. destruct (defined_dec doc t) as [(u & Hu)|Hu]; [|contradiction].
  exists (t_dirs u), (t_kind u). split; [now apply defined_declares|].
  destruct (kind_object_dec (t_kind u)) as [K|K]; [exact K|]. exfalso. apply H1. exists u. auto.
Qed.

Lemma acc_input : forall t p n, input_position doc t p -> named_in n t -> input_type doc n.
Proof.
  intros t p n HP HN. unfold input_type.
  destruct (is_builtin_scalar n) eqn:B; [left; now apply builtin_iff|]. apply builtin_false_iff in B. right.
  destruct (defined_dec doc n) as [(u & Hu)|Hu].
  - exists (t_dirs u), (t_kind u). split; [now apply defined_declares|].
    destruct (t_kind u) as [|is fs|is fs|ms|vs|fs] eqn:K; try exact Logic.I;
      apply (OK (OutputInInput n p)); cbn [violates]; (split; [exact B|]); exists t, u; rewrite K;
      repeat (split; [first [assumption|discriminate]|]); discriminate.
  - exfalso. apply (OK (UnknownType n p)). cbn [violates]. split; [exact B|]. split; [exact Hu|].
    exists t. split; [exact HN|]. now left.
Qed.

Hypothesis FORBID : forbid_unknown opts = true \/ no_extensions doc.

Lemma acc_output : forall t p n, output_position doc t p -> named_in n t -> output_type doc n.
Proof.
  intros t p n HP HN. unfold output_type.
  destruct (is_builtin_scalar n) eqn:B; [left; now apply builtin_iff|]. apply builtin_false_iff in B. right.
  destruct (defined_dec doc n) as [(u & Hu)|Hu].
  - exists (t_dirs u), (t_kind u). split; [now apply defined_declares|].
    intros fs K. apply (OK (InputInOutput n p)). cbn [violates]. split; [exact B|].
    exists t, u, fs. repeat (split; [assumption|]). split; [now left|exact K].
  - exfalso. apply (OK (UnknownType n p)). cbn [violates]. split; [exact B|]. split; [exact Hu|].
    exists t. split; [exact HN|]. right. split; [exact HP|]. intros HF u Hx.
    destruct FORBID as [F|X]; [congruence|]. exact (not_extended _ _ _ X Hx).
Qed.

Lemma acc_interface : forall n is fs i, implementer doc n is fs -> In i is ->
  exists dirs k, declares doc i dirs k /\ an_interface k.
Proof.
  intros n is fs i HI Hi. destruct (defined_dec doc i) as [(u & Hu)|Hu].
  - exists (t_dirs u), (t_kind u). split; [now apply defined_declares|].
    destruct (kind_interface_dec (t_kind u)) as [K|K]; [exact K|]. exfalso.
    apply (OK (NotAnInterface n i)). cbn [violates]. exists is, fs, u. repeat (split; [assumption|]).
    split; [now left|exact K].
  - exfalso. apply (OK (UnknownInterface n i)). cbn [violates]. exists is, fs. repeat (split; [assumption|]).
    intros u [H|(_ & F & Hx)]; [exact (Hu u H)|]. destruct FORBID as [F'|X]; [congruence|].
    exact (not_extended _ _ _ X Hx).
Qed.

(* ------------------------------------------------ directives *)

Lemma acc_locations : forall dirs l d def,
  site doc dirs l -> In d dirs -> directive_defined doc d def -> In l (d_locations def).
Proof.
  intros dirs l d def HS Hd HD. destruct (existsb (fun x => location_eqb x l) (d_locations def)) eqn:E.
  - apply existsb_exists in E. destruct E as (x & Hx & E). apply location_eqb_eq in E. now subst.
  - exfalso. apply (OK (BadLocation d l)). cbn [violates]. exists dirs, def. repeat (split; [assumption|]).
    intros Hl. assert (X : existsb (fun x => location_eqb x l) (d_locations def) = true).
    { apply existsb_exists. exists l. split; [exact Hl|now apply location_eqb_eq]. }
    congruence.
Qed.

Lemma acc_repeated : forall dirs l d def,
  site doc dirs l -> twice dirs d -> directive_defined doc d def -> d_repeatable def = true.
Proof.
  intros dirs l d def HS Hd HD. destruct (d_repeatable def) eqn:E; [reflexivity|].
  exfalso. apply (OK (NotRepeatable d)). cbn [violates]. exists dirs, l, def. auto.
Qed.

Lemma on_site : forall dirs l t, In (DType t) doc -> t_dirs t = dirs -> type_location (t_kind t) = l ->
  t_kind t <> KScalar -> site doc dirs l.
Proof.
  intros dirs l t Ht <- <- K. destruct (t_kind t) eqn:E; cbn [type_location].
  - contradiction.
  - eapply site_object; eauto.
  - eapply site_interface; eauto.
  - eapply site_union; eauto.
  - eapply site_enum; eauto.
  - eapply site_input; eauto.
Qed.

Lemma uses_site : forall p dirs l,
  at_position p = Enforced \/ (at_position p = WithoutExtensions /\ no_extensions doc) ->
  uses doc p dirs l -> site doc dirs l.
Proof.
  intros p dirs l HL HU.
  destruct p as [| | | | | | | |o|o| | |]; cbn [uses] in HU; cbv zeta in HU;
    try (destruct HU as (t & Ht & E & K & ->); apply (on_site dirs _ t Ht E K); intros Z; rewrite Z in K; discriminate).
  - destruct HU as (s & Hs & -> & ->). now constructor.
  - destruct HL as [HL|[HL _]]; discriminate.
  - destruct HU as (n & Hn & ->). now apply (site_scalar doc n).
  - destruct HU as (n & f & Hf & -> & ->). apply (site_field doc n). destruct o.
    + now apply owned_object.
    + destruct HL as [HL|[_ HX]]; [discriminate|]. now apply (owned_checked doc Interfaces).
  - destruct HU as (n & f & a & Hf & Ha & -> & ->). apply (site_argument doc n (f_name f)). exists f.
    split; [|auto]. destruct o.
    + now apply owned_object.
    + destruct HL as [HL|[_ HX]]; [discriminate|]. now apply (owned_checked doc Interfaces).
  - destruct HU as (n & d & vs & v & Hd & Hv & -> & ->). apply (site_value doc n). exists d, vs. auto.
  - destruct HL as [HL|[_ HX]]; [discriminate|].
    destruct HU as (n & fs & f & (d & fs0 & Hd & ->) & Hf & -> & ->). apply (site_input_field doc n).
    exists d, fs0. split; [exact Hd|]. now rewrite merged_alone in Hf.
  - destruct HL as [HL|[HL _]]; discriminate.
Qed.

(* ------------------------------------------------ implementations *)

Lemma implementation_facts : forall o n i is is' fs fs',
  no_extensions doc -> implementation doc o n i is is' fs fs' ->
  implementer doc n is fs /\ In i is /\ exists u, resolves opts doc i u /\ t_kind u = KInterface is' fs'.
Proof.
  intros o n i is is' fs fs' HX (H1 & H2 & (dirs & k & Hd & HO & -> & ->)).
  split; [now apply (has_fields_implementer doc o)|]. split; [exact H2|].
  destruct k as [|is0 fs0|is0 fs0|ms|vs|fs0]; cbn in HO; try contradiction.
  exists (mktype false i dirs (KInterface is0 fs0)). split; [left; now apply acc_defined|].
  rewrite !merged_alone by exact HX. reflexivity.
Qed.

Lemma acc_members : forall n dirs ms m, declares doc n dirs (KUnion ms) ->
  In m (merged members_part doc n (KUnion ms)) -> exists dirs' k, declares doc m dirs' k /\ an_object k.
Proof.
  intros n dirs ms m Hd Hm. apply acc_object.
  - intros H. apply (OK (UnionNotObject n m)). cbn [violates]. split; [exact H|]. exists dirs, ms. auto.
  - intros H. apply (OK (UnionUnknown n m)). cbn [violates]. split; [exact H|]. exists dirs, ms. auto.
Qed.

Lemma subtype_textbook : forall a b, no_extensions doc -> named_subtype doc a b -> sub_type doc a b.
Proof.
  intros a b HX [n|o u t ms Hu K Hin|o i t u is fs is' fs' Ht K Hu K' Hin|o i t u is fs is' fs' Ht K Hu K' Hin].
  - constructor.
  - apply defined_declares in Hu. rewrite K in Hu.
    assert (Hm : In o (merged members_part doc u (KUnion ms))) by now rewrite merged_alone.
    destruct (acc_members u (t_dirs t) ms o Hu Hm) as (d & k & Hd & Hk).
    exact (subtype_member doc o u _ _ d k Hu Hm Hd Hk).
  - apply defined_declares in Ht, Hu. rewrite K in Ht. rewrite K' in Hu.
    apply (subtype_implements doc o i _ _ Ht Logic.I). exists Objects, is', fs'. split; [|exact Hin].
    exists (t_dirs u), (KObject is' fs'). rewrite !merged_alone by exact HX. cbn. auto.
  - apply defined_declares in Ht, Hu. rewrite K in Ht. rewrite K' in Hu.
    apply (subtype_implements doc o i _ _ Ht Logic.I). exists Interfaces, is', fs'. split; [|exact Hin].
    exists (t_dirs u), (KInterface is' fs'). rewrite !merged_alone by exact HX. cbn. auto.
Qed.

Lemma covariant_textbook : forall a b, no_extensions doc -> implementation_type doc a b -> covariant doc a b.
Proof.
  intros a b HX H. induction H as [a b N H IH|a b H IH|a b H].
  - now apply cov_non_null.
  - now apply cov_list.
  - apply cov_named. now apply subtype_textbook.
Qed.

Lemma implementation_type_dec : forall a b, implementation_type doc a b \/ ~ implementation_type doc a b.
Proof.
  intros a b. rewrite <- wrapper_types_iff, <- inner_type_iff.
  destruct (wrapper_types_fit a b); [|right; intros [H _]; discriminate].
  destruct (inner_type_fits (collected doc) (type_name a) (type_name b)); [now left|].
  right. intros [_ H]. discriminate.
Qed.

Lemma first_in : forall fs f x, the_field fs f x -> In x fs /\ f_name x = f.
Proof. intros fs f x H. now apply first_with_in in H. Qed.

Lemma acc_args_unique : forall n f, checked_field doc n f -> NoDup (map iv_name (f_args f)).
Proof.
  intros n f Hf. apply nodup_iff. intros a Ha. apply (OK (DuplicateArgument n (f_name f) a)). cbn [violates].
  exists f. auto.
Qed.

Lemma implementer_owned : forall o n is fs f, has_fields doc o n is fs -> In f fs -> owned doc o n f.
Proof. intros o n is fs f (dirs & k & Hd & HO & -> & ->) Hf. exists dirs, k. auto. Qed.

Lemma requires_path : forall n m, no_extensions doc -> requires doc n m ->
  exists dirs fs chain, declares doc n dirs (KInput fs) /\ input_path doc fs chain m.
Proof.
  intros n m HX H. induction H as [n fs f m (dirs & fs0 & Hd & ->) Hf T|n m p H1 IH1 H2 IH2].
  - rewrite merged_alone in Hf by exact HX. exists dirs, fs0, [iv_name f]. split; [exact Hd|].
    now constructor.
  - destruct IH1 as (d1 & fs1 & c1 & Hd1 & P1). destruct IH2 as (d2 & fs2 & c2 & Hd2 & P2).
    exists d1, fs1, (c1 ++ c2). split; [exact Hd1|]. clear H1 H2 Hd1 d1 n.
    apply acc_defined in Hd2. revert c2 P2.
    induction P1 as [fs f m Hf T|fs f k t inner chain m Hf T Ht K P IH]; intros c2 P2; cbn [app].
    + eapply path_step; eauto. reflexivity.
    + eapply path_step; eauto.
Qed.

End Accepted.
