(* Properties of the comparison of two schemas (C50). *)
From Coq Require Import String List Bool Arith Lia Sorted.
Import ListNotations.
From Verif.SchemaDiff Require Import Ast Search Diff MapFacts DocFacts.
Local Open Scope string_scope.
Local Open Scope list_scope.

(** The specification: the differences between two documents. *)

Definition has_fields (k : kind) : Prop := k = KObject \/ k = KInterface \/ k = KInput.

(* Objects and interfaces, which implement interfaces. *)
Definition Composite (d : doc) (n : string) : Prop := Defines d n KObject \/ Defines d n KInterface.

Definition add_member_kind (k : kind) : ckind :=
  match k with KEnum => AddEnumValue | KUnion => AddUnionMember | _ => AddField end.
Definition remove_member_kind (k : kind) : ckind :=
  match k with KEnum => RemoveEnumValue | KUnion => RemoveUnionMember | _ => RemoveField end.

Definition no_member (d : doc) (n f : string) : Prop := forall t p, ~ Member d n f t p.
Definition is_member (d : doc) (n f : string) : Prop := exists t p, Member d n f t p.

Inductive Changed (a b : doc) : change -> Prop :=
(* the schema definition *)
| ch_query x y : In (DSchema x) a -> In (DSchema y) b -> r_query x <> r_query y ->
    Changed a b (mkchange PSchema ChangeQueryType (NameText (r_query y)))
| ch_mutation x y : In (DSchema x) a -> In (DSchema y) b -> r_mutation x <> r_mutation y ->
    Changed a b (mkchange PSchema ChangeMutationType (NameText (r_mutation y)))
| ch_subscription x y : In (DSchema x) a -> In (DSchema y) b -> r_subscription x <> r_subscription y ->
    Changed a b (mkchange PSchema ChangeSubscriptionType (NameText (r_subscription y)))
| ch_add_schema y : (forall x, ~ In (DSchema x) a) -> In (DSchema y) b ->
    Changed a b (mkchange PSchema AddSchemaDefinition (DefText (DSchema y)))
| ch_remove_schema x : In (DSchema x) a -> (forall y, ~ In (DSchema y) b) ->
    Changed a b (mkchange PSchema RemoveSchemaDefinition NoText)
(* its extensions, which are counted *)
| ch_add_ext i y : nth_error (schema_exts b) i = Some y -> length (schema_exts a) <= i ->
    Changed a b (mkchange PSchemaExt AddSchemaExtension (DefText (DSchemaExt y)))
| ch_remove_ext : length (schema_exts b) < length (schema_exts a) ->
    Changed a b (mkchange PSchemaExt RemoveSchemaExtension NoText)
(* types and directives that appear or disappear; a type of another kind is
   another type *)
| ch_add_type n k x : In x b -> In n (def_name x) -> def_kind x = Some k -> ~ Defines a n k ->
    Changed a b (mkchange (PType n) (add_kind k) (DefText x))
| ch_remove_type n k : Defines a n k -> ~ Defines b n k ->
    Changed a b (mkchange (PType n) (remove_kind k) NoText)
(* implemented interfaces *)
| ch_add_impl n i : Composite a n -> Composite b n -> ~ Implements a n i -> Implements b n i ->
    Changed a b (mkchange (PImpl n i) AddInterfaceImplementation NoText)
| ch_remove_impl n i : Composite a n -> Composite b n -> Implements a n i -> ~ Implements b n i ->
    Changed a b (mkchange (PImpl n i) RemoveInterfaceImplementation NoText)
(* fields, values and members *)
| ch_add_member n f k t p : Defines a n k -> Defines b n k -> no_member a n f -> Member b n f t p ->
    Changed a b (mkchange (PField n f) (add_member_kind k) p)
| ch_remove_member n f k : Defines a n k -> Defines b n k -> is_member a n f -> no_member b n f ->
    Changed a b (mkchange (PField n f) (remove_member_kind k) NoText)
| ch_field_type n f k t u : Defines a n k -> Defines b n k -> HasField a n f t -> HasField b n f u -> t <> u ->
    Changed a b (mkchange (PField n f) ChangeFieldType (TypeText u))
(* arguments of the fields that are in both *)
| ch_add_arg n f y : is_member a n f -> (forall x, HasArg a n f x -> i_name x <> i_name y) -> HasArg b n f y ->
    Changed a b (mkchange (PArg n f (i_name y)) AddFieldArgument (InputText y))
| ch_remove_arg n f x : is_member b n f -> HasArg a n f x -> (forall y, HasArg b n f y -> i_name y <> i_name x) ->
    Changed a b (mkchange (PArg n f (i_name x)) RemoveFieldArgument NoText)
| ch_arg_type n f x y : HasArg a n f x -> HasArg b n f y -> i_name x = i_name y -> i_type x <> i_type y ->
    Changed a b (mkchange (PArg n f (i_name y)) ChangeFieldArgumentType (TypeText (i_type y)))
| ch_add_default n f x y v : HasArg a n f x -> HasArg b n f y -> i_name x = i_name y ->
    i_default x = None -> i_default y = Some v ->
    Changed a b (mkchange (PArg n f (i_name y)) AddFieldArgumentDefault (DefaultText v))
| ch_remove_default n f x y v : HasArg a n f x -> HasArg b n f y -> i_name x = i_name y ->
    i_default x = Some v -> i_default y = None ->
    Changed a b (mkchange (PArg n f (i_name y)) RemoveFieldArgumentDefault NoText)
| ch_change_default n f x y u v : HasArg a n f x -> HasArg b n f y -> i_name x = i_name y ->
    i_default x = Some u -> i_default y = Some v -> u <> v ->
    Changed a b (mkchange (PArg n f (i_name y)) ChangeFieldArgumentDefault (DefaultText v)).

(** Proofs *)

Lemma schema_defs_in : forall d x, In x (schema_defs d) <-> In (DSchema x) d.
Proof.
  intros d x. unfold schema_defs. rewrite in_flat_map. split.
  - intros (y & Y & H). destruct y; cbn in H; try contradiction. destruct H as [<-|[]]. exact Y.
  - intros H. exists (DSchema x). cbn. auto.
Qed.

Lemma last_schema_spec : forall d x, doc_ok d -> (last_schema d = Some x <-> In (DSchema x) d).
Proof.
  intros d x OK. rewrite <- schema_defs_in. pose proof (ok_schema d OK) as L. unfold last_schema.
  destruct (schema_defs d) as [|y [|z l]]; cbn in *; [split; [discriminate|contradiction]| |lia].
  split; [intros [= ->]; auto|]. intros [->|[]]. reflexivity.
Qed.

Lemma last_schema_none : forall d, last_schema d = None <-> forall x, ~ In (DSchema x) d.
Proof.
  intros d. split.
  - intros H x X. apply schema_defs_in in X. unfold last_schema in H.
    assert (G : forall l, In x l -> last (map Some l) None <> None).
    { clear. induction l as [|y l IH]; [intros []|]. intros H. destruct l as [|z l]; [discriminate|].
      destruct H as [->|H].
      - clear IH. revert z. induction l as [|w l IH]; intros z; [discriminate|]. cbn in *. apply IH.
      - apply IH in H. exact H. }
    exact (G _ X H).
  - intros H. unfold last_schema. destruct (schema_defs d) as [|y l] eqn:E; [reflexivity|].
    exfalso. apply (H y). apply schema_defs_in. rewrite E. cbn. auto.
Qed.

Lemma name_eqb_spec : forall a b, name_eqb a b = true <-> a = b.
Proof.
  intros [x|] [y|]; cbn; try (split; congruence). rewrite String.eqb_eq. split; congruence.
Qed.

Lemma schema_changes_spec : forall a b c, doc_ok a -> doc_ok b ->
  In c (schema_changes (last_schema a) (last_schema b)) ->
  Changed a b c.
Proof.
  intros a b c A B H.
  destruct (last_schema a) as [x|] eqn:X, (last_schema b) as [y|] eqn:Y; cbn in H.
  - apply (last_schema_spec a x A) in X. apply (last_schema_spec b y B) in Y.
    rewrite !in_app_iff in H. destruct H as [H|[H|H]].
    + destruct (name_eqb (r_query x) (r_query y)) eqn:E; [contradiction|]. destruct H as [<-|[]].
      eapply ch_query; eauto. intros Q. apply name_eqb_spec in Q. congruence.
    + destruct (name_eqb (r_mutation x) (r_mutation y)) eqn:E; [contradiction|]. destruct H as [<-|[]].
      eapply ch_mutation; eauto. intros Q. apply name_eqb_spec in Q. congruence.
    + destruct (name_eqb (r_subscription x) (r_subscription y)) eqn:E; [contradiction|]. destruct H as [<-|[]].
      eapply ch_subscription; eauto. intros Q. apply name_eqb_spec in Q. congruence.
  - apply (last_schema_spec a x A) in X. destruct H as [<-|[]]. eapply ch_remove_schema; eauto.
    apply last_schema_none. exact Y.
  - apply (last_schema_spec b y B) in Y. destruct H as [<-|[]]. eapply ch_add_schema; eauto.
    apply last_schema_none. exact X.
  - contradiction.
Qed.

Lemma mem_spec : forall x l, mem x l = true <-> In x l.
Proof.
  intros. unfold mem. rewrite existsb_exists. split.
  - intros (y & Y & E). apply String.eqb_eq in E. congruence.
  - intros H. exists x. split; [exact H|]. apply String.eqb_refl.
Qed.

Lemma mem_false : forall x l, mem x l = false <-> ~ In x l.
Proof.
  intros. rewrite <- mem_spec. destruct (mem x l); split; congruence.
Qed.

Lemma implements_in : forall d n i, doc_ok d -> forall l, In (n, l) (impls_of d) -> (Implements d n i <-> In i l).
Proof.
  intros d n i OK l L. apply impls_in in L. destruct L as (fs & L). split.
  - intros [impls gs T I|impls gs T I]; destruct L as [L|L];
      pose proof (type_unique d _ _ OK T L eq_refl) as E; congruence.
  - intros I. destruct L as [L|L]; [eapply impl_object|eapply impl_interface]; eauto.
Qed.

Lemma composite_impls : forall d n, Composite d n <-> exists l, In (n, l) (impls_of d).
Proof.
  intros d n. split.
  - intros [H|H]; inversion H; subst; destruct t; cbn in *; try discriminate; eexists; apply impls_in; eexists;
      unfold HasType; eauto.
  - intros (l & H). apply impls_in in H. destruct H as (fs & [H|H]).
    + left. destruct H as [H|H]; [apply (defines_type d n _ H eq_refl)|apply (defines_ext d n _ H eq_refl)].
    + right. destruct H as [H|H]; [apply (defines_type d n _ H eq_refl)|apply (defines_ext d n _ H eq_refl)].
Qed.

Lemma impl_changes_spec : forall a b c, doc_ok a -> doc_ok b ->
  (In c (flat_map impl_changes (impls_map a b)) <->
   exists n i, Composite a n /\ Composite b n /\
     (Implements a n i /\ ~ Implements b n i /\ c = mkchange (PImpl n i) RemoveInterfaceImplementation NoText \/
      ~ Implements a n i /\ Implements b n i /\ c = mkchange (PImpl n i) AddInterfaceImplementation NoText)).
Proof.
  intros a b c A B. rewrite in_flat_map. split.
  - intros ((n & s & t) & E & H). apply (in_fill String.eqb String.eqb_eq) in E. destruct E as (ES & ET & _).
    cbn in H. destruct s as [s|]; [|contradiction]. destruct t as [t|]; [|contradiction].
    symmetry in ES, ET.
    apply (last_of_in String.eqb String.eqb_eq _ _ _ (impls_keys a A)) in ES.
    apply (last_of_in String.eqb String.eqb_eq _ _ _ (impls_keys b B)) in ET.
    rewrite in_app_iff, !in_flat_map in H. destruct H as [(i & I & H)|(i & I & H)].
    + destruct (mem i t) eqn:M; [contradiction|]. destruct H as [<-|[]]. apply mem_false in M.
      exists n, i. split; [apply composite_impls; eauto|]. split; [apply composite_impls; eauto|]. left.
      split; [apply (implements_in a n i A s ES); exact I|]. split; [|reflexivity].
      intros Q. apply M. apply (implements_in b n i B t ET). exact Q.
    + destruct (mem i s) eqn:M; [contradiction|]. destruct H as [<-|[]]. apply mem_false in M.
      exists n, i. split; [apply composite_impls; eauto|]. split; [apply composite_impls; eauto|]. right.
      split; [intros Q; apply M; apply (implements_in a n i A s ES); exact Q|]. split; [|reflexivity].
      apply (implements_in b n i B t ET). exact I.
  - intros (n & i & CA & CB & H). apply composite_impls in CA, CB. destruct CA as (s & ES), CB as (t & ET).
    exists (n, (Some s, Some t)). split.
    + apply (in_fill String.eqb String.eqb_eq).
      split; [symmetry; apply (last_of_in String.eqb String.eqb_eq _ _ _ (impls_keys a A)); exact ES|].
      split; [symmetry; apply (last_of_in String.eqb String.eqb_eq _ _ _ (impls_keys b B)); exact ET|].
      intros [? _]; discriminate.
    + cbn. rewrite in_app_iff, !in_flat_map. destruct H as [(I & N & ->)|(N & I & ->)].
      * left. exists i. split; [apply (implements_in a n i A s ES); exact I|].
        assert (M : mem i t = false).
        { apply mem_false. intros Q. apply N. apply (implements_in b n i B t ET). exact Q. }
        rewrite M. cbn. auto.
      * right. exists i. split; [apply (implements_in b n i B t ET); exact I|].
        assert (M : mem i s = false).
        { apply mem_false. intros Q. apply N. apply (implements_in a n i A s ES). exact Q. }
        rewrite M. cbn. auto.
Qed.

Lemma types_last : forall d n, doc_ok d ->
  (exists x k, last_of String.eqb n (types_of d) = Some x /\ In x d /\ In n (def_name x) /\ def_kind x = Some k /\ Defines d n k) \/
  last_of String.eqb n (types_of d) = None /\ forall k, ~ Defines d n k.
Proof.
  intros d n OK. destruct (last_of String.eqb n (types_of d)) as [x|] eqn:E.
  - left. apply (last_of_some_in String.eqb String.eqb_eq) in E.
    destruct (types_kind_in d n x E) as (k & K & D). apply types_in in E. destruct E. exists x, k. auto.
  - right. split; [reflexivity|]. intros k D. apply types_kind in D. destruct D as (x & X & _).
    apply (last_of_none String.eqb String.eqb_eq) in E. apply E. apply in_map_iff. exists (n, x). auto.
Qed.

Lemma same_kind_spec : forall x y j k, def_kind x = Some j -> def_kind y = Some k -> same_kind x y = kind_eqb j k.
Proof. intros x y j k E F. unfold same_kind. rewrite E, F. reflexivity. Qed.

Lemma type_changes_spec : forall a b c, doc_ok a -> doc_ok b ->
  (In c (flat_map type_changes (types_map a b)) <->
   (exists n k x, In x b /\ In n (def_name x) /\ def_kind x = Some k /\ ~ Defines a n k /\
      c = mkchange (PType n) (add_kind k) (DefText x)) \/
   (exists n k, Defines a n k /\ ~ Defines b n k /\ c = mkchange (PType n) (remove_kind k) NoText)).
Proof.
  intros a b c A B. rewrite in_flat_map. split.
  - intros ((n & s & t) & E & H). apply (in_fill String.eqb String.eqb_eq) in E. destruct E as (ES & ET & N).
    destruct (types_last a n A) as [(x & j & EX & IX & NX & JX & DX)|(EX & NX)], (types_last b n B) as [(y & k & EY & IY & NY & KY & DY)|(EY & NY)];
      rewrite EX in ES; rewrite EY in ET; subst s t; cbn [type_changes] in H.
    + rewrite (same_kind_spec x y j k JX KY) in H. destruct (kind_eqb j k) eqn:Q; [contradiction|].
      assert (NE : j <> k) by (intros ->; rewrite (proj2 (kind_eqb_spec k k) eq_refl) in Q; discriminate).
      apply in_app_iff in H. unfold removed_type, added_type in H. rewrite JX, KY in H.
      destruct H as [[<-|[]]|[<-|[]]].
      * right. exists n, j. split; [exact DX|]. split; [|reflexivity].
        intros D. apply NE. apply (kind_unique b n j k B D DY).
      * left. exists n, k, y. split; [exact IY|]. split; [exact NY|]. split; [exact KY|]. split; [|reflexivity].
        intros D. apply NE. apply (kind_unique a n j k A DX D).
    + unfold removed_type in H. rewrite JX in H. destruct H as [<-|[]]. right. exists n, j. auto.
    + unfold added_type in H. rewrite KY in H. destruct H as [<-|[]]. left. exists n, k, y. auto.
    + exfalso. apply N. auto.
  - intros [(n & k & x & IX & NX & KX & ND & ->)|(n & k & D & ND & ->)].
    + assert (INX : In (n, x) (types_of b)) by (apply types_in; auto).
      pose proof (proj2 (last_of_in String.eqb String.eqb_eq _ _ _ (types_keys b B)) INX) as LB.
      exists (n, (last_of String.eqb n (types_of a), Some x)). split.
      * apply (in_fill String.eqb String.eqb_eq). split; [reflexivity|]. split; [auto|]. intros [_ ?]; discriminate.
      * destruct (types_last a n A) as [(y & j & EY & IY & NY & JY & DY)|(EY & NY)]; rewrite EY; cbn [type_changes].
        -- rewrite (same_kind_spec y x j k JY KX).
           destruct (kind_eqb j k) eqn:Q; [apply kind_eqb_spec in Q; subst; contradiction|].
           apply in_app_iff. right. unfold added_type. rewrite KX. cbn. auto.
        -- unfold added_type. rewrite KX. cbn. auto.
    + destruct (types_last a n A) as [(x & j & EX & IX & NX & JX & DX)|(_ & NX)]; [|exfalso; eapply NX; eauto].
      assert (j = k) by exact (kind_unique a n j k A DX D). subst j.
      exists (n, (Some x, last_of String.eqb n (types_of b))). split.
      * apply (in_fill String.eqb String.eqb_eq). split; [auto|]. split; [reflexivity|]. intros [? _]; discriminate.
      * destruct (types_last b n B) as [(y & j & EY & IY & NY & JY & DY)|(EY & NY)]; rewrite EY; cbn [type_changes].
        -- rewrite (same_kind_spec x y k j JX JY).
           destruct (kind_eqb k j) eqn:Q; [apply kind_eqb_spec in Q; subst; contradiction|].
           apply in_app_iff. left. unfold removed_type. rewrite JX. cbn. auto.
        -- unfold removed_type. rewrite JX. cbn. auto.
Qed.

Lemma lookup_types : forall a b n, lookup String.eqb n (types_map a b) =
  match last_of String.eqb n (types_of a), last_of String.eqb n (types_of b) with
  | None, None => None
  | x, y => Some (x, y)
  end.
Proof. intros. apply (lookup_fill String.eqb String.eqb_eq). Qed.

Lemma fields_last : forall d n f, doc_ok d ->
  (exists t p, last_of key2_eqb (n, f) (fields_of d) = Some (t, p) /\ Member d n f t p) \/
  last_of key2_eqb (n, f) (fields_of d) = None /\ no_member d n f.
Proof.
  intros d n f OK. destruct (last_of key2_eqb (n, f) (fields_of d)) as [[t p]|] eqn:E.
  - left. exists t, p. split; [reflexivity|]. apply fields_in.
    apply (last_of_some_in key2_eqb key2_eqb_spec) in E. exact E.
  - right. split; [reflexivity|]. intros t p M. apply fields_in in M.
    apply (last_of_none key2_eqb key2_eqb_spec) in E. apply E. apply in_map_iff. exists ((n, f), (t, p)). auto.
Qed.

Lemma oty_eqb_spec : forall a b, oty_eqb a b = true <-> a = b.
Proof.
  intros [x|] [y|]; cbn; try (split; congruence). rewrite ty_eqb_spec. split; congruence.
Qed.

(* What the entry of one field gives. *)
Lemma field_changes_one : forall a b n f s t, doc_ok a -> doc_ok b ->
  In ((n, f), (s, t)) (fields_map a b) ->
  exists u, field_changes (types_map a b) ((n, f), (s, t)) = Some u /\
  forall c, In c u <->
    (exists k ty p, Defines a n k /\ Defines b n k /\ no_member a n f /\ Member b n f ty p /\
       c = mkchange (PField n f) (add_member_kind k) p) \/
    (exists k, Defines a n k /\ Defines b n k /\ is_member a n f /\ no_member b n f /\
       c = mkchange (PField n f) (remove_member_kind k) NoText) \/
    (exists k x y, Defines a n k /\ Defines b n k /\ HasField a n f x /\ HasField b n f y /\ x <> y /\
       c = mkchange (PField n f) ChangeFieldType (TypeText y)).
Proof.
  intros a b n f s t A B H.
  apply (in_fill key2_eqb key2_eqb_spec) in H. destruct H as (ES & ET & NN).
  unfold field_changes. cbv beta iota. rewrite lookup_types.
  destruct (types_last a n A) as [(x & j & EX & IX & NX & JX & DX)|(EX & NX)];
    destruct (types_last b n B) as [(y & k & EY & IY & NY & KY & DY)|(EY & NY)]; rewrite EX, EY.
  - rewrite (same_kind_spec x y j k JX KY). destruct (kind_eqb j k) eqn:Q.
    + apply kind_eqb_spec in Q. subst k. rewrite JX.
      assert (KU : forall k, Defines a n k -> k = j) by (intros k D; apply (kind_unique a n k j A D DX)).
      destruct (fields_last a n f A) as [(ta & pa & LA & MA)|(LA & MA)];
        destruct (fields_last b n f B) as [(tb & pb & LB & MB)|(LB & MB)];
        rewrite LA in ES; rewrite LB in ET; subst s t.
      * destruct (member_defines _ _ _ _ _ MA) as (ka & KA & NS & ND & SH). apply KU in KA. subst ka.
        destruct (member_defines _ _ _ _ _ MB) as (kb & KB & _ & _ & SHB).
        assert (kb = j) by (apply (kind_unique b n kb j B KB DY)). subst kb.
        assert (NA : ~ no_member a n f) by (intros X; exact (X _ _ MA)).
        assert (NB : ~ no_member b n f) by (intros X; exact (X _ _ MB)).
        destruct SH as [[KK TA]|[KK TA]].
        -- destruct SHB as [[_ TB]|[KK' _]]; [|exfalso; destruct KK as [->|[->| ->]]; destruct KK'; discriminate].
           destruct ta as [ta|]; [|congruence]. destruct tb as [tb|]; [|congruence].
           assert (HA : HasField a n f ta) by (apply field_member; eauto).
           assert (HB : HasField b n f tb) by (apply field_member; eauto).
           assert (UA : forall z, HasField a n f z -> z = ta).
           { intros z Z. apply field_member in Z. destruct Z as (p & Z). destruct (member_unique _ _ _ _ _ _ _ A MA Z). congruence. }
           assert (UB : forall z, HasField b n f z -> z = tb).
           { intros z Z. apply field_member in Z. destruct Z as (p & Z). destruct (member_unique _ _ _ _ _ _ _ B MB Z). congruence. }
           cbn [oty_eqb].
           assert (G : forall c, (In c (if ty_eqb ta tb then nil else [mkchange (PField n f) ChangeFieldType (TypeText tb)])) <->
             (exists k ty p, Defines a n k /\ Defines b n k /\ no_member a n f /\ Member b n f ty p /\
                c = mkchange (PField n f) (add_member_kind k) p) \/
             (exists k, Defines a n k /\ Defines b n k /\ is_member a n f /\ no_member b n f /\
                c = mkchange (PField n f) (remove_member_kind k) NoText) \/
             (exists k x y, Defines a n k /\ Defines b n k /\ HasField a n f x /\ HasField b n f y /\ x <> y /\
                c = mkchange (PField n f) ChangeFieldType (TypeText y))).
           { intros c. destruct (ty_eqb ta tb) eqn:TE.
             - apply ty_eqb_spec in TE. split; [contradiction|].
               intros [(k & ty0 & p & _ & _ & X & _)|[(k & _ & _ & _ & X & _)|(k & z & w & _ & _ & Z & W & X & _)]].
               + exfalso. auto.
               + exfalso. auto.
               + apply UA in Z. apply UB in W. exfalso. congruence.
             - assert (ta <> tb) by (intros ->; rewrite ty_eqb_refl in TE; discriminate).
               split.
               + intros [<-|[]]. right. right. exists j, ta, tb. auto 8.
               + intros [(k & ty0 & p & _ & _ & X & _)|[(k & _ & _ & _ & X & _)|(k & z & w & _ & _ & Z & W & X & ->)]].
                 * exfalso. auto.
                 * exfalso. auto.
                 * apply UB in W. subst. cbn. auto. }
           destruct KK as [->|[->| ->]]; (destruct (ty_eqb ta tb); eexists; split; [reflexivity|exact G|reflexivity|exact G]).
        -- assert (NH : forall z, ~ HasField a n f z).
           { intros z Z. apply field_member in Z. destruct Z as (p & Z). destruct (member_unique _ _ _ _ _ _ _ A MA Z). congruence. }
           assert (G : forall c : change, In c nil <->
             (exists k ty p, Defines a n k /\ Defines b n k /\ no_member a n f /\ Member b n f ty p /\
                c = mkchange (PField n f) (add_member_kind k) p) \/
             (exists k, Defines a n k /\ Defines b n k /\ is_member a n f /\ no_member b n f /\
                c = mkchange (PField n f) (remove_member_kind k) NoText) \/
             (exists k x y, Defines a n k /\ Defines b n k /\ HasField a n f x /\ HasField b n f y /\ x <> y /\
                c = mkchange (PField n f) ChangeFieldType (TypeText y))).
           { intros c. split; [contradiction|].
             intros [(k & ty0 & p & _ & _ & X & _)|[(k & _ & _ & _ & X & _)|(k & z & w & _ & _ & Z & _)]].
             - exfalso. auto.
             - exfalso. auto.
             - exfalso. exact (NH _ Z). }
           destruct KK as [->| ->]; eexists; (split; [reflexivity|exact G]).
      * destruct (member_defines _ _ _ _ _ MA) as (ka & KA & NS & ND & SH). apply KU in KA. subst ka.
        assert (NA : ~ no_member a n f) by (intros X; exact (X _ _ MA)).
        assert (NH : forall z, ~ HasField b n f z).
        { intros z Z. apply field_member in Z. destruct Z as (p & Z). exact (MB _ _ Z). }
        exists [mkchange (PField n f) (remove_member_kind j) NoText]. split.
        { destruct j; try reflexivity; congruence. }
        intros c. split.
        -- intros [<-|[]]. right. left. exists j. split; [exact DX|]. split; [exact DY|].
           split; [eexists; eexists; exact MA|]. auto.
        -- intros [(k & ty0 & p & _ & _ & X & _)|[(k & KA & _ & _ & X & ->)|(k & z & w & _ & _ & _ & W & _)]].
           ++ exfalso. auto.
           ++ apply KU in KA. subst. cbn. auto.
           ++ exfalso. exact (NH _ W).
      * destruct (member_defines _ _ _ _ _ MB) as (kb & KB & NS & ND & SH).
        assert (kb = j) by (apply (kind_unique b n kb j B KB DY)). subst kb.
        assert (NB : ~ no_member b n f) by (intros X; exact (X _ _ MB)).
        assert (NH : forall z, ~ HasField a n f z).
        { intros z Z. apply field_member in Z. destruct Z as (p & Z). exact (MA _ _ Z). }
        exists [mkchange (PField n f) (add_member_kind j) pb]. split.
        { destruct j; try reflexivity; congruence. }
        intros c. split.
        -- intros [<-|[]]. left. exists j, tb, pb. auto 8.
        -- intros [(k & ty0 & p & KA & _ & X & M & ->)|[(k & _ & _ & _ & X & _)|(k & z & w & _ & _ & Z & _)]].
           ++ apply KU in KA. subst. destruct (member_unique _ _ _ _ _ _ _ B MB M) as [_ ->]. cbn. auto.
           ++ exfalso. auto.
           ++ exfalso. exact (NH _ Z).
      * exfalso. apply NN. auto.
    + exists nil. split; [reflexivity|]. intros c. split; [contradiction|].
      assert (NE : forall k', Defines a n k' -> Defines b n k' -> False).
      { intros k' D D'. assert (j = k') by exact (kind_unique a n j k' A DX D). assert (k = k') by exact (kind_unique b n k k' B DY D').
        subst. rewrite (proj2 (kind_eqb_spec k' k') eq_refl) in Q. discriminate. }
      intros [(k' & ty0 & p & D & D' & _)|[(k' & D & D' & _)|(k' & z & w & D & D' & _)]]; exfalso; eauto.
  - exists nil. split; [reflexivity|]. intros c. split; [contradiction|].
    intros [(k' & ty0 & p & D & D' & _)|[(k' & D & D' & _)|(k' & z & w & D & D' & _)]]; exfalso; eapply NY; eauto.
  - exists nil. split; [reflexivity|]. intros c. split; [contradiction|].
    intros [(k' & ty0 & p & D & D' & _)|[(k' & D & D' & _)|(k' & z & w & D & D' & _)]]; exfalso; eapply NX; eauto.
  - exfalso.
    destruct (fields_last a n f A) as [(ta & pa & LA & MA)|(LA & MA)].
    { destruct (member_defines _ _ _ _ _ MA) as (ka & KA & _). eapply NX; eauto. }
    destruct (fields_last b n f B) as [(tb & pb & LB & MB)|(LB & MB)].
    { destruct (member_defines _ _ _ _ _ MB) as (kb & KB & _). eapply NY; eauto. }
    apply NN. rewrite ES, ET. auto.
Qed.

Lemma is_member_field : forall d n f, is_member d n f -> exists t p, In ((n, f), (t, p)) (fields_of d).
Proof. intros d n f (t & p & M). apply fields_in in M. eauto. Qed.

Lemma field_changes_spec : forall a b, doc_ok a -> doc_ok b ->
  exists u, concat_map (field_changes (types_map a b)) (fields_map a b) = Some u /\
  forall c, In c u <-> exists n f,
    (exists k ty p, Defines a n k /\ Defines b n k /\ no_member a n f /\ Member b n f ty p /\
       c = mkchange (PField n f) (add_member_kind k) p) \/
    (exists k, Defines a n k /\ Defines b n k /\ is_member a n f /\ no_member b n f /\
       c = mkchange (PField n f) (remove_member_kind k) NoText) \/
    (exists k x y, Defines a n k /\ Defines b n k /\ HasField a n f x /\ HasField b n f y /\ x <> y /\
       c = mkchange (PField n f) ChangeFieldType (TypeText y)).
Proof.
  intros a b A B.
  destruct (concat_map_some _ _ (field_changes (types_map a b)) (fields_map a b)) as (r & R & RS).
  { intros [[n f] [s t]] H. destruct (field_changes_one a b n f s t A B H) as (u & E & _). intros X.
    pose proof (eq_trans (eq_sym E) X). discriminate. }
  exists r. split; [exact R|]. intros c. rewrite RS. split.
  - intros ([[n f] [s t]] & u & H & E & C). destruct (field_changes_one a b n f s t A B H) as (v & E' & S').
    pose proof (eq_trans (eq_sym E) E') as Q. injection Q as <-. apply S' in C. exists n, f. exact C.
  - intros (n & f & H).
    assert (M : is_member a n f \/ is_member b n f).
    { destruct H as [(k & t & p & _ & _ & _ & M & _)|[(k & _ & _ & M & _)|(k & x & y & _ & _ & M & _)]].
      - right. exists t, p. exact M.
      - left. exact M.
      - left. apply field_member in M. destruct M as (p & M). exists (Some x), p. exact M. }
    assert (IN : exists s t, In ((n, f), (s, t)) (fields_map a b)).
    { exists (last_of key2_eqb (n, f) (fields_of a)), (last_of key2_eqb (n, f) (fields_of b)).
      apply (in_fill key2_eqb key2_eqb_spec). split; [reflexivity|]. split; [reflexivity|]. intros [LA LB].
      destruct M as [M|M]; apply is_member_field in M; destruct M as (t & p & M).
      - apply (last_of_none key2_eqb key2_eqb_spec) in LA. apply LA. apply in_map_iff. exists ((n, f), (t, p)). auto.
      - apply (last_of_none key2_eqb key2_eqb_spec) in LB. apply LB. apply in_map_iff. exists ((n, f), (t, p)). auto. }
    destruct IN as (s & t & IN). destruct (field_changes_one a b n f s t A B IN) as (u & E & S').
    exists ((n, f), (s, t)), u. split; [exact IN|]. split; [exact E|]. apply S'. exact H.
Qed.

Lemma lookup_fields : forall a b k, lookup key2_eqb k (fields_map a b) =
  match last_of key2_eqb k (fields_of a), last_of key2_eqb k (fields_of b) with
  | None, None => None
  | x, y => Some (x, y)
  end.
Proof. intros. apply (lookup_fill key2_eqb key2_eqb_spec). Qed.

Lemma args_last : forall d n f q, doc_ok d ->
  (exists x, last_of key3_eqb ((n, f), q) (args_of d) = Some x /\ HasArg d n f x /\ i_name x = q) \/
  last_of key3_eqb ((n, f), q) (args_of d) = None /\ forall x, HasArg d n f x -> i_name x <> q.
Proof.
  intros d n f q OK. destruct (last_of key3_eqb ((n, f), q) (args_of d)) as [x|] eqn:E.
  - left. exists x. split; [reflexivity|]. apply args_in.
    apply (last_of_some_in key3_eqb key3_eqb_spec) in E. exact E.
  - right. split; [reflexivity|]. intros x X N.
    apply (last_of_none key3_eqb key3_eqb_spec) in E. apply E. apply in_map_iff. exists (((n, f), q), x).
    split; [reflexivity|]. apply args_in. auto.
Qed.

(* The changes of one argument. *)
Inductive ArgChanged (a b : doc) (n f q : string) : change -> Prop :=
| ac_add y : is_member a n f -> (forall x, HasArg a n f x -> i_name x <> i_name y) -> HasArg b n f y -> i_name y = q ->
    ArgChanged a b n f q (mkchange (PArg n f (i_name y)) AddFieldArgument (InputText y))
| ac_remove x : is_member b n f -> HasArg a n f x -> (forall y, HasArg b n f y -> i_name y <> i_name x) -> i_name x = q ->
    ArgChanged a b n f q (mkchange (PArg n f (i_name x)) RemoveFieldArgument NoText)
| ac_type x y : HasArg a n f x -> HasArg b n f y -> i_name x = q -> i_name y = q -> i_type x <> i_type y ->
    ArgChanged a b n f q (mkchange (PArg n f (i_name y)) ChangeFieldArgumentType (TypeText (i_type y)))
| ac_add_default x y v : HasArg a n f x -> HasArg b n f y -> i_name x = q -> i_name y = q ->
    i_default x = None -> i_default y = Some v ->
    ArgChanged a b n f q (mkchange (PArg n f (i_name y)) AddFieldArgumentDefault (DefaultText v))
| ac_remove_default x y v : HasArg a n f x -> HasArg b n f y -> i_name x = q -> i_name y = q ->
    i_default x = Some v -> i_default y = None ->
    ArgChanged a b n f q (mkchange (PArg n f (i_name y)) RemoveFieldArgumentDefault NoText)
| ac_change_default x y u v : HasArg a n f x -> HasArg b n f y -> i_name x = q -> i_name y = q ->
    i_default x = Some u -> i_default y = Some v -> u <> v ->
    ArgChanged a b n f q (mkchange (PArg n f (i_name y)) ChangeFieldArgumentDefault (DefaultText v)).

Lemma arg_changes_one : forall a b n f q s t, doc_ok a -> doc_ok b ->
  In (((n, f), q), (s, t)) (args_map a b) ->
  exists u, arg_changes (fields_map a b) (((n, f), q), (s, t)) = Some u /\
  forall c, In c u <-> ArgChanged a b n f q c.
Proof.
  intros a b n f q s t A B H.
  apply (in_fill key3_eqb key3_eqb_spec) in H. destruct H as (ES & ET & NN).
  unfold arg_changes. cbv beta iota zeta. rewrite lookup_fields.
  destruct (args_last a n f q A) as [(x & LA & HA & NA)|(LA & HA)];
    destruct (args_last b n f q B) as [(y & LB & HB & NB)|(LB & HB)];
    rewrite LA in ES; rewrite LB in ET; subst s t.
  - (* in both *)
    destruct (fields_last a n f A) as [(ta & pa & FA & MA)|(FA & MA)].
    2: { exfalso. destruct (arg_member _ _ _ _ HA) as (t & p & M). exact (MA _ _ M). }
    destruct (fields_last b n f B) as [(tb & pb & FB & MB)|(FB & MB)].
    2: { exfalso. destruct (arg_member _ _ _ _ HB) as (t & p & M). exact (MB _ _ M). }
    rewrite FA, ?FB. eexists. split; [reflexivity|]. intros c. rewrite in_app_iff.
    assert (UA : forall z, HasArg a n f z -> i_name z = q -> z = x) by (intros z Z E; eapply (arg_unique a); eauto; congruence).
    assert (UB : forall z, HasArg b n f z -> i_name z = q -> z = y) by (intros z Z E; eapply (arg_unique b); eauto; congruence).
    split.
    + intros [C|C].
      * destruct (ty_eqb (i_type x) (i_type y)) eqn:TE; [contradiction|]. destruct C as [<-|[]].
        rewrite <- NB. apply (ac_type a b n f (i_name y) x y); auto; [congruence|].
        intros Q. rewrite Q, ty_eqb_refl in TE. discriminate.
      * destruct (i_default x) as [u|] eqn:DX, (i_default y) as [v|] eqn:DY.
        -- destruct (String.eqb u v) eqn:SE; [contradiction|]. destruct C as [<-|[]]. rewrite <- NB.
           apply (ac_change_default a b n f (i_name y) x y u v); auto; [congruence|].
           intros ->. rewrite String.eqb_refl in SE. discriminate.
        -- destruct C as [<-|[]]. rewrite <- NB. apply (ac_remove_default a b n f (i_name y) x y u); auto. congruence.
        -- destruct C as [<-|[]]. rewrite <- NB. apply (ac_add_default a b n f (i_name y) x y v); auto. congruence.
        -- contradiction.
    + intros C. destruct C as [z _ Z1 Z2 Z3|z _ Z1 Z2 Z3|z w Z W Z1 W1 NE|z w v Z W Z1 W1 D1 D2|z w v Z W Z1 W1 D1 D2|z w u v Z W Z1 W1 D1 D2 NE].
      * exfalso. apply (Z1 x HA). congruence.
      * exfalso. apply (Z2 y HB). congruence.
      * apply UA in Z; auto. apply UB in W; auto. subst z w. left.
        destruct (ty_eqb (i_type x) (i_type y)) eqn:TE; [apply ty_eqb_spec in TE; contradiction|]. rewrite <- NB. cbn. auto.
      * apply UA in Z; auto. apply UB in W; auto. subst z w. right. rewrite D1, D2, <- NB. cbn. auto.
      * apply UA in Z; auto. apply UB in W; auto. subst z w. right. rewrite D1, D2, <- NB. cbn. auto.
      * apply UA in Z; auto. apply UB in W; auto. subst z w. right. rewrite D1, D2.
        destruct (String.eqb u v) eqn:SE; [apply String.eqb_eq in SE; contradiction|]. rewrite <- NB. cbn. auto.
  - (* only in the source *)
    destruct (fields_last a n f A) as [(ta & pa & FA & MA)|(FA & MA)].
    2: { exfalso. destruct (arg_member _ _ _ _ HA) as (t & p & M). exact (MA _ _ M). }
    rewrite FA.
    assert (NOB : forall w, HasArg b n f w -> i_name w = q -> False) by (intros w W E; exact (HB w W E)).
    destruct (fields_last b n f B) as [(tb & pb & FB & MB)|(FB & MB)]; rewrite FB; eexists; (split; [reflexivity|]);
      intros c; split.
    + intros [<-|[]]. rewrite <- NA. apply ac_remove; auto; [eexists; eexists; exact MB|].
      intros w W. rewrite NA. apply HB. exact W.
    + intros C. destruct C as [z _ Z1 Z2 Z3|z _ Z1 Z2 Z3|z w Z W Z1 W1 NE|z w v Z W Z1 W1 D1 D2|z w v Z W Z1 W1 D1 D2|z w u v Z W Z1 W1 D1 D2 NE].
      2: { rewrite Z3. cbn. auto. }
      all: exfalso; eauto.
    + contradiction.
    + intros C. destruct C as [z _ Z1 Z2 Z3|z Z0 Z1 Z2 Z3|z w Z W Z1 W1 NE|z w v Z W Z1 W1 D1 D2|z w v Z W Z1 W1 D1 D2|z w u v Z W Z1 W1 D1 D2 NE].
      2: { destruct Z0 as (t & p & M). exfalso. exact (MB _ _ M). }
      all: exfalso; eauto.
  - (* only in the target *)
    destruct (fields_last b n f B) as [(tb & pb & FB & MB)|(FB & MB)].
    2: { exfalso. destruct (arg_member _ _ _ _ HB) as (t & p & M). exact (MB _ _ M). }
    rewrite FB.
    assert (NOA : forall w, HasArg a n f w -> i_name w = q -> False) by (intros w W E; exact (HA w W E)).
    destruct (fields_last a n f A) as [(ta & pa & FA & MA)|(FA & MA)]; rewrite FA; eexists; (split; [reflexivity|]);
      intros c; split.
    + intros [<-|[]]. rewrite <- NB. apply ac_add; auto; [eexists; eexists; exact MA|].
      intros w W. rewrite NB. apply HA. exact W.
    + intros C. destruct C as [z _ Z1 Z2 Z3|z _ Z1 Z2 Z3|z w Z W Z1 W1 NE|z w v Z W Z1 W1 D1 D2|z w v Z W Z1 W1 D1 D2|z w u v Z W Z1 W1 D1 D2 NE].
      1: { rewrite Z3. assert (z = y) by (eapply (arg_unique b); eauto; congruence). subst z. cbn. auto. }
      all: exfalso; eauto.
    + contradiction.
    + intros C. destruct C as [z Z0 Z1 Z2 Z3|z _ Z1 Z2 Z3|z w Z W Z1 W1 NE|z w v Z W Z1 W1 D1 D2|z w v Z W Z1 W1 D1 D2|z w u v Z W Z1 W1 D1 D2 NE].
      1: { destruct Z0 as (t & p & M). exfalso. exact (MA _ _ M). }
      all: exfalso; eauto.
  - exfalso. apply NN. auto.
Qed.

Lemma arg_changes_spec : forall a b, doc_ok a -> doc_ok b ->
  exists u, concat_map (arg_changes (fields_map a b)) (args_map a b) = Some u /\
  forall c, In c u <-> exists n f q, ArgChanged a b n f q c.
Proof.
  intros a b A B.
  destruct (concat_map_some _ _ (arg_changes (fields_map a b)) (args_map a b)) as (r & R & RS).
  { intros [[[n f] q] [s t]] H. destruct (arg_changes_one a b n f q s t A B H) as (u & E & _). intros X.
    pose proof (eq_trans (eq_sym E) X). discriminate. }
  exists r. split; [exact R|]. intros c. rewrite RS. split.
  - intros ([[[n f] q] [s t]] & u & H & E & C). destruct (arg_changes_one a b n f q s t A B H) as (v & E' & S').
    pose proof (eq_trans (eq_sym E) E') as Q. injection Q as <-. apply S' in C. exists n, f, q. exact C.
  - intros (n & f & q & H).
    assert (M : (exists x, HasArg a n f x /\ i_name x = q) \/ exists x, HasArg b n f x /\ i_name x = q).
    { destruct H as [y M1 N1 Y E|x M1 X N1 E|x y X Y EX EY|x y v X Y EX EY|x y v X Y EX EY|x y u v X Y EX EY]; eauto. }
    assert (IN : exists s t, In (((n, f), q), (s, t)) (args_map a b)).
    { exists (last_of key3_eqb ((n, f), q) (args_of a)), (last_of key3_eqb ((n, f), q) (args_of b)).
      apply (in_fill key3_eqb key3_eqb_spec). split; [reflexivity|]. split; [reflexivity|]. intros [LA LB].
      destruct M as [(x & X & E)|(x & X & E)]; assert (X' := conj X E); apply args_in in X'.
      - apply (last_of_none key3_eqb key3_eqb_spec) in LA. apply LA. apply in_map_iff. eexists. split; [|exact X']. reflexivity.
      - apply (last_of_none key3_eqb key3_eqb_spec) in LB. apply LB. apply in_map_iff. eexists. split; [|exact X']. reflexivity. }
    destruct IN as (s & t & IN). destruct (arg_changes_one a b n f q s t A B IN) as (u & E & S').
    exists (((n, f), q), (s, t)), u. split; [exact IN|]. split; [exact E|]. apply S'. exact H.
Qed.

Lemma arg_changed : forall a b c, (exists n f q, ArgChanged a b n f q c) -> Changed a b c.
Proof.
  intros a b c (n & f & q & H). destruct H.
  - apply ch_add_arg; auto.
  - apply ch_remove_arg; auto.
  - eapply ch_arg_type; eauto; congruence.
  - eapply ch_add_default; eauto; congruence.
  - eapply ch_remove_default; eauto; congruence.
  - eapply ch_change_default; eauto; congruence.
Qed.

Lemma ext_changes_spec : forall xs ys c, In c (ext_changes xs ys) <->
  (exists i y, nth_error ys i = Some y /\ length xs <= i /\ c = mkchange PSchemaExt AddSchemaExtension (DefText (DSchemaExt y))) \/
  (length ys < length xs /\ c = mkchange PSchemaExt RemoveSchemaExtension NoText).
Proof.
  intros xs ys c. unfold ext_changes. rewrite in_app_iff, !in_map_iff.
  assert (NS : forall (l : list roots) m y, In y (skipn m l) <-> exists i, nth_error l i = Some y /\ m <= i).
  { intros l m y. split.
    - intros H. apply In_nth_error in H. destruct H as (i & H). exists (m + i). split; [|lia].
      revert l H. induction m as [|m IH]; intros l H; [exact H|]. destruct l as [|z l]; [destruct i; discriminate|].
      cbn in *. apply IH. exact H.
    - intros (i & H & L). replace i with (m + (i - m)) in H by lia. revert l H. generalize (i - m). clear L.
      induction m as [|m IH]; intros j l H; [eapply nth_error_In; exact H|]. destruct l as [|z l]; [discriminate|].
      cbn in *. eapply IH. exact H. }
  split.
  - intros [(x & <- & X)|(y & <- & Y)].
    + right. split; [|reflexivity]. apply NS in X. destruct X as (i & X & L).
      assert (i < length xs) by (apply nth_error_Some; congruence). lia.
    + left. apply NS in Y. destruct Y as (i & Y & L). eauto.
  - intros [(i & y & Y & L & ->)|(L & ->)].
    + right. exists y. split; [reflexivity|]. apply NS. eauto.
    + left. destruct (nth_error xs (length ys)) as [x|] eqn:X; [|apply nth_error_None in X; lia].
      exists x. split; [reflexivity|]. apply NS. exists (length ys). auto.
Qed.

(** C50: comparing two schemas in which nothing is defined twice does not
    panic, and lists exactly the differences between them. *)
Theorem C50_exact : forall a b, doc_ok a -> doc_ok b ->
  exists l, diff a b = Some l /\ forall c, In c l <-> Changed a b c.
Proof.
  intros a b A B. unfold diff.
  destruct (field_changes_spec a b A B) as (fs & -> & FS).
  destruct (arg_changes_spec a b A B) as (args & -> & AS).
  eexists. split; [reflexivity|]. intros c. rewrite sort_in, !in_app_iff.
  rewrite FS, AS, (impl_changes_spec a b c A B), (type_changes_spec a b c A B), ext_changes_spec. split.
  - intros [H|[[(i & y & Y & L & ->)|(L & ->)]|[(n & i & CA & CB & [(I & N & ->)|(N & I & ->)])|[[(n & k & x & IX & NX & KX & ND & ->)|(n & k & D & ND & ->)]|[(n & f & [(k & t & p & D & D' & N & M & ->)|[(k & D & D' & M & N & ->)|(k & x & y & D & D' & X & Y & NE & ->)]])|H]]]]].
    + apply schema_changes_spec; auto.
    + eapply ch_add_ext; eauto.
    + apply ch_remove_ext; auto.
    + apply ch_remove_impl; auto.
    + apply ch_add_impl; auto.
    + eapply ch_add_type; eauto.
    + eapply ch_remove_type; eauto.
    + eapply ch_add_member; eauto.
    + eapply ch_remove_member; eauto.
    + eapply ch_field_type; eauto.
    + apply arg_changed. exact H.
  - intros C. destruct C as [x y X Y NE|x y X Y NE|x y X Y NE|y NX Y|x X NY|i y Y L|L|n k x IX NX KX ND|n k D ND|n i CA CB N I|n i CA CB I N|n f k t p D D' N M|n f k D D' M N|n f k t u D D' T U NE|n f y M N Y|n f x M X N|n f x y X Y E NE|n f x y v X Y E DX DY|n f x y v X Y E DX DY|n f x y u v X Y E DX DY NE].
    + left. apply (last_schema_spec a x A) in X. apply (last_schema_spec b y B) in Y. rewrite X, Y. cbn.
      destruct (name_eqb (r_query x) (r_query y)) eqn:E; [apply name_eqb_spec in E; contradiction|]. cbn. auto.
    + left. apply (last_schema_spec a x A) in X. apply (last_schema_spec b y B) in Y. rewrite X, Y. cbn.
      destruct (name_eqb (r_mutation x) (r_mutation y)) eqn:E; [apply name_eqb_spec in E; contradiction|].
      apply in_app_iff. right. cbn. auto.
    + left. apply (last_schema_spec a x A) in X. apply (last_schema_spec b y B) in Y. rewrite X, Y. cbn.
      destruct (name_eqb (r_subscription x) (r_subscription y)) eqn:E; [apply name_eqb_spec in E; contradiction|].
      apply in_app_iff. right. apply in_app_iff. right. cbn. auto.
    + left. apply last_schema_none in NX. apply (last_schema_spec b y B) in Y. rewrite NX, Y. cbn. auto.
    + left. apply last_schema_none in NY. apply (last_schema_spec a x A) in X. rewrite NY, X. cbn. auto.
    + right; left. left. eauto.
    + right; left. right. auto.
    + do 3 right. left. left. exists n, k, x. auto 8.
    + do 3 right. left. right. exists n, k. auto.
    + do 2 right. left. exists n, i. auto 8.
    + do 2 right. left. exists n, i. auto 8.
    + do 4 right. left. exists n, f. left. exists k, t, p. auto 8.
    + do 4 right. left. exists n, f. right. left. exists k. auto 8.
    + do 4 right. left. exists n, f. right. right. exists k, t, u. auto 8.
    + do 5 right. exists n, f, (i_name y). apply ac_add; auto.
    + do 5 right. exists n, f, (i_name x). apply ac_remove; auto.
    + do 5 right. exists n, f, (i_name y). eapply ac_type; eauto.
    + do 5 right. exists n, f, (i_name y). eapply ac_add_default; eauto.
    + do 5 right. exists n, f, (i_name y). eapply ac_remove_default; eauto.
    + do 5 right. exists n, f, (i_name y). eapply ac_change_default; eauto.
Qed.

(** The order of the changes. *)
Lemma cmp3_refl : forall x, cmp3 x x = Eq.
Proof. intros [[a b] c]. unfold cmp3. cbn. rewrite !compare_refl. reflexivity. Qed.

Lemma cmp3_eq : forall x y, cmp3 x y = Eq <-> x = y.
Proof.
  intros [[a b] c] [[a' b'] c']. unfold cmp3. cbn. split.
  - destruct (String.compare a a') eqn:E1; try discriminate. apply compare_eq in E1.
    destruct (String.compare b b') eqn:E2; try discriminate. apply compare_eq in E2.
    intros E3. apply compare_eq in E3. congruence.
  - intros [= -> -> ->]. rewrite !compare_refl. reflexivity.
Qed.

Lemma cmp3_flip : forall x y, cmp3 x y = CompOpp (cmp3 y x).
Proof.
  intros [[a b] c] [[a' b'] c']. unfold cmp3. cbn.
  rewrite (compare_flip a a'), (compare_flip b b'), (compare_flip c c').
  destruct (String.compare a' a); cbn; auto. destruct (String.compare b' b); cbn; auto.
Qed.

Lemma cmp3_trans_lt : forall x y z, cmp3 x y = Lt -> cmp3 y z = Lt -> cmp3 x z = Lt.
Proof.
  intros [[a b] c] [[a' b'] c'] [[a'' b''] c'']. unfold cmp3. cbn.
  destruct (String.compare a a') eqn:E1; try discriminate;
    destruct (String.compare a' a'') eqn:E2; try discriminate.
  - apply compare_eq in E1, E2. subst. rewrite compare_refl.
    destruct (String.compare b b') eqn:F1; try discriminate;
      destruct (String.compare b' b'') eqn:F2; try discriminate.
    + apply compare_eq in F1, F2. subst. rewrite compare_refl. apply compare_trans_lt.
    + apply compare_eq in F1. subst. rewrite F2. reflexivity.
    + apply compare_eq in F2. subst. rewrite F1. reflexivity.
    + rewrite (compare_trans_lt _ _ _ F1 F2). reflexivity.
  - apply compare_eq in E1. subst. rewrite E2. reflexivity.
  - apply compare_eq in E2. subst. rewrite E1. reflexivity.
  - rewrite (compare_trans_lt _ _ _ E1 E2). reflexivity.
Qed.

Lemma change_leb_total : forall x y, change_leb x y = true \/ change_leb y x = true.
Proof.
  intros x y. unfold change_leb. rewrite (cmp3_flip (segments (c_path y))).
  destruct (cmp3 (segments (c_path x)) (segments (c_path y))); cbn; auto.
  rewrite !Nat.leb_le. lia.
Qed.

Lemma change_leb_trans : forall x y z, change_leb x y = true -> change_leb y z = true -> change_leb x z = true.
Proof.
  intros x y z. unfold change_leb.
  destruct (cmp3 (segments (c_path x)) (segments (c_path y))) eqn:E1; try discriminate;
    destruct (cmp3 (segments (c_path y)) (segments (c_path z))) eqn:E2; try discriminate.
  - apply cmp3_eq in E1, E2. rewrite E1, E2, cmp3_refl, !Nat.leb_le. lia.
  - apply cmp3_eq in E1. rewrite E1, E2. reflexivity.
  - apply cmp3_eq in E2. rewrite <- E2, E1. reflexivity.
  - rewrite (cmp3_trans_lt _ _ _ E1 E2). reflexivity.
Qed.

(** C50: the changes are listed in the order of their paths, and those of one
    path in the order of their kinds; this holds of all documents. *)
Theorem C50_order : forall a b l, diff a b = Some l ->
  StronglySorted (fun x y =>
    cmp3 (segments (c_path x)) (segments (c_path y)) = Lt \/
    segments (c_path x) = segments (c_path y) /\ ckind_rank (c_kind x) <= ckind_rank (c_kind y)) l.
Proof.
  intros a b l E. unfold diff in E.
  destruct (concat_map _ _) as [fs|]; [|discriminate]. destruct (concat_map _ _) as [args|]; [|discriminate].
  injection E as <-.
  pose proof (sort_sorted change change_leb change_leb_total change_leb_trans
    (schema_changes (last_schema a) (last_schema b) ++ ext_changes (schema_exts a) (schema_exts b) ++
     flat_map impl_changes (impls_map a b) ++ flat_map type_changes (types_map a b) ++ fs ++ args)) as SS.
  induction SS as [|x l SS IH F]; constructor; auto.
  rewrite Forall_forall in *. intros y Y. specialize (F y Y). unfold change_leb in F.
  destruct (cmp3 (segments (c_path x)) (segments (c_path y))) eqn:E; [|left; reflexivity|discriminate].
  right. apply cmp3_eq in E. apply Nat.leb_le in F. auto.
Qed.

(** Comparing a schema with itself. *)
Theorem C50_self : forall a, doc_ok a -> diff a a = Some nil.
Proof.
  intros a A. destruct (C50_exact a a A A) as (l & E & H). rewrite E. f_equal.
  destruct l as [|c l]; [reflexivity|]. exfalso.
  assert (C : Changed a a c) by (apply H; cbn; auto). clear E H.
  assert (S1 : forall x y, In (DSchema x) a -> In (DSchema y) a -> x = y).
  { intros x y X Y. apply (last_schema_spec a x A) in X. apply (last_schema_spec a y A) in Y. congruence. }
  destruct C as [x y X Y NE|x y X Y NE|x y X Y NE|y NX Y|x X NY|i y Y L|L|n k x IX NX KX ND|n k D ND|n i CA CB N I|n i CA CB I N|n f k t p D D' N M|n f k D D' M N|n f k t u D D' T U NE|n f y M N Y|n f x M X N|n f x y X Y E NE|n f x y v X Y E DX DY|n f x y v X Y E DX DY|n f x y u v X Y E DX DY NE].
  - apply NE. rewrite (S1 x y X Y). reflexivity.
  - apply NE. rewrite (S1 x y X Y). reflexivity.
  - apply NE. rewrite (S1 x y X Y). reflexivity.
  - exact (NX _ Y).
  - exact (NY _ X).
  - assert (i < length (schema_exts a)) by (apply nth_error_Some; congruence). lia.
  - lia.
  - apply ND. apply types_kind. exists x. split; [apply types_in; auto|exact KX].
  - contradiction.
  - contradiction.
  - contradiction.
  - exact (N _ _ M).
  - destruct M as (t & p & M). exact (N _ _ M).
  - apply NE. apply field_member in T, U. destruct T as (p & T), U as (q & U).
    destruct (member_unique _ _ _ _ _ _ _ A T U). congruence.
  - apply (N _ Y). reflexivity.
  - apply (N _ X). reflexivity.
  - apply NE. rewrite (arg_unique a n f x y A X Y E). reflexivity.
  - rewrite (arg_unique a n f x y A X Y E) in DX. congruence.
  - rewrite (arg_unique a n f x y A X Y E) in DX. congruence.
  - rewrite (arg_unique a n f x y A X Y E) in DX. congruence.
Qed.

(** C50: no change is listed exactly if the two schemas define the same types
    of the same kinds, with the same fields, types of fields, values, members,
    arguments and implemented interfaces, and the same root types. *)
Record Same (a b : doc) : Prop := {
  same_types : forall n k, Defines a n k <-> Defines b n k;
  same_fields : forall n f t, HasField a n f t <-> HasField b n f t;
  same_values : forall n v, HasValue a n v <-> HasValue b n v;
  same_args : forall n f x, HasArg a n f x <-> HasArg b n f x;
  same_impls : forall n i, Implements a n i <-> Implements b n i;
  same_roots : forall r, In (DSchema r) a <-> In (DSchema r) b;
  same_exts : length (schema_exts a) = length (schema_exts b);
}.

Lemma defines_dec : forall d n k, doc_ok d -> Defines d n k \/ ~ Defines d n k.
Proof.
  intros d n k OK. destruct (types_last d n OK) as [(x & j & _ & _ & _ & _ & D)|(_ & N)]; [|auto].
  destruct (kind_eqb j k) eqn:E; [apply kind_eqb_spec in E; subst; auto|].
  right. intros D'. rewrite (kind_unique d n j k OK D D') in E.
  rewrite (proj2 (kind_eqb_spec k k) eq_refl) in E. discriminate.
Qed.

Lemma composite_dec : forall d n, doc_ok d -> Composite d n \/ ~ Composite d n.
Proof.
  intros d n OK. unfold Composite. destruct (defines_dec d n KObject OK); [auto|].
  destruct (defines_dec d n KInterface OK); [auto|]. right. tauto.
Qed.

Lemma implements_composite : forall d n i, Implements d n i -> Composite d n.
Proof.
  intros d n i [impls fs T I|impls fs T I]; apply composite_impls; exists impls; apply impls_in; eauto.
Qed.

Lemma implements_dec : forall d n i, doc_ok d -> Implements d n i \/ ~ Implements d n i.
Proof.
  intros d n i OK. destruct (composite_dec d n OK) as [C|C].
  - apply composite_impls in C. destruct C as (l & L). rewrite (implements_in d n i OK l L).
    destruct (mem i l) eqn:M; [left; apply mem_spec; exact M|right; apply mem_false; exact M].
  - right. intros I. apply C. eapply implements_composite. exact I.
Qed.

(* One direction of it: without changes, what is in the source is in the
   target. *)
Lemma no_change_incl : forall a b, doc_ok a -> doc_ok b -> (forall c, ~ Changed a b c) ->
  (forall n k, Defines a n k -> Defines b n k) /\
  (forall n f t, HasField a n f t -> HasField b n f t) /\
  (forall n v, HasValue a n v -> HasValue b n v) /\
  (forall n f x, HasArg a n f x -> HasArg b n f x) /\
  (forall n i, Implements a n i -> Implements b n i) /\
  (forall r, In (DSchema r) a -> In (DSchema r) b).
Proof.
  intros a b A B N.
  assert (TY : forall n k, Defines a n k -> Defines b n k).
  { intros n k D. destruct (defines_dec b n k B) as [|D']; [auto|]. exfalso. eapply N. eapply ch_remove_type; eauto. }
  assert (ME : forall n f t p, Member a n f t p -> exists t' p', Member b n f t' p').
  { intros n f t p M. destruct (fields_last b n f B) as [(t' & p' & _ & M')|(_ & M')]; [eauto|].
    exfalso. destruct (member_defines _ _ _ _ _ M) as (k & D & _). eapply N. eapply ch_remove_member; eauto.
    exists t, p. exact M. }
  assert (FI : forall n f t, HasField a n f t -> HasField b n f t).
  { intros n f t H. assert (H' := H). apply field_member in H'. destruct H' as (p & M).
    destruct (ME _ _ _ _ M) as (t' & p' & M').
    destruct (member_defines _ _ _ _ _ M) as (k & D & _ & _ & SH).
    destruct (member_defines _ _ _ _ _ M') as (k' & D' & _ & _ & SH').
    assert (k = k') by exact (kind_unique b n k k' B (TY _ _ D) D'). subst k'.
    destruct SH as [[KK _]|[_ X]]; [|discriminate].
    destruct SH' as [[_ T']|[KK' _]]; [|exfalso; destruct KK as [->|[->| ->]]; destruct KK'; discriminate].
    destruct t' as [t'|]; [|congruence].
    assert (H' : HasField b n f t') by (apply field_member; eauto).
    destruct (ty_eqb t t') eqn:E; [apply ty_eqb_spec in E; congruence|].
    exfalso. eapply N. eapply ch_field_type; eauto. intros ->. rewrite ty_eqb_refl in E. discriminate. }
  split; [exact TY|]. split; [exact FI|]. split; [|split; [|split]].
  - intros n v H. assert (H' := H). apply value_member in H'. destruct H' as (p & M).
    destruct (ME _ _ _ _ M) as (t' & p' & M').
    destruct (member_defines _ _ _ _ _ M) as (k & D & _ & _ & SH).
    destruct (member_defines _ _ _ _ _ M') as (k' & D' & _ & _ & SH').
    assert (k = k') by exact (kind_unique b n k k' B (TY _ _ D) D'). subst k'.
    destruct SH as [[_ X]|[KK _]]; [congruence|].
    destruct SH' as [[KK' _]|[_ ->]]; [exfalso; destruct KK as [->| ->]; destruct KK' as [?|[?|?]]; discriminate|].
    apply value_member. eauto.
  - intros n f x H. destruct (arg_member _ _ _ _ H) as (t & p & M). destruct (ME _ _ _ _ M) as (t' & p' & M').
    destruct (args_last b n f (i_name x) B) as [(y & _ & Y & E)|(_ & Y)].
    + assert (x = y); [|congruence].
      assert (TE : i_type x = i_type y).
      { destruct (ty_eqb (i_type x) (i_type y)) eqn:E'; [apply ty_eqb_spec in E'; exact E'|].
        exfalso. eapply N. eapply ch_arg_type; eauto. intros Q. rewrite Q, ty_eqb_refl in E'. discriminate. }
      assert (DE : i_default x = i_default y).
      { destruct (i_default x) as [u|] eqn:DX, (i_default y) as [v|] eqn:DY; [|exfalso|exfalso|reflexivity].
        - destruct (String.eqb u v) eqn:E'; [apply String.eqb_eq in E'; congruence|].
          exfalso. eapply N. eapply ch_change_default; eauto. intros ->. rewrite String.eqb_refl in E'. discriminate.
        - eapply N. eapply (ch_remove_default a b n f x y); eauto.
        - eapply N. eapply (ch_add_default a b n f x y); eauto. }
      destruct x, y; cbn in *; congruence.
    + exfalso. eapply N. eapply ch_remove_arg; eauto. exists t', p'. exact M'.
  - intros n i I. destruct (implements_dec b n i B) as [|X]; [auto|].
    exfalso. pose proof (implements_composite a n i I) as C. eapply N. apply (ch_remove_impl a b n i); auto.
    destruct C as [C|C]; apply TY in C; [left|right]; exact C.
  - intros r R. destruct (last_schema b) as [y|] eqn:Y.
    + apply (last_schema_spec b y B) in Y. assert (r = y); [|congruence].
      assert (Q : forall p q : option string, p = q \/ p <> q).
      { intros p q. destruct (name_eqb p q) eqn:E; [left; apply name_eqb_spec; exact E|].
        right. intros ->. rewrite (proj2 (name_eqb_spec q q) eq_refl) in E. discriminate. }
      destruct (Q (r_query r) (r_query y)) as [Q1|Q1]; [|exfalso; eapply N; eapply ch_query; eauto].
      destruct (Q (r_mutation r) (r_mutation y)) as [Q2|Q2]; [|exfalso; eapply N; eapply ch_mutation; eauto].
      destruct (Q (r_subscription r) (r_subscription y)) as [Q3|Q3]; [|exfalso; eapply N; eapply ch_subscription; eauto].
      destruct r, y; cbn in *; congruence.
    + exfalso. eapply N. eapply ch_remove_schema; eauto. apply last_schema_none. exact Y.
Qed.

(* The change that leads back. *)
Definition opposite (k : ckind) : ckind :=
  match k with
  | RemoveObjectType => AddObjectType | AddObjectType => RemoveObjectType
  | AddInterfaceImplementation => RemoveInterfaceImplementation
  | RemoveInterfaceImplementation => AddInterfaceImplementation
  | RemoveField => AddField | AddField => RemoveField
  | AddUnion => RemoveUnion | RemoveUnion => AddUnion
  | AddUnionMember => RemoveUnionMember | RemoveUnionMember => AddUnionMember
  | AddEnum => RemoveEnum | RemoveEnum => AddEnum
  | AddEnumValue => RemoveEnumValue | RemoveEnumValue => AddEnumValue
  | AddScalar => RemoveScalar | RemoveScalar => AddScalar
  | AddInterface => RemoveInterface | RemoveInterface => AddInterface
  | AddDirectiveDefinition => RemoveDirectiveDefinition | RemoveDirectiveDefinition => AddDirectiveDefinition
  | AddSchemaDefinition => RemoveSchemaDefinition | RemoveSchemaDefinition => AddSchemaDefinition
  | AddSchemaExtension => RemoveSchemaExtension | RemoveSchemaExtension => AddSchemaExtension
  | AddInputObject => RemoveInputObject | RemoveInputObject => AddInputObject
  | AddFieldArgument => RemoveFieldArgument | RemoveFieldArgument => AddFieldArgument
  | AddFieldArgumentDefault => RemoveFieldArgumentDefault
  | RemoveFieldArgumentDefault => AddFieldArgumentDefault
  | k => k
  end.

Lemma opposite_involutive : forall k, opposite (opposite k) = k.
Proof. destruct k; reflexivity. Qed.

Lemma opposite_add : forall k, opposite (add_kind k) = remove_kind k.
Proof. destruct k; reflexivity. Qed.

Lemma opposite_remove : forall k, opposite (remove_kind k) = add_kind k.
Proof. destruct k; reflexivity. Qed.

Lemma opposite_add_member : forall k, opposite (add_member_kind k) = remove_member_kind k.
Proof. destruct k; reflexivity. Qed.

Lemma opposite_remove_member : forall k, opposite (remove_member_kind k) = add_member_kind k.
Proof. destruct k; reflexivity. Qed.

Lemma changed_back : forall a b c, Changed a b c ->
  exists x, Changed b a (mkchange (c_path c) (opposite (c_kind c)) x).
Proof.
  intros a b c C.
  destruct C as [x y X Y NE|x y X Y NE|x y X Y NE|y NX Y|x X NY|i y Y L|L|n k x IX NX KX ND|n k D ND|n i CA CB N I|n i CA CB I N|n f k t p D D' N M|n f k D D' M N|n f k t u D D' T U NE|n f y M N Y|n f x M X N|n f x y X Y E NE|n f x y v X Y E DX DY|n f x y v X Y E DX DY|n f x y u v X Y E DX DY NE];
    cbn [c_path c_kind].
  - eexists. apply (ch_query b a y x); auto.
  - eexists. apply (ch_mutation b a y x); auto.
  - eexists. apply (ch_subscription b a y x); auto.
  - eexists. apply (ch_remove_schema b a y); auto.
  - eexists. apply (ch_add_schema b a x); auto.
  - eexists. apply (ch_remove_ext b a). assert (i < length (schema_exts b)) by (apply nth_error_Some; congruence). lia.
  - destruct (nth_error (schema_exts a) (length (schema_exts b))) as [x|] eqn:E; [|apply nth_error_None in E; lia].
    eexists. apply (ch_add_ext b a (length (schema_exts b)) x); auto.
  - rewrite opposite_add. eexists. apply (ch_remove_type b a n k); auto. apply types_kind. exists x.
    split; [apply types_in; auto|exact KX].
  - rewrite opposite_remove. apply types_kind in D. destruct D as (x & X & KX). apply types_in in X. destruct X as [X NX].
    eexists. apply (ch_add_type b a n k x); auto.
  - eexists. apply (ch_remove_impl b a n i); auto.
  - eexists. apply (ch_add_impl b a n i); auto.
  - rewrite opposite_add_member. eexists. apply (ch_remove_member b a n f k); auto. exists t, p. exact M.
  - rewrite opposite_remove_member. destruct M as (t & p & M). eexists. apply (ch_add_member b a n f k t p); auto.
  - eexists. apply (ch_field_type b a n f k u t); auto.
  - eexists. apply (ch_remove_arg b a n f y); auto.
  - eexists. apply (ch_add_arg b a n f x); auto.
  - rewrite <- E. eexists. apply (ch_arg_type b a n f y x); auto.
  - rewrite <- E. eexists. apply (ch_remove_default b a n f y x v); auto.
  - rewrite <- E. eexists. apply (ch_add_default b a n f y x v); auto.
  - rewrite <- E. eexists. apply (ch_change_default b a n f y x v u); auto.
Qed.

(** C50: the changes in the opposite direction are the opposite changes. *)
Theorem C50_back : forall a b l m, doc_ok a -> doc_ok b -> diff a b = Some l -> diff b a = Some m ->
  forall p k, (exists x, In (mkchange p k x) l) <-> (exists x, In (mkchange p (opposite k) x) m).
Proof.
  intros a b l m A B L M p k.
  destruct (C50_exact a b A B) as (l' & E & HL). rewrite L in E. injection E as <-.
  destruct (C50_exact b a B A) as (m' & E & HM). rewrite M in E. injection E as <-.
  split.
  - intros (x & X). apply HL in X. apply changed_back in X. destruct X as (y & Y). exists y. apply HM. exact Y.
  - intros (x & X). apply HM in X. apply changed_back in X. destruct X as (y & Y). cbn in Y.
    rewrite opposite_involutive in Y. exists y. apply HL. exact Y.
Qed.

Theorem C50_empty : forall a b, doc_ok a -> doc_ok b -> (diff a b = Some nil <-> Same a b).
Proof.
  intros a b A B. destruct (C50_exact a b A B) as (l & E & H). rewrite E. split.
  - intros [= ->].
    assert (N : forall c, ~ Changed a b c) by (intros c C; apply H in C; exact C).
    assert (N' : forall c, ~ Changed b a c).
    { intros c C. apply changed_back in C. destruct C as (x & C). exact (N _ C). }
    destruct (no_change_incl a b A B N) as (H1 & H2 & H3 & H4 & H5 & H6).
    destruct (no_change_incl b a B A N') as (G1 & G2 & G3 & G4 & G5 & G6).
    constructor; try (intros; split; auto).
    assert (L : forall x y, (forall c, ~ Changed x y c) -> length (schema_exts x) <= length (schema_exts y)).
    { intros x y X. destruct (le_lt_dec (length (schema_exts x)) (length (schema_exts y))); auto.
      exfalso. eapply X. apply ch_remove_ext. exact l. }
    pose proof (L a b N). pose proof (L b a N'). lia.
  - intros SA. f_equal. destruct l as [|c l]; [reflexivity|]. exfalso.
    assert (C : Changed a b c) by (apply H; cbn; auto). clear E H.
    assert (MM : forall n f t p, Member b n f t p -> is_member a n f).
    { intros n f t p M. destruct t as [t|].
      - assert (X : HasField b n f t) by (apply field_member; eauto). apply (same_fields a b SA) in X.
        apply field_member in X. destruct X as (q & X). eexists; eexists; exact X.
      - assert (X : HasValue b n f) by (apply value_member; eauto). apply (same_values a b SA) in X.
        apply value_member in X. destruct X as (q & X). eexists; eexists; exact X. }
    assert (MM' : forall n f t p, Member a n f t p -> is_member b n f).
    { intros n f t p M. destruct t as [t|].
      - assert (X : HasField a n f t) by (apply field_member; eauto). apply (same_fields a b SA) in X.
        apply field_member in X. destruct X as (q & X). eexists; eexists; exact X.
      - assert (X : HasValue a n f) by (apply value_member; eauto). apply (same_values a b SA) in X.
        apply value_member in X. destruct X as (q & X). eexists; eexists; exact X. }
    assert (S1 : forall x y, In (DSchema x) b -> In (DSchema y) b -> x = y).
    { intros x y X Y. apply (last_schema_spec b x B) in X. apply (last_schema_spec b y B) in Y. congruence. }
    destruct C as [x y X Y NE|x y X Y NE|x y X Y NE|y NX Y|x X NY|i y Y L|L|n k x IX NX KX ND|n k D ND|n i CA CB N I|n i CA CB I N|n f k t p D D' N M|n f k D D' M N|n f k t u D D' T U NE|n f y M N Y|n f x M X N|n f x y X Y E NE|n f x y v X Y E DX DY|n f x y v X Y E DX DY|n f x y u v X Y E DX DY NE].
    + apply NE. apply (same_roots a b SA) in X. rewrite (S1 x y X Y). reflexivity.
    + apply NE. apply (same_roots a b SA) in X. rewrite (S1 x y X Y). reflexivity.
    + apply NE. apply (same_roots a b SA) in X. rewrite (S1 x y X Y). reflexivity.
    + apply (same_roots a b SA) in Y. exact (NX _ Y).
    + apply (same_roots a b SA) in X. exact (NY _ X).
    + assert (i < length (schema_exts b)) by (apply nth_error_Some; congruence). pose proof (same_exts a b SA). lia.
    + pose proof (same_exts a b SA). lia.
    + apply ND. apply (same_types a b SA). apply types_kind. exists x. split; [apply types_in; auto|exact KX].
    + apply ND. apply (same_types a b SA). exact D.
    + apply N. apply (same_impls a b SA). exact I.
    + apply N. apply (same_impls a b SA). exact I.
    + destruct (MM _ _ _ _ M) as (t' & p' & M'). exact (N _ _ M').
    + destruct M as (t & p & M). destruct (MM' _ _ _ _ M) as (t' & p' & M'). exact (N _ _ M').
    + apply NE. apply (same_fields a b SA) in T. apply field_member in T, U. destruct T as (p & T), U as (q & U).
      destruct (member_unique _ _ _ _ _ _ _ B T U). congruence.
    + apply (same_args a b SA) in Y. apply (N _ Y). reflexivity.
    + apply (same_args a b SA) in X. apply (N _ X). reflexivity.
    + apply (same_args a b SA) in X. apply NE. rewrite (arg_unique b n f x y B X Y E). reflexivity.
    + apply (same_args a b SA) in X. rewrite (arg_unique b n f x y B X Y E) in DX. congruence.
    + apply (same_args a b SA) in X. rewrite (arg_unique b n f x y B X Y E) in DX. congruence.
    + apply (same_args a b SA) in X. rewrite (arg_unique b n f x y B X Y E) in DX. congruence.
Qed.

Ltac ok_doc :=
  constructor; [cbn; repeat constructor; cbn; intuition discriminate
               |repeat constructor; cbn; intuition discriminate|cbn; lia].

(** Examples *)
Definition example_a : doc :=
  [DSchema (mkroots (Some "Query") None None);
   DType (TObject "Query" nil [mkfield "user" [mkinput "id" (TNonNull (TName "ID")) None] (TName "User")]);
   DType (TObject "User" ["Node"] [mkfield "id" nil (TName "ID"); mkfield "name" nil (TName "String")]);
   DType (TInterface "Node" nil [mkfield "id" nil (TName "ID")]);
   DDirective "auth"].

Definition example_b : doc :=
  [DSchema (mkroots (Some "Query") None None);
   DType (TInterface "Node" nil [mkfield "id" nil (TName "ID")]);
   DType (TObject "User" nil [mkfield "id" nil (TNonNull (TName "ID")); mkfield "name" nil (TName "String")]);
   DType (TObject "Query" nil [mkfield "user" [mkinput "id" (TName "ID") (Some "1")] (TName "User")])].

Example C50_example_ok : doc_ok example_a /\ doc_ok example_b.
Proof. split; ok_doc. Qed.

Example C50_example :
  diff example_a example_b =
  Some [mkchange (PArg "Query" "user" "id") AddFieldArgumentDefault (DefaultText "1");
        mkchange (PArg "Query" "user" "id") ChangeFieldArgumentType (TypeText (TName "ID"));
        mkchange (PImpl "User" "Node") RemoveInterfaceImplementation NoText;
        mkchange (PField "User" "id") ChangeFieldType (TypeText (TNonNull (TName "ID")));
        mkchange (PType "auth") RemoveDirectiveDefinition NoText].
Proof. vm_compute. reflexivity. Qed.

(** The default values of the fields of input objects are not compared: two
    schemas that differ in one have no difference. *)
Theorem C50_input_default_refuted :
  exists a b n x y,
    doc_ok a /\ doc_ok b /\
    HasType a (TInput n [x]) /\ HasType b (TInput n [y]) /\ i_name x = i_name y /\ i_default x <> i_default y /\
    diff a b = Some nil.
Proof.
  exists [DType (TInput "Filter" [mkinput "limit" (TName "Int") (Some "10")])],
         [DType (TInput "Filter" [mkinput "limit" (TName "Int") (Some "1000")])], "Filter",
         (mkinput "limit" (TName "Int") (Some "10")), (mkinput "limit" (TName "Int") (Some "1000")).
  split; [ok_doc|]. split; [ok_doc|].
  split; [left; cbn; auto|]. split; [left; cbn; auto|]. split; [reflexivity|]. split; [discriminate|].
  vm_compute. reflexivity.
Qed.

(** If a type is also extended, only the interfaces that its last definition or
    extension lists are compared: that a type no longer implements an interface
    goes unnoticed. *)
Theorem C50_extension_refuted :
  exists a b n i,
    Implements a n i /\ Composite b n /\ ~ Implements b n i /\ diff a b = Some nil.
Proof.
  exists [DType (TObject "User" ["Node"] [mkfield "id" nil (TName "ID")]);
          DTypeExt (TObject "User" nil [mkfield "name" nil (TName "String")])],
         [DType (TObject "User" nil [mkfield "id" nil (TName "ID")]);
          DTypeExt (TObject "User" nil [mkfield "name" nil (TName "String")])], "User", "Node".
  split; [eapply impl_object; [left; cbn; left; reflexivity|cbn; auto]|].
  split; [left; eapply (defines_type _ _ (TObject "User" nil [mkfield "id" nil (TName "ID")])); [cbn; auto|reflexivity]|].
  split; [|vm_compute; reflexivity].
  intros [impls fs [T|T] I|impls fs [T|T] I]; cbn in T; repeat destruct T as [T|T]; try discriminate; try contradiction;
    injection T as <- _; contradiction.
Qed.

(** Directives and types share a map: a schema in which the definition of a
    directive follows the type of the same name cannot be compared, not even
    with itself. *)
Theorem C50_same_name_refuted :
  exists a n fs, In (DType (TObject n nil fs)) a /\ In (DDirective n) a /\ diff a a = None.
Proof.
  exists [DType (TObject "tag" nil [mkfield "name" nil (TName "String")]); DDirective "tag"], "tag",
         [mkfield "name" nil (TName "String")].
  split; [cbn; auto|]. split; [cbn; auto|]. vm_compute. reflexivity.
Qed.
