(* What the comparison collects from a document without double definitions. *)
From Coq Require Import String List Bool Arith Lia.
Import ListNotations.
From Verif.SchemaDiff Require Import Ast Search Diff MapFacts.
Local Open Scope string_scope.
Local Open Scope list_scope.

(* A field, value or member of the type `n`: its type, if it has one, and the
   text that declares it. *)
Inductive Member (d : doc) (n f : string) : option ty -> payload -> Prop :=
| member_object impls fs x :
    HasType d (TObject n impls fs) -> In x fs -> f_name x = f -> Member d n f (Some (f_type x)) (FieldText x)
| member_interface impls fs x :
    HasType d (TInterface n impls fs) -> In x fs -> f_name x = f -> Member d n f (Some (f_type x)) (FieldText x)
| member_input fs x :
    HasType d (TInput n fs) -> In x fs -> i_name x = f -> Member d n f (Some (i_type x)) (InputText x)
| member_union vs : HasType d (TUnion n vs) -> In f vs -> Member d n f None (ValueText f)
| member_enum vs : HasType d (TEnum n vs) -> In f vs -> Member d n f None (ValueText f).

Lemma tdefs_in : forall d t, In t (tdefs d) <-> HasType d t.
Proof.
  intros d t. unfold tdefs, HasType. rewrite in_flat_map. split.
  - intros (x & X & T). destruct x; cbn in T; try contradiction; destruct T as [<-|[]]; auto.
  - intros [H|H]; eexists; (split; [exact H|]); cbn; auto.
Qed.

Lemma tdefs_names : forall d, NoDup (flat_map def_name d) -> NoDup (map tdef_name (tdefs d)).
Proof.
  intros d ND.
  assert (SUB : forall n, In n (map tdef_name (tdefs d)) -> In n (flat_map def_name d)).
  { intros n H. apply in_map_iff in H. destruct H as (t & <- & T). apply tdefs_in in T.
    apply in_flat_map. destruct T as [T|T]; eexists; (split; [exact T|]); cbn; auto. }
  clear SUB. induction d as [|x d IH]; cbn in *; [constructor|].
  assert (SUB : forall n, In n (map tdef_name (tdefs d)) -> In n (flat_map def_name d)).
  { intros n H. apply in_map_iff in H. destruct H as (t & <- & T). apply tdefs_in in T.
    apply in_flat_map. destruct T as [T|T]; eexists; (split; [exact T|]); cbn; auto. }
  destruct x; cbn in *; try (apply IH; inversion ND; auto; fail); auto.
  - inversion ND; subst. constructor; auto.
  - inversion ND; subst. constructor; auto.
Qed.

Lemma tdef_unique : forall ts t u, NoDup (map tdef_name ts) -> In t ts -> In u ts -> tdef_name t = tdef_name u -> t = u.
Proof.
  induction ts as [|x ts IH]; cbn; intros t u ND T U E; [contradiction|]. inversion ND; subst.
  destruct T as [->|T], U as [->|U]; auto.
  - exfalso. apply H1. rewrite E. apply in_map. exact U.
  - exfalso. apply H1. rewrite <- E. apply in_map. exact T.
Qed.

(* Keys that start with the name of a type are different for different types. *)
Lemma flat_map_keys : forall (K V : Type) (g : tdef -> list (K * V)) (nm : K -> string) ts,
  NoDup (map tdef_name ts) ->
  (forall t k v, In t ts -> In (k, v) (g t) -> nm k = tdef_name t) ->
  (forall t, In t ts -> NoDup (map fst (g t))) ->
  NoDup (map fst (flat_map g ts)).
Proof.
  induction ts as [|t ts IH]; cbn; intros ND NM EACH; [constructor|].
  inversion ND; subst. rewrite map_app.
  assert (A : NoDup (map fst (g t))) by auto.
  assert (B : NoDup (map fst (flat_map g ts))) by (apply IH; eauto).
  assert (SEP : forall k, In k (map fst (g t)) -> ~ In k (map fst (flat_map g ts))).
  { intros k X Y. apply in_map_iff in X, Y. destruct X as ((k1 & v1) & E1 & X), Y as ((k2 & v2) & E2 & Y).
    cbn in E1, E2. subst k1 k2. apply in_flat_map in Y. destruct Y as (u & U & Y).
    apply H1. rewrite <- (NM t k v1 (or_introl eq_refl) X), (NM u k v2 (or_intror U) Y). apply in_map. exact U. }
  revert A B SEP. generalize (map fst (g t)) (map fst (flat_map g ts)). clear.
  intros l m A B SEP. induction l as [|k l IH]; cbn; [exact B|].
  inversion A; subst. constructor.
  - rewrite in_app_iff. intros [X|X]; [contradiction|]. apply (SEP k); cbn; auto.
  - apply IH; auto. intros q Q. apply SEP. cbn. auto.
Qed.

Lemma tdef_fields_name : forall t k v, In (k, v) (tdef_fields t) -> fst k = tdef_name t.
Proof.
  intros t k v H. destruct t; cbn in *; try contradiction;
    apply in_map_iff in H; destruct H as (x & E & _); injection E as <- _; reflexivity.
Qed.

Lemma tdef_fields_keys : forall t, tdef_ok t -> NoDup (map fst (tdef_fields t)).
Proof.
  intros t OK. destruct t; cbn in *; try constructor; rewrite map_map; cbn.
  - destruct OK as (_ & ND & _). induction fields as [|x fs IH]; cbn in *; [constructor|].
    inversion ND; subst. constructor; auto. intros X. apply H1. apply in_map_iff in X.
    destruct X as (y & E & Y). injection E as E. rewrite <- E. apply in_map. exact Y.
  - destruct OK as (_ & ND & _). induction fields as [|x fs IH]; cbn in *; [constructor|].
    inversion ND; subst. constructor; auto. intros X. apply H1. apply in_map_iff in X.
    destruct X as (y & E & Y). injection E as E. rewrite <- E. apply in_map. exact Y.
  - induction members as [|x fs IH]; cbn in *; [constructor|].
    inversion OK; subst. constructor; auto. intros X. apply H1. apply in_map_iff in X.
    destruct X as (y & E & Y). injection E as E. rewrite <- E. exact Y.
  - induction values as [|x fs IH]; cbn in *; [constructor|].
    inversion OK; subst. constructor; auto. intros X. apply H1. apply in_map_iff in X.
    destruct X as (y & E & Y). injection E as E. rewrite <- E. exact Y.
  - induction fields as [|x fs IH]; cbn in *; [constructor|].
    inversion OK; subst. constructor; auto. intros X. apply H1. apply in_map_iff in X.
    destruct X as (y & E & Y). injection E as E. rewrite <- E. apply in_map. exact Y.
Qed.

Lemma fields_keys : forall d, doc_ok d -> NoDup (map fst (fields_of d)).
Proof.
  intros d OK. apply (flat_map_keys key2 fentry tdef_fields fst).
  - apply tdefs_names. apply ok_names. exact OK.
  - intros t k v _. apply tdef_fields_name.
  - intros t T. apply tdef_fields_keys. apply (type_ok d); auto. apply tdefs_in. exact T.
Qed.

Lemma fields_in : forall d n f t p, In ((n, f), (t, p)) (fields_of d) <-> Member d n f t p.
Proof.
  intros d n f t p. unfold fields_of. rewrite in_flat_map. split.
  - intros (td & T & H). apply tdefs_in in T. destruct td; cbn in H; try contradiction;
      apply in_map_iff in H; destruct H as (x & E & X); injection E as <- <- <- <-.
    + econstructor; eauto.
    + eapply member_interface; eauto.
    + eapply member_union; eauto.
    + eapply member_enum; eauto.
    + eapply member_input; eauto.
  - intros H. destruct H as [impls fs x T X <-|impls fs x T X <-|fs x T X <-|vs T X|vs T X];
      (eexists; split; [apply tdefs_in; exact T|]); cbn; apply in_map_iff.
    all: try (exists x; split; [reflexivity|exact X]).
    all: exists f; split; [reflexivity|exact X].
Qed.

Lemma impls_keys : forall d, doc_ok d -> NoDup (map fst (impls_of d)).
Proof.
  intros d OK. apply (flat_map_keys string (list string) tdef_impls (fun x => x)).
  - apply tdefs_names. apply ok_names. exact OK.
  - intros t k v _ H. destruct t; cbn in *; try contradiction; destruct H as [H|[]]; congruence.
  - intros t T. destruct t; cbn; repeat constructor; intros [].
Qed.

Lemma impls_in : forall d n l, In (n, l) (impls_of d) <->
  exists fs, HasType d (TObject n l fs) \/ HasType d (TInterface n l fs).
Proof.
  intros d n l. unfold impls_of. rewrite in_flat_map. split.
  - intros (t & T & H). apply tdefs_in in T. destruct t; cbn in H; try contradiction; destruct H as [H|[]];
      injection H as <- <-; eauto.
  - intros (fs & [H|H]); eexists; (split; [apply tdefs_in; exact H|]); cbn; auto.
Qed.

Lemma args_keys : forall d, doc_ok d -> NoDup (map fst (args_of d)).
Proof.
  intros d OK. apply (flat_map_keys key3 input tdef_args (fun k => fst (fst k))).
  - apply tdefs_names. apply ok_names. exact OK.
  - intros t k v _ H. destruct t; cbn in *; try contradiction;
      apply in_flat_map in H; destruct H as (x & X & H); apply in_map_iff in H;
      destruct H as (y & E & Y); injection E as <- <-; reflexivity.
  - intros t T.
    assert (OKT : tdef_ok t) by (apply (type_ok d); auto; apply tdefs_in; exact T).
    assert (G : forall (n : string) (fs : list field), NoDup (map f_name fs) -> Forall field_ok fs ->
      NoDup (map fst (flat_map (fun x => map (fun a => (((n, f_name x), i_name a), a)) (f_args x)) fs))).
    { intros n fs. induction fs as [|x fs IH]; cbn; intros ND F; [constructor|].
      inversion ND; subst. inversion F; subst. rewrite map_app, map_map. cbn.
      assert (A : NoDup (map (fun a => ((n, f_name x), i_name a)) (f_args x))).
      { clear - H3. unfold field_ok in H3. induction (f_args x) as [|a l IHl]; cbn in *; [constructor|].
        inversion H3; subst. constructor; auto. intros X. apply H1. apply in_map_iff in X.
        destruct X as (y & E & Y). injection E as E. rewrite <- E. apply in_map. exact Y. }
      specialize (IH H2 H4).
      assert (SEP : forall k, In k (map (fun a => ((n, f_name x), i_name a)) (f_args x)) ->
        ~ In k (map fst (flat_map (fun x => map (fun a => (((n, f_name x), i_name a), a)) (f_args x)) fs))).
      { intros k X Y. apply in_map_iff in X. destruct X as (u & <- & U). apply in_map_iff in Y.
        destruct Y as ((k' & v') & E' & Y). cbn in E'. subst k'. apply in_flat_map in Y.
        destruct Y as (y & Y & Z). apply in_map_iff in Z. destruct Z as (w & E & W). injection E as E _ _.
        apply H1. rewrite <- E. apply in_map. exact Y. }
      revert A IH SEP. generalize (map (fun a => ((n, f_name x), i_name a)) (f_args x)).
      intros l A IH SEP. induction l as [|k l IHl]; cbn; [exact IH|].
      inversion A; subst. constructor.
      - rewrite in_app_iff. intros [X|X]; [contradiction|]. apply (SEP k); cbn; auto.
      - apply IHl; auto. intros q Q. apply SEP. cbn. auto. }
    destruct t; cbn; try constructor; cbn in OKT; apply G; tauto.
Qed.

Lemma args_in : forall d n f q x, In (((n, f), q), x) (args_of d) <-> HasArg d n f x /\ i_name x = q.
Proof.
  intros d n f q x. unfold args_of. rewrite in_flat_map. split.
  - intros (t & T & H). apply tdefs_in in T. destruct t; cbn in H; try contradiction;
      apply in_flat_map in H; destruct H as (y & Y & H); apply in_map_iff in H; destruct H as (z & E & Z);
      injection E as <- <- <- <-; (split; [|reflexivity]).
    + eapply arg_object; eauto.
    + eapply arg_interface; eauto.
  - intros [H <-]. destruct H as [impls fs y i T Y <- I|impls fs y i T Y <- I];
      (eexists; split; [apply tdefs_in; exact T|]); cbn; apply in_flat_map; exists y; (split; [exact Y|]);
      apply in_map_iff; exists i; auto.
Qed.

Lemma types_keys : forall d, doc_ok d -> NoDup (map fst (types_of d)).
Proof.
  intros d OK. pose proof (ok_names d OK) as ND. clear OK.
  replace (map fst (types_of d)) with (flat_map def_name d); [exact ND|].
  clear ND. unfold types_of. induction d as [|x d IH]; cbn; [reflexivity|].
  rewrite map_app, <- IH. destruct x; reflexivity.
Qed.

Lemma types_in : forall d n x, In (n, x) (types_of d) <-> In x d /\ In n (def_name x).
Proof.
  intros d n x. unfold types_of. rewrite in_flat_map. split.
  - intros (y & Y & H). destruct y; cbn in H; try contradiction; destruct H as [H|[]]; injection H as <- <-; cbn; auto.
  - intros [X N]. exists x. split; [exact X|]. destruct x; cbn in *; try contradiction; destruct N as [<-|[]]; auto.
Qed.

Lemma types_kind : forall d n k, Defines d n k <-> exists x, In (n, x) (types_of d) /\ def_kind x = Some k.
Proof.
  intros d n k. split.
  - intros H. destruct H as [H|t H <-|t H <-]; eexists; (split; [apply types_in; split; [exact H|]; cbn; auto|reflexivity]).
  - intros (x & X & E). apply types_in in X. destruct X as [X N].
    destruct x; cbn in *; try discriminate; destruct N as [<-|[]]; injection E as <-.
    + apply defines_directive. exact X.
    + eapply defines_type; eauto.
    + eapply defines_ext; eauto.
Qed.

Lemma types_kind_in : forall d n x, In (n, x) (types_of d) -> exists k, def_kind x = Some k /\ Defines d n k.
Proof.
  intros d n x X. assert (exists k, def_kind x = Some k) as (k & E).
  { apply types_in in X. destruct X as [_ N]. destruct x; cbn in *; try contradiction; eauto. }
  exists k. split; [exact E|]. apply types_kind. eauto.
Qed.

Lemma kind_unique : forall d n j k, doc_ok d -> Defines d n j -> Defines d n k -> j = k.
Proof.
  intros d n j k OK J Kk. apply types_kind in J, Kk. destruct J as (x & X & EX), Kk as (y & Y & EY).
  apply types_in in X, Y. destruct X as [X NX], Y as [Y NY].
  rewrite (name_unique d x y n (ok_names d OK) X Y NX NY) in EX. congruence.
Qed.

Lemma member_defines : forall d n f t p, Member d n f t p ->
  exists k, Defines d n k /\ k <> KScalar /\ k <> KDirective /\
            ((k = KObject \/ k = KInterface \/ k = KInput) /\ t <> None \/ (k = KUnion \/ k = KEnum) /\ t = None).
Proof.
  intros d n f t p H.
  assert (G : forall td, HasType d td -> tdef_name td = n -> Defines d n (tdef_kind td)).
  { intros td [T|T] <-; [eapply defines_type|eapply defines_ext]; eauto. }
  destruct H as [impls fs x T X E|impls fs x T X E|fs x T X E|vs T X|vs T X];
    (eexists; split; [exact (G _ T eq_refl)|]); cbn; (split; [discriminate|]); (split; [discriminate|]).
  all: try (left; split; [tauto|discriminate]).
  all: right; split; [tauto|reflexivity].
Qed.

Lemma member_unique : forall d n f t p t' p', doc_ok d ->
  Member d n f t p -> Member d n f t' p' -> t = t' /\ p = p'.
Proof.
  intros d n f t p t' p' OK A B. apply fields_in in A, B.
  pose proof (fields_keys d OK) as ND.
  apply (last_of_in key2_eqb key2_eqb_spec _ _ _ ND) in A.
  apply (last_of_in key2_eqb key2_eqb_spec _ _ _ ND) in B.
  rewrite A in B. injection B as -> ->. auto.
Qed.

Lemma arg_unique : forall d n f x y, doc_ok d -> HasArg d n f x -> HasArg d n f y -> i_name x = i_name y -> x = y.
Proof.
  intros d n f x y OK A B E.
  assert (A' : In (((n, f), i_name x), x) (args_of d)) by (apply args_in; auto).
  assert (B' : In (((n, f), i_name x), y) (args_of d)) by (apply args_in; auto).
  pose proof (args_keys d OK) as ND.
  apply (last_of_in key3_eqb key3_eqb_spec _ _ _ ND) in A'.
  apply (last_of_in key3_eqb key3_eqb_spec _ _ _ ND) in B'.
  congruence.
Qed.

Lemma arg_member : forall d n f x, HasArg d n f x -> exists t p, Member d n f (Some t) p.
Proof.
  intros d n f x [impls fs y i T Y E I|impls fs y i T Y E I]; eexists; eexists.
  - eapply member_object; eauto.
  - eapply member_interface; eauto.
Qed.

Lemma field_member : forall d n f t, HasField d n f t <-> exists p, Member d n f (Some t) p.
Proof.
  intros. split.
  - intros [impls fs x T X E|impls fs x T X E|fs x T X E]; eexists.
    + eapply member_object; eauto.
    + eapply member_interface; eauto.
    + eapply member_input; eauto.
  - intros [p H]. inversion H; subst.
    + eapply has_object; eauto.
    + eapply has_interface; eauto.
    + eapply has_input; eauto.
Qed.

Lemma value_member : forall d n f, HasValue d n f <-> exists p, Member d n f None p.
Proof.
  intros. split.
  - intros [vs T X|vs T X]; eexists; [eapply member_union|eapply member_enum]; eauto.
  - intros [p H]. inversion H; subst; [eapply has_member|eapply has_value]; eauto.
Qed.
