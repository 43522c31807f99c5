(** C116: directives of subgraphs mean what their [@link]s say. *)
From Coq Require Import List Bool Ascii String PeanoNat Lia.
From Verif.Links Require Import Model Spec Lemmas.
Import ListNotations.

Section Properties.
  Variable links : list link.
  Variable virtual : bool.
  Variable defs : list name.

  Notation recognise := (match_directive_name (ingest links) virtual defs).

  Definition or_local (n : name) (m : matched) : matched :=
    match m with NoMatch => if existsb (eqn n) defs then LocallyDefined else NoMatch | other => other end.

  Lemma recognise_plain : forall n, plain n -> recognise n = or_local n (match_inner (ingest links) virtual n None).
  Proof. intros n P. unfold match_directive_name. rewrite (split_plain n P). unfold or_local. destruct (match_inner _ _ _ _); reflexivity. Qed.

  Lemma recognise_split : forall ns n, plain (ns ++ L "_") -> recognise (ns ++ sep ++ n) = or_local n (match_inner (ingest links) virtual n (find ns (namespaces (ingest links)))).
  Proof. intros ns n P. unfold match_directive_name. rewrite (split_ns ns n P). unfold or_local. destruct (match_inner _ _ _ _); reflexivity. Qed.

  (** A directive that is imported is the one it is imported from. *)
  Theorem C116_imported : forall k l i o n m, nth_error links k = Some l -> In i (l_imports l) -> brings i o n -> plain n -> unambiguous links n ->
    denotes l o (Imported k o) m -> recognise n = m.
  Proof.
    intros k l i o n m E I B P U D. rewrite (recognise_plain n P). unfold match_inner.
    rewrite (find_import links n k i o U (ex_intro _ l (conj E I)) B), (ingest_nth _ _ _ E). pose proof (from_url_spec l) as F.
    destruct D as [s d D1 D2 ->|s d D1 D2 ->|D1 D2]; destruct (from_url (l_url l)) as [[]|]; try tauto.
    - rewrite (federation_of _ _ D2). reflexivity.
    - rewrite (composite_of _ _ D2). reflexivity.
  Qed.

  (** A directive with the prefix of a linked schema is the one of this schema. *)
  Theorem C116_qualified : forall k l ns n m, nth_error links k = Some l -> prefix_of l ns -> plain (ns ++ L "_") -> unambiguous_prefix links ns ->
    denotes l n (Qualified k n) m -> recognise (ns ++ sep ++ n) = m.
  Proof.
    intros k l ns n m E B P U D. rewrite (recognise_split ns n P), (find_prefix _ _ _ _ U E B). unfold match_inner.
    rewrite (ingest_nth _ _ _ E). pose proof (from_url_spec l) as F.
    destruct D as [s d D1 D2 ->|s d D1 D2 ->|D1 D2]; destruct (from_url (l_url l)) as [[]|]; try tauto.
    - rewrite (federation_of _ _ D2). reflexivity.
    - rewrite (composite_of _ _ D2). reflexivity.
  Qed.

  Definition not_imported (n : name) : Prop := forall k i o, imports_of links k i -> ~ brings i o n.

  (** Directives of GraphQL are known without being imported. *)
  Theorem C116_builtin : forall s d, plain (L s) -> unambiguous links (L s) -> not_imported (L s) -> In (s, d) of_graphql -> recognise (L s) = Known d.
  Proof.
    intros s d P U NI H. rewrite (recognise_plain _ P). unfold match_inner. rewrite (find_no_import _ _ U NI), (builtin_of _ _ H). reflexivity.
  Qed.

  (** Directives of federation are known without being imported if its second version isn't linked. *)
  Theorem C116_first_version : forall s d, unambiguous links (L s) -> not_imported (L s) -> In (s, d) of_federation -> virtual = false ->
    (forall l, In l links -> ~ is_federation l) -> recognise (L s) = Known d.
  Proof.
    intros s d U NI H V NF.
    assert (SP : split_once (L s) = None /\ builtin (L s) = None) by (repeat (destruct H as [H|H]; [injection H as <- _; split; reflexivity|]); destruct H).
    destruct SP as [SP BU]. unfold match_directive_name. rewrite SP. unfold match_inner. rewrite (find_no_import _ _ U NI), BU, (federation_of _ _ H), V.
    pose proof (spec_of links) as S1. destruct (federation_spec (ingest links)); try reflexivity. destruct S1 as [[l [I F]] _]. elim (NF l I F).
  Qed.

  (** Why a directive without prefix is known. *)
  Inductive reason (n : name) (d : known) : Prop :=
  | imports k l i o : nth_error links k = Some l -> In i (l_imports l) -> brings i o n -> denotes l o (Imported k o) (Known d) -> reason n d
  | language s : In (s, d) of_graphql -> n = L s -> reason n d
  | automatic s : In (s, d) of_federation -> n = L s -> virtual = false ->
      (forall l, In l links -> ~ is_federation l) \/ (exists l, In l links /\ is_composite l) -> reason n d.

  (** Nothing else without prefix is known. *)
  Theorem C116_sound : forall n d, plain n -> unambiguous links n -> recognise n = Known d -> reason n d.
  Proof.
    intros n d P U E. rewrite (recognise_plain n P) in E. unfold or_local in E.
    assert (E' : match_inner (ingest links) virtual n None = Known d) by (destruct (match_inner _ _ _ _); try discriminate; [destruct (existsb _ _); discriminate|exact E]).
    clear E. unfold match_inner in E'. destruct (find n (imported (ingest links))) as [[k o]|] eqn:F.
    - apply find_some, imported_spec in F. destruct F as [i [I [F1 F2]]]. pose proof (final_brings _ _ _ _ U I F1) as B. rewrite F2 in B.
      destruct I as [l [NL I]]. rewrite (ingest_nth _ _ _ NL) in E'. pose proof (from_url_spec l) as FU.
      apply (imports _ _ k l i o NL I B). destruct (from_url (l_url l)) as [[]|]; try tauto; try discriminate.
      + rewrite federation_look in E'. destruct (look_some _ _ _ E') as [s [H ->]]. apply (d_federation _ _ _ s); tauto.
      + rewrite composite_look in E'. destruct (look_some _ _ _ E') as [s [H ->]]. apply (d_composite _ _ _ s); tauto.
    - destruct (builtin n) as [b|] eqn:BU.
      + injection E' as ->. destruct (builtin_some _ _ BU) as [s [H ->]]. apply (language _ _ s); auto.
      + pose proof (spec_of links) as S1. destruct (federation_spec (ingest links)) eqn:FS; try discriminate; destruct virtual eqn:V; try discriminate;
          rewrite federation_look in E'; destruct (look_some _ _ _ E') as [s [H ->]]; apply (automatic _ _ s); auto.
        left. intros l I. apply S1, I.
  Qed.

  (** Nothing else with the prefix of a linked schema is known. *)
  Theorem C116_sound_qualified : forall k l ns n d, nth_error links k = Some l -> prefix_of l ns -> plain (ns ++ L "_") -> unambiguous_prefix links ns ->
    recognise (ns ++ sep ++ n) = Known d -> denotes l n (Qualified k n) (Known d).
  Proof.
    intros k l ns n d E B P U R. rewrite (recognise_split ns n P), (find_prefix _ _ _ _ U E B) in R. unfold match_inner in R.
    rewrite (ingest_nth _ _ _ E) in R. pose proof (from_url_spec l) as F. unfold or_local in R.
    destruct (from_url (l_url l)) as [[]|]; try tauto; try discriminate.
    - rewrite federation_look in R. destruct (look_known n of_federation) as [Q|[d' Q]]; rewrite Q in R; [destruct (existsb _ _); discriminate|]. injection R as ->.
      destruct (look_some _ _ _ Q) as [s [H ->]]. apply (d_federation _ _ _ s); tauto.
    - rewrite composite_look in R. destruct (look_known n of_composite) as [Q|[d' Q]]; rewrite Q in R; [destruct (existsb _ _); discriminate|]. injection R as ->.
      destruct (look_some _ _ _ Q) as [s [H ->]]. apply (d_composite _ _ _ s); tauto.
  Qed.

  (** A directive that the subgraph defines and that is nothing else is recognised as its own. *)
  Theorem C116_local : forall n, plain n -> unambiguous links n -> not_imported n -> (forall d, ~ reason n d) -> In n defs -> recognise n = LocallyDefined.
  Proof.
    intros n P U NI NR D.
    assert (K : forall d, recognise n <> Known d) by (intros d E; exact (NR d (C116_sound n d P U E))).
    rewrite (recognise_plain n P) in *. unfold match_inner in *. rewrite (find_no_import _ _ U NI) in *.
    assert (LD : existsb (eqn n) defs = true) by (apply existsb_exists; exists n; split; [exact D|apply eqn_refl]).
    destruct (builtin n) as [b|]; [elim (K b); reflexivity|].
    destruct (federation_spec (ingest links)); try destruct virtual; cbn [or_local] in *; rewrite ?LD; try reflexivity;
      rewrite federation_look in *; destruct (look_known n of_federation) as [Q|[d Q]]; rewrite Q in *; cbn [or_local] in *; rewrite ?LD; try reflexivity; elim (K d); reflexivity.
  Qed.

  (** An unknown prefix is dropped. *)
  Theorem C116_dropped : forall ns n, plain (ns ++ L "_") -> plain n -> (forall l, In l links -> ~ prefix_of l ns) -> recognise (ns ++ sep ++ n) = recognise n.
  Proof. intros ns n P P' NP. rewrite (recognise_split ns n P), (find_no_prefix _ _ NP), (recognise_plain n P'). reflexivity. Qed.
End Properties.
