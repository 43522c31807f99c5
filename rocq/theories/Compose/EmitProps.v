(* C59: emission of the composed schema ends. *)
From Coq Require Import String List Bool Arith ZArith Lia Permutation.
From Verif.SchemaDiff Require Import Search.
From Verif.Compose Require Import Model Spec Facts TypeFacts SchemaFacts GroupFacts KindFacts LookupFacts Decide CoverProps.
Import ListNotations.
Local Open Scope string_scope.
Local Open Scope list_scope.

(* A composed type is about the same name as its parts. *)
Lemma compose_type_base : forall a b r, compose_type a b = Some r -> base a = base b.
Proof.
  intros a b r. unfold compose_type, ftype_eqb. destruct (String.eqb (base a) (base b)) eqn:E; cbn [andb negb].
  - intros _. apply String.eqb_eq. exact E.
  - discriminate.
Qed.
Lemma op_base : forall op, op = compose_for_input \/ op = compose_for_output ->
  forall a b c, op a b = Some c -> base c = base a.
Proof.
  intros op O a b c E. destruct O as [-> | ->]; unfold compose_for_input, compose_for_output in E;
    destruct (compose_type a b) as [r|] eqn:T; try discriminate; cbn [option_map] in E; injection E as <-;
    apply compose_type_base in T; destruct r; congruence.
Qed.
Lemma fold_arg_base : forall l t c, fold_arg_types t l = Some c -> base c = base t.
Proof.
  induction l as [|a l IH]; intros t c E; cbn [fold_arg_types] in E; [congruence|].
  destruct (compose_for_input t (a_type (v_arg a))) as [u|] eqn:O; [|discriminate].
  rewrite (IH _ _ E). apply (op_base compose_for_input (or_introl eq_refl) _ _ _ O).
Qed.
Lemma fold_types_base : forall op, op = compose_for_input \/ op = compose_for_output ->
  forall n l t c, fold_types op n t l = inl c -> base c = base t.
Proof.
  intros op O n. induction l as [|f l IH]; intros t c E; cbn [fold_types] in E; [congruence|].
  destruct (own_type (v_field f)) as [u|]; [|discriminate]. destruct (op t u) as [t'|] eqn:T; [|discriminate].
  rewrite (IH _ _ E). apply (op_base op O _ _ _ T).
Qed.
Lemma field_types_base : forall op, op = compose_for_input \/ op = compose_for_output ->
  forall l c, compose_field_types op l = Some (inl c) -> exists f, In f l /\ base c = base (f_type (v_field f)).
Proof.
  intros op O [|f l] c E; [discriminate|]. cbn [compose_field_types] in E.
  destruct (own_type (v_field f)) as [t|] eqn:T; [|discriminate]. exists f. split; [left; reflexivity|].
  assert (fold_types op (d_name (v_def (v_parent f))) t l = inl c) as E' by congruence.
  rewrite (fold_types_base op O _ _ _ _ E'). unfold own_type in T. destruct (batched (v_field f)).
  - destruct (without_list (wrap (f_type (v_field f)))); [|discriminate]. cbn in T. injection T as <-. reflexivity.
  - congruence.
Qed.

(* The scalar that composition brings itself is not used by a subgraph. *)
Definition field_set_free (gs : list subgraph) : Prop :=
  forall g d f, In g gs -> In d (g_defs g) -> In f (d_fields d) ->
    base (f_type f) <> "join__FieldSet" /\ forall a, In a (f_args f) -> base (a_type a) <> "join__FieldSet".

Section emit.
  Variable gs : list subgraph.
  Hypothesis si : sound_input gs.
  Hypothesis ok : diags_of (compose_subgraphs gs) = nil.
  Hypothesis free : field_set_free gs.

  Let wf := si_wf gs si.

  Lemma known_named : forall g n, In g gs -> defined g n -> n <> "join__FieldSet" ->
    forall t, base t = n -> known (composed_items gs) t = true.
  Proof.
    intros g n G D NE t <-. unfold known. pose proof (defined_known gs si ok g _ G D NE) as K.
    destruct (inserted (composed_items gs) (base t)); [reflexivity|contradiction].
  Qed.

  Lemma known_field : forall x t, In (v_graph (v_parent x)) gs -> In (v_def (v_parent x)) (g_defs (v_graph (v_parent x))) ->
    In (v_field x) (d_fields (v_def (v_parent x))) ->
    base t = base (f_type (v_field x)) -> known (composed_items gs) t = true.
  Proof.
    intros x t G D F E. apply (known_named (v_graph (v_parent x)) (base (f_type (v_field x))) G); [| |exact E].
    - apply (wf_types _ (wf _ G) _ _ D F).
    - apply (free _ _ _ G D F).
  Qed.

  Lemma view_fields : forall n x, In x (all_fields (all_named gs n)) ->
    In (v_graph (v_parent x)) gs /\ In (v_def (v_parent x)) (g_defs (v_graph (v_parent x))) /\
    In (v_field x) (d_fields (v_def (v_parent x))).
  Proof. intros n x I. apply all_fields_in in I. destruct I as (V & F). apply (view_in gs wf) in V. tauto. Qed.

  Lemma composed_item : forall i, In i (composed_items gs) ->
    (exists n, i = IScalar n plain) \/ exists n v, In v (all_named gs n) /\ In i (name_items gs n).
  Proof.
    intros i I. rewrite (composed_split gs si), !in_app_iff in I.
    assert (H : forall n, In i (name_items gs n) -> exists n v, In v (all_named gs n) /\ In i (name_items gs n)).
    { intros n J. destruct (own_nonempty gs n i J) as (v & V). eauto. }
    destruct I as [I|[I|[I|[I|I]]]]; [| |right; eauto..].
    - left. apply in_map_iff in I. destruct I as (n & <- & _). eauto.
    - right. apply in_flat_map in I. destruct I as (n & _ & I).
      destruct (in_dec string_dec n root_names) as [R|R].
      + rewrite (group_items_root gs wf n R) in I. contradiction.
      + rewrite (group_items_plain gs wf n R) in I. eauto.
  Qed.

  (* a definition among the items of a name is what is inserted for it *)
  Lemma named_item : forall n v i m, In v (all_named gs n) -> In i (name_items gs n) -> item_name i = Some m ->
    own_item gs n (d_kind (v_def v)) = Some i.
  Proof.
    intros n v i m V I N.
    destruct (name_items_spec gs wf (si_kinds gs si) (si_interfaces gs si) ok n v V) as (_ & <- & _).
    assert (O : ones n (names (name_items gs n))) by (apply (names_once gs si)).
    revert I O. generalize (name_items gs n). intros l I O.
    apply in_split in I. destruct I as (a & b & ->).
    unfold names in O. rewrite flat_map_app in O. cbn [flat_map] in O. rewrite N in O.
    assert (X : flat_map (fun i0 : item => match item_name i0 with Some n0 => [n0] | None => nil end) a = nil /\
                flat_map (fun i0 : item => match item_name i0 with Some n0 => [n0] | None => nil end) b = nil /\ m = n).
    { destruct O as [O|O].
      - apply app_eq_nil in O. destruct O as (_ & O). discriminate.
      - destruct (flat_map (fun i0 : item => match item_name i0 with Some n0 => [n0] | None => nil end) a) as [|x r].
        + cbn in O. injection O as <- O. auto.
        + cbn in O. injection O as _ O. destruct r; discriminate. }
    destruct X as (_ & B & ->). rewrite inserted_app. rewrite (inserted_one n i b N); [reflexivity|].
    intros j J. pose proof (proj1 (flat_map_nil _ _ _ _) B j J) as E. cbn in E. destruct (item_name j); [discriminate|reflexivity].
  Qed.

  Lemma entity_inserted : forall n v, In v (all_named gs n) -> d_kind (v_def v) = KObject \/ d_kind (v_def v) = KInterface ->
    entity_item (inserted (composed_items gs) n) = true.
  Proof. intros n v V K. rewrite (inserted_view gs si ok n v V). destruct K as [K|K]; rewrite K; reflexivity. Qed.

  Lemma emits_all : emits gs (composed_items gs) = true.
  Proof.
    unfold emits. apply andb_true_iff. split; apply forallb_forall.
    - intros i I. destruct (composed_item i I) as [(n & ->)|(n & v & V & J)]; [reflexivity|].
      destruct (name_items_spec gs wf (si_kinds gs si) (si_interfaces gs si) ok n v V) as (_ & _ & FS & MS & OWN & DI & _).
      specialize (OWN i J).
      destruct i as [m d|m vs d|m fs d|m d|m d|m d|u m|p f]; try reflexivity.
      + (* an input object *)
        pose proof (named_item n v _ _ V J eq_refl) as O. unfold own_item in O.
        destruct (d_kind (v_def v)); try discriminate.
        2:{ destruct (String.eqb n "join__FieldSet"); discriminate. }
        injection O as <- <- <-. apply forallb_forall. intros x X.
        assert (NE : all_named gs n <> nil) by (intros E; rewrite E in V; contradiction).
        destruct (input_fields_spec n _ NE DI) as (A & _). destruct (A x X) as (_ & T & _).
        apply (field_types_base compose_for_input (or_introl eq_refl)) in T. destruct T as (y & Y & B).
        apply sel_in in Y. destruct Y as (Y & _). destruct (view_fields n y Y) as (G & D & F).
        apply (known_field y); assumption.
      + (* a member *)
        subst u. assert (M : In m (own_members gs n (d_kind (v_def v)))).
        { rewrite <- MS. apply in_flat_map. exists (IMember n m). split; [exact J|]. cbn. rewrite String.eqb_refl. left. reflexivity. }
        rewrite (inserted_view gs si ok n v V). unfold own_members, own_item in *.
        destruct (d_kind (v_def v)); try contradiction. apply in_flat_map in M. destruct M as (w & W & M).
        apply (view_in gs wf) in W. destruct W as (G & D & N).
        rewrite (kind_inserted gs si ok (v_graph w) m KObject G); [reflexivity|]. apply (wf_members _ (wf _ G) _ _ D M).
      + (* a field *)
        subst p. apply field_sel_in in J. rewrite FS in J. unfold own_fields in J.
        assert (K : d_kind (v_def v) = KObject \/ d_kind (v_def v) = KInterface) by (destruct (d_kind (v_def v)); auto; contradiction).
        assert (DI' : fst (compose_fields (all_named gs n)) = nil) by (destruct K as [K|K]; rewrite K in DI; exact DI).
        assert (J' : In f (snd (compose_fields (all_named gs n)))) by (destruct K as [K|K]; rewrite K in J; exact J).
        rewrite (entity_inserted n v V K), andb_true_r.
        destruct (compose_fields_spec _ DI') as (_ & B & _). destruct (B f J') as (CF & _).
        destruct (compose_field_args _ _ CF) as (AD & AE & TE & _). apply andb_true_iff. split.
        * apply (field_types_base compose_for_output (or_intror eq_refl)) in TE. destruct TE as (y & Y & E).
          apply sel_in in Y. destruct Y as (Y & _). destruct (view_fields n y Y) as (G & D & F). apply (known_field y); assumption.
        * apply forallb_forall. intros x X. rewrite AE in X.
          destruct (sel vf_name (all_fields (all_named gs n)) (of_name f)) as [|y0 r0] eqn:SL; [contradiction|].
          assert (NE : y0 :: r0 <> nil) by discriminate.
          destruct (merge_field_arguments_spec _ NE AD) as (M1 & _). destruct (M1 x X) as (_ & (y & r & SE & T) & _).
          apply fold_arg_base in T.
          assert (Y : In y (all_args (y0 :: r0))).
          { assert (Z : In y (sel va_name (all_args (y0 :: r0)) (oi_name x))) by (rewrite SE; left; reflexivity).
            apply sel_in in Z. apply Z. }
          apply all_args_in in Y. destruct Y as (YF & YA). rewrite <- SL in YF. apply sel_in in YF. destruct YF as (YF & _).
          destruct (view_fields n _ YF) as (G & D & F).
          apply (known_named (v_graph (v_parent (v_of y))) (base (a_type (v_arg y))) G); [| |exact T].
          -- apply (wf_types _ (wf _ G) _ _ D F). exact YA.
          -- apply (free _ _ _ G D F). exact YA.
    - intros (i, n) I. apply in_flat_map in I. destruct I as (g & G & I). cbn [fst snd].
      destruct (wf_impls g (wf g G) i n I) as (KI & KN).
      rewrite (kind_inserted gs si ok g i KInterface G KI). cbn [own_item].
      destruct KN as [KN|KN].
      + rewrite (kind_inserted gs si ok g n KObject G KN). reflexivity.
      + rewrite (kind_inserted gs si ok g n KInterface G KN). reflexivity.
  Qed.
End emit.

(* C59 *)
Theorem C59_no_panic_partial : forall gs, sound_input gs -> field_set_free gs -> compose gs <> Panicked.
Proof.
  intros gs SI FR E. unfold compose in E. destruct gs as [|g gs]; [discriminate|].
  destruct (negb (existsb has_root (g :: gs))); [discriminate|]. cbv zeta in E.
  destruct (diags_of (compose_subgraphs (g :: gs))) as [|d ds] eqn:D; [|discriminate].
  pose proof (emits_all _ SI D FR) as X. unfold composed_items in X. rewrite X in E. discriminate.
Qed.

Definition field_set_freeb (gs : list subgraph) : bool :=
  forallb (fun d => forallb (fun f =>
    negb (String.eqb (base (f_type f)) "join__FieldSet") &&
    forallb (fun a => negb (String.eqb (base (a_type a)) "join__FieldSet")) (f_args f)) (d_fields d)) (all_defs gs).
Lemma field_set_freeb_ok : forall gs, field_set_freeb gs = true -> field_set_free gs.
Proof.
  intros gs H g d f G D F. unfold field_set_freeb in H. rewrite forallb_forall in H.
  specialize (H d (all_defs_in gs g d G D)). rewrite forallb_forall in H. specialize (H f F).
  apply andb_true_iff in H. destruct H as (H1 & H2). split.
  - intros E. rewrite E in H1. discriminate.
  - intros a A E. rewrite forallb_forall in H2. specialize (H2 a A). rewrite E in H2. discriminate.
Qed.

Example C59_example :
  sound_input [books_g; shop_g] /\ field_set_free [books_g; shop_g] /\ exists s, compose [books_g; shop_g] = Composed s.
Proof.
  split; [apply sound_inputb_ok; vm_compute; reflexivity|].
  split; [apply field_set_freeb_ok; vm_compute; reflexivity|]. eexists. vm_compute. reflexivity.
Qed.

(* Panics.  A type that is not defined. *)
Theorem C59_undefined_refuted : exists g, compose [g] = Panicked /\ NoDup (map d_name (g_defs g)) /\ usual_root g (g_query g) "Query".
Proof.
  exists (graph "g" [object "Query" [fld "a" (tnull "A")]] nil). split; [vm_compute; reflexivity|].
  split; [repeat constructor; intros []|]. apply usual_rootb_ok. vm_compute. reflexivity.
Qed.

(* A root with a name of its own, that has a field of its own type; every type
   is defined. *)
Theorem C59_root_refuted : exists g, compose [g] = Panicked /\
  forall d f, In d (g_defs g) -> In f (d_fields d) -> defined g (base (f_type f)).
Proof.
  exists (mkgraph "g" ApolloV2 [object "Root" [fld "self" (tnull "Root")]] nil (Some "Root") None None).
  split; [vm_compute; reflexivity|]. intros d f [<-|[]] [<-|[]]. left. left. reflexivity.
Qed.

(* A root with a name of its own that implements an interface. *)
Theorem C59_root_interface_refuted : exists g, compose [g] = Panicked /\
  (forall d f, In d (g_defs g) -> In f (d_fields d) -> defined g (base (f_type f))) /\
  (forall i n, In (i, n) (g_impls g) -> has_kind g i KInterface /\ has_kind g n KObject).
Proof.
  exists (mkgraph "g" ApolloV2 [object "Root" [fld "a" (tnull "Int")]; interface "I" [infld "a" (tnull "Int") None]]
            [("I", "Root")] (Some "Root") None None).
  split; [vm_compute; reflexivity|]. split.
  - intros d f [<-|[<-|[]]] [<-|[]]; right; cbn; tauto.
  - intros i n [X|[]]. injection X as <- <-. split; apply has_kindb_ok; vm_compute; reflexivity.
Qed.

(* A scalar with the name of the one that composition brings itself. *)
Theorem C59_field_set_refuted : exists g, sound_input [g] /\ compose [g] = Panicked.
Proof.
  exists (graph "g" [object "Query" [fld "a" (tnull "join__FieldSet")]; scalar_def "join__FieldSet"] nil).
  split; [apply sound_inputb_ok; vm_compute; reflexivity|vm_compute; reflexivity].
Qed.

(* Subgraphs that use a name for types of different kinds. *)
Theorem C59_kinds_refuted : exists g h, well_formed g /\ well_formed h /\ no_entity_interfaces [g; h] /\ compose [g; h] = Panicked.
Proof.
  exists (graph "g" [object "Query" [fld "a" (tnull "X")]; scalar_def "X"] nil).
  exists (graph "h" [object "Query" [fld "b" (tnull "I")]; interface "I" [infld "x" (tnull "Int") None];
                     object "X" [fld "x" (tnull "Int")]] [("I", "X")]).
  split; [apply well_formedb_ok; vm_compute; reflexivity|]. split; [apply well_formedb_ok; vm_compute; reflexivity|].
  split; [apply no_entity_interfacesb_ok; vm_compute; reflexivity|vm_compute; reflexivity].
Qed.
