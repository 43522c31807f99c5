(* C56: what a subgraph returns, the composed schema allows. *)
From Coq Require Import String List Bool Arith ZArith Lia Permutation.
From Verif.SchemaDiff Require Import Search.
From Verif.Compose Require Import Model Spec Facts TypeFacts TypeProps SchemaFacts GroupFacts KindFacts LookupFacts EnumProps
  Decide InputProps.
Import ListNotations.
Local Open Scope string_scope.
Local Open Scope list_scope.

Fixpoint data_size (d : data) : nat :=
  match d with
  | Obj _ l => S ((fix go (l : list (name * data)) : nat := match l with nil => 0 | (_, x) :: r => data_size x + go r end) l)
  | Arr l => S ((fix go (l : list data) : nat := match l with nil => 0 | x :: r => data_size x + go r end) l)
  | _ => 1
  end.
Lemma size_obj : forall n l f x, In (f, x) l -> data_size x < data_size (Obj n l).
Proof.
  intros n l f x I. cbn. induction l as [|(k, y) l IH]; [contradiction|]. destruct I as [E|I].
  - injection E as -> ->. lia.
  - specialize (IH I). lia.
Qed.
Lemma size_arr : forall l x, In x l -> data_size x < data_size (Arr l).
Proof.
  intros l x I. cbn. induction l as [|y l IH]; [contradiction|]. destruct I as [->|I]; [lia|]. specialize (IH I). lia.
Qed.

Lemma conforms_list : forall sys sc l t r, conforms sys sc (Arr l) (ListOf t r) <-> forall x, In x l -> conforms sys sc x t.
Proof.
  intros sys sc l t r. cbn. induction l as [|x l IH]; [split; [intros _ y []|auto]|]. rewrite IH. split.
  - intros (A & B) y [<-|I]; [exact A|apply B; exact I].
  - intros H. split; [apply H; left; reflexivity|]. intros y I. apply H. right. exact I.
Qed.

Lemma conforms_object : forall sys sc tn fs n r,
  conforms sys sc (Obj tn fs) (Named n r) <->
  match stands sys n with
  | Some (TObject _) => tn = n
  | Some (TInterface _) => implements sys tn n
  | Some (TUnion ms) => In tn ms
  | _ => False
  end /\
  exists flds, stands sys tn = Some (TObject flds) /\
    forall f x, In (f, x) fs -> exists t', In (f, t') flds /\ conforms sys sc x t'.
Proof.
  intros sys sc tn fs n r. cbn [conforms].
  match goal with |- ?A /\ ?X <-> ?A /\ ?Y => cut (X <-> Y); [tauto|] end.
  split; intros (flds & S & H); exists flds; (split; [exact S|]); clear S; revert H.
  - induction fs as [|(f, x) fs IH]; [intros _ f x []|]. intros (A & B) g y [K|I]; [injection K as <- <-; exact A|].
    apply (IH B). exact I.
  - induction fs as [|(f, x) fs IH]; [intros _; exact Logic.I|]. intros H. split; [apply H; left; reflexivity|].
    apply IH. intros g y I. apply H. right. exact I.
Qed.

Section sound.
  Variable gs : list subgraph.
  Variable s : schema.
  Variable scalar : name -> value -> Prop.
  Hypothesis si : sound_input gs.
  Hypothesis depths : same_depths gs.
  Hypothesis C : compose gs = Composed s.

  Let wf := si_wf gs si.
  Let kinds := si_kinds gs si.
  Let ok : diags_of (compose_subgraphs gs) = nil := proj1 (composed_inv gs s C).

  (* Every field of an object has a composed one, with a type that is known. *)
  Lemma object_field : forall g d f, In g gs -> In d (g_defs g) -> d_kind d = KObject \/ d_kind d = KInterface -> In f (d_fields d) ->
    exists f', In f' (snd (compose_fields (all_named gs (d_name d)))) /\ of_name f' = f_name f /\
      lookup s (base (of_type f')) <> None /\ base (of_type f') = base (f_type f) /\
      forall sys x, conforms sys scalar x (field_type f) -> conforms sys scalar x (type_of (of_type f')).
  Proof.
    intros g d f G D K F. pose proof (view_of gs si g d G D) as IV.
    destruct (name_items_spec gs wf kinds (si_interfaces gs si) ok _ _ IV) as (_ & _ & FS & _ & _ & X & _). cbn [v_def] in X, FS.
    assert (FD : fst (compose_fields (all_named gs (d_name d))) = nil) by (destruct K as [K|K]; rewrite K in X; exact X).
    assert (FS' : flat_map (field_sel (d_name d)) (name_items gs (d_name d)) = snd (compose_fields (all_named gs (d_name d)))).
    { rewrite FS. destruct K as [-> | ->]; reflexivity. }
    destruct (compose_fields_spec _ FD) as (S1 & _).
    destruct (S1 (mkfview (mkdview g d) f)) as (f' & I & N).
    { apply all_fields_in. auto. }
    unfold vf_name in N. cbn [v_field] in N. exists f'. split; [exact I|]. split; [exact N|].
    destruct (composed_field_of gs s si C g d f f' G D F K I N) as (E & IS).
    destruct (compose_field_args _ _ E) as (_ & _ & T & _).
    destruct (output_type _ _ T (fields_depths gs si depths (d_name d) (f_name f))) as (HN & HC).
    pose proof (HC _ IS) as HT. cbn [v_field] in HT.
    assert (B : base (of_type f') = base (f_type f)).
    { rewrite <- named_type_of, HT, named_with_required. apply named_field_type. }
    split; [|split; [exact B|]].
    - pose proof (proj1 (proj2 (composed_inv gs s C))) as EM. unfold emits in EM. apply andb_true_iff in EM. destruct EM as (EM & _).
      rewrite forallb_forall in EM. specialize (EM (IField (d_name d) f')).
      assert (J : In (IField (d_name d) f') (composed_items gs)).
      { apply field_sel_in. rewrite (composed_fields_sel gs si ok), FS'. exact I. }
      specialize (EM J). cbv beta iota in EM. apply andb_true_iff in EM. destruct EM as (EM & _).
      apply andb_true_iff in EM. destruct EM as (EM & _). unfold known in EM.
      destruct (lookup_inserted gs s (base (of_type f')) C) as (L & _). rewrite L.
      destruct (inserted (composed_items gs) (base (of_type f'))) as [i|] eqn:INS; [|discriminate].
      apply inserted_in in INS. destruct INS as (_ & INS). destruct i; cbn in INS; try discriminate.
    - intros sys x A. rewrite HT. rewrite conforms_any.
      + exists (field_type f). split; [|exact A]. apply (in_map (fun y => field_type (v_field y)) _ _ IS).
      + intros EQ. apply map_eq_nil in EQ. rewrite EQ in IS. contradiction.
      + intros u U. apply in_map_iff in U. destruct U as (y & <- & U). apply (HN y _ U IS).
  Qed.

  Lemma returned : forall k x t, data_size x <= k -> forall g, In g gs -> defined g (named t) ->
    lookup s (named t) <> None -> (has_kind g (named t) KEnum -> in_output gs (named t)) ->
    conforms (read_graph g) scalar x t -> conforms (read_schema s) scalar x t.
  Proof.
    induction k as [|k IH]; intros x t SZ g G D LK EN A; [destruct x; cbn in SZ; lia|].
    destruct x as [|v|tn fs|l]; [exact A| | |].
    - (* a leaf *)
      destruct t as [n r|t r]; [|exact A]. cbn [named] in *. cbn [conforms] in A |- *.
      destruct (stands_view gs si g n G D) as [(d & IV & S)|(B & S & K)]; rewrite S in A.
      + destruct (lookup_view gs s si C n _ IV) as (_ & L). cbn [v_def] in L. unfold read_definition in A.
        destruct (d_kind d) eqn:K; try contradiction.
        * cbn [read_schema stands]. rewrite L in LK |- *. destruct (String.eqb n "join__FieldSet"); [congruence|]. exact A.
        * destruct A as (y & -> & A). destruct (C54_fits gs s n C (enum_view gs si n _ IV K)) as (vs & L' & H).
          cbn [read_schema stands]. rewrite L'. cbn [option_map read_sdef]. exists y. split; [reflexivity|].
          apply (view_in gs wf) in IV. cbn in IV. destruct IV as (_ & J & N).
          apply (H g d y G J N); [|exact A]. apply EN. exists d. auto.
      + destruct (composed_scalar gs s si C n K) as [L|L]; [congruence|].
        cbn [read_schema stands]. rewrite L. exact A.
    - (* an object *)
      destruct t as [n r|t r]; [|exact A]. cbn [named] in *. rewrite conforms_object in A |- *.
      destruct A as (A1 & flds & A2 & A3).
      (* the type of the object *)
      assert (TN : exists d, In d (g_defs g) /\ d_name d = tn /\ d_kind d = KObject /\
                   flds = map (fun f => (f_name f, field_type f)) (d_fields d)).
      { cbn [read_graph stands] in A2. destruct (definition_by_name g tn) as [d|] eqn:E.
        - apply definition_by_name_some in E. destruct E as (I & N). exists d. split; [exact I|]. split; [exact N|].
          injection A2 as A2. unfold read_definition in A2. destruct (d_kind d); try discriminate. injection A2 as <-. auto.
        - destruct (mem tn builtin_scalars); discriminate. }
      destruct TN as (d & DI & <- & DK & ->).
      pose proof (view_of gs si g d G DI) as IV.
      destruct (lookup_view gs s si C _ _ IV) as (_ & L). cbn [v_def] in L. rewrite DK in L.
      destruct L as (fs' & is & L & P & IMP).
      split.
      + destruct (stands_view gs si g n G D) as [(dn & IVn & S)|(B & S & K)]; rewrite S in A1; [|contradiction].
        destruct (lookup_view gs s si C n _ IVn) as (_ & Ln). cbn [v_def] in Ln. unfold read_definition in A1.
        destruct (d_kind dn) eqn:Kn; try contradiction.
        * destruct Ln as (f2 & i2 & Ln & _). cbn [read_schema stands]. rewrite Ln. exact A1.
        * destruct Ln as (f2 & i2 & Ln & _). cbn [read_schema stands]. rewrite Ln. cbn [option_map read_sdef].
          cbn [implements read_schema]. exists fs', is. split; [exact L|]. apply IMP. exists g. split; [exact G|exact A1].
        * destruct Ln as (ms & Ln & MS). cbn [read_schema stands]. rewrite Ln. cbn [option_map read_sdef].
          apply MS. exists (mkdview g dn). auto.
      + exists (map (fun f => (of_name f, type_of (of_type f))) fs'). split; [cbn [read_schema stands]; rewrite L; reflexivity|].
        intros f x I. destruct (A3 f x I) as (t' & M & CX). apply in_map_iff in M. destruct M as (f0 & E & F0). injection E as <- <-.
        destruct (object_field g d f0 G DI (or_introl DK) F0) as (f1 & I1 & N1 & LK1 & B1 & CF).
        exists (type_of (of_type f1)). split.
        * apply in_map_iff. exists f1. rewrite N1. split; [reflexivity|]. apply (Permutation_in _ P). exact I1.
        * apply CF. apply (IH x (field_type f0)) with (g := g); [pose proof (size_obj (d_name d) fs _ x I); lia|exact G| | | |exact CX].
          -- rewrite named_field_type. apply (wf_types g (wf g G) d f0 DI F0).
          -- rewrite named_field_type, <- B1. exact LK1.
          -- intros _. rewrite named_field_type. exists g, d, f0. auto 7.
    - (* a list *)
      destruct t as [n r|t r]; [exact A|]. rewrite conforms_list in *. cbn [named] in *. intros x I.
      apply (IH x t) with (g := g); try assumption; [|apply A; exact I]. pose proof (size_arr l x I). lia.
  Qed.
End sound.

(* C56 *)
Theorem C56_data_partial : forall gs s scalar, sound_input gs -> same_depths gs -> compose gs = Composed s ->
  forall g x t, In g gs -> defined g (named t) -> lookup s (named t) <> None -> (has_kind g (named t) KEnum -> in_output gs (named t)) ->
    conforms (read_graph g) scalar x t -> conforms (read_schema s) scalar x t.
Proof. intros gs s scalar SI SD C g x t G D L E A. apply (returned gs s scalar SI SD C (data_size x) x t (le_n _) g); assumption. Qed.

(* In particular the result of an operation at a root. *)
Theorem C56_roots_partial : forall gs s scalar, sound_input gs -> same_depths gs -> compose gs = Composed s ->
  forall g x r, In g gs -> g_query g = Some r \/ g_mutation g = Some r \/ g_subscription g = Some r ->
    conforms (read_graph g) scalar x (Named r true) -> conforms (read_schema s) scalar x (Named r true).
Proof.
  intros gs s scalar SI SD C g x r G R A. pose proof (si_wf gs SI g G) as W.
  assert (HK : has_kind g r KObject).
  { destruct R as [R|[R|R]].
    - destruct (wf_query g W) as [(E & K)|(E & _)]; [|congruence]. assert (r = "Query") by congruence. subst. exact K.
    - destruct (wf_mutation g W) as [(E & K)|(E & _)]; [|congruence]. assert (r = "Mutation") by congruence. subst. exact K.
    - destruct (wf_subscription g W) as [(E & K)|(E & _)]; [|congruence]. assert (r = "Subscription") by congruence. subst. exact K. }
  assert (HK' := HK). destruct HK' as (d & DI & <- & DK).
  pose proof (view_of gs SI g d G DI) as IV. destruct (lookup_view gs s SI C _ _ IV) as (_ & L). cbn [v_def] in L. rewrite DK in L.
  destruct L as (fs & is & L & _).
  apply (C56_data_partial gs s scalar SI SD C g x _ G); cbn [named]; [left; apply in_map; exact DI|congruence| |exact A].
  intros (d' & DI' & N & K). rewrite (proj1 (si_kinds gs SI) g g d' d G G DI' DI N) in K. congruence.
Qed.

(* Two subgraphs with an interface, a union and different fields. *)
Definition pets_h : subgraph := graph "h"
  [object "Query" [fld "pet" (tnull "Pet"); fld "any" (tnull "Any")];
   mkdef "Pet" KInterface [mkfield "name" (tnull "String") nil None plain] nil nil nil plain;
   object "Cat" [fld "name" (tnull "String"); fld "mood" (treq "Mood")];
   object "Dog" [fld "name" (treq "String")];
   union "Any" ["Dog"]; enum "Mood" ["WILD"]] [("Pet", "Dog"); ("Pet", "Cat")].
Definition pets_g : subgraph := graph "g"
  [object "Query" [fld "pet" (treq "Pet"); fld "any" (tnull "Any")];
   mkdef "Pet" KInterface [mkfield "name" (treq "String") nil None plain] nil nil nil plain;
   object "Cat" [fld "name" (treq "String"); fld "mood" (tnull "Mood")];
   union "Any" ["Cat"]; enum "Mood" ["CALM"]] [("Pet", "Cat")].

Example C56_example :
  sound_input [pets_g; pets_h] /\ same_depths [pets_g; pets_h] /\
  exists s, compose [pets_g; pets_h] = Composed s /\
  lookup s "Any" = Some (DUnion ["Cat"; "Dog"]) /\ lookup s "Mood" = Some (DEnum [("CALM", plain); ("WILD", plain)]) /\
  (exists fs, lookup s "Dog" = Some (DObject fs ["Pet"]) /\ map of_name fs = ["name"]) /\
  (exists fs, lookup s "Cat" = Some (DObject fs ["Pet"]) /\
     map (fun f => (of_name f, type_of (of_type f))) fs = [("mood", Named "Mood" false); ("name", Named "String" false)]) /\
  conforms (read_graph pets_h) anything
    (Obj "Query" [("pet", Null); ("any", Obj "Dog" [("name", Leaf (VString "rex"))])]) (Named "Query" true) /\
  conforms (read_schema s) anything
    (Obj "Query" [("pet", Null); ("any", Obj "Dog" [("name", Leaf (VString "rex"))])]) (Named "Query" true).
Proof.
  assert (SI : sound_input [pets_g; pets_h]) by (apply sound_inputb_ok; vm_compute; reflexivity).
  assert (SD : same_depths [pets_g; pets_h]) by (apply same_depthsb_ok; vm_compute; reflexivity).
  split; [exact SI|]. split; [exact SD|].
  destruct (compose [pets_g; pets_h]) as [ds| |s] eqn:E; [vm_compute in E; discriminate|vm_compute in E; discriminate|].
  exists s. split; [reflexivity|].
  assert (A : conforms (read_graph pets_h) anything
    (Obj "Query" [("pet", Null); ("any", Obj "Dog" [("name", Leaf (VString "rex"))])]) (Named "Query" true)).
  { cbn. split; [reflexivity|]. eexists. split; [reflexivity|]. split; [|split; [|exact Logic.I]].
    - exists (Named "Pet" false). split; [left; reflexivity|reflexivity].
    - exists (Named "Any" false). split; [right; left; reflexivity|]. cbn. split; [left; reflexivity|].
      eexists. split; [reflexivity|]. split; [|exact Logic.I]. exists (Named "String" true). split; [left; reflexivity|exact Logic.I]. }
  assert (B := C56_roots_partial _ s anything SI SD E pets_h _ "Query" (or_intror (or_introl eq_refl)) (or_introl eq_refl) A).
  vm_compute in E. injection E as <-.
  split; [reflexivity|]. split; [reflexivity|]. split; [eexists; split; reflexivity|].
  split; [eexists; split; reflexivity|]. split; [exact A|exact B].
Qed.

(* Kinds: where the first subgraph says that a name is a union, the object
   that the second returns is not in the schema. *)
Theorem C56_kinds_refuted : exists g h s x,
  well_formed g /\ well_formed h /\ same_depths [g; h] /\ no_entity_interfaces [g; h] /\ compose [g; h] = Composed s /\
  conforms (read_graph h) anything x (Named "Query" true) /\ ~ conforms (read_schema s) anything x (Named "Query" true).
Proof.
  exists (graph "g" [object "Query" [fld "a" (tnull "X")]; union "X" ["Y"]; object "Y" [fld "y" (tnull "Int")]] nil).
  exists (graph "h" [object "Query" [fld "b" (tnull "X")]; object "X" [fld "x" (tnull "Int")]] nil).
  eexists. exists (Obj "Query" [("b", Obj "X" [("x", Leaf (VInt 1%Z))])]).
  split; [apply well_formedb_ok; vm_compute; reflexivity|]. split; [apply well_formedb_ok; vm_compute; reflexivity|].
  split; [apply same_depthsb_ok; vm_compute; reflexivity|]. split; [apply no_entity_interfacesb_ok; vm_compute; reflexivity|].
  split; [vm_compute; reflexivity|]. split.
  - cbn. split; [reflexivity|]. eexists. split; [reflexivity|]. split; [|exact Logic.I].
    exists (Named "X" false). split; [left; reflexivity|]. cbn. split; [reflexivity|].
    eexists. split; [reflexivity|]. split; [|exact Logic.I]. exists (Named "Int" false). split; [left; reflexivity|exact Logic.I].
  - cbn. intros (_ & flds & F & (t & I & H) & _). injection F as <-. destruct I as [I|[I|[]]]; [discriminate|]. injection I as <-.
    cbn in H. destruct H as ([H|[]] & _). discriminate.
Qed.
