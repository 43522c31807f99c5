(* C57: the composed schema has what the subgraphs define, and only that. *)
From Coq Require Import String List Bool Arith ZArith Lia Permutation.
From Verif.SchemaDiff Require Import Search.
From Verif.Compose Require Import Model Spec Facts SchemaFacts GroupFacts KindFacts LookupFacts Decide.
Import ListNotations.
Local Open Scope string_scope.
Local Open Scope list_scope.

(* What the subgraphs have of a name. *)
Definition defines (gs : list subgraph) (n : name) (d : definition) : Prop := exists g, In g gs /\ In d (g_defs g) /\ d_name d = n.

(* what kind of type a definition of the schema is *)
Definition kind_of (d : sdef) : kind :=
  match d with
  | DScalar => KScalar | DEnum _ => KEnum | DInput _ _ => KInputObject
  | DObject _ _ => KObject | DInterface _ _ => KInterface | DUnion _ => KUnion
  end.

Section cover.
  Variable gs : list subgraph.
  Variable s : schema.
  Hypothesis si : sound_input gs.
  Hypothesis C : compose gs = Composed s.

  Let ok : diags_of (compose_subgraphs gs) = nil := proj1 (composed_inv gs s C).

  Lemma defines_view : forall n d, defines gs n d <-> exists v, In v (all_named gs n) /\ v_def v = d.
  Proof.
    intros n d. split.
    - intros (g & G & D & N). exists (mkdview g d). split; [|reflexivity]. apply (view_in gs (si_wf gs si)). cbn. auto.
    - intros (v & I & <-). apply (view_in gs (si_wf gs si)) in I. exists (v_graph v). tauto.
  Qed.

  Lemma lookup_kind : forall n v x, In v (all_named gs n) -> lookup s n = Some x -> kind_of x = d_kind (v_def v).
  Proof.
    intros n v x I L. destruct (lookup_view gs s si C n v I) as (_ & X). destruct (d_kind (v_def v)).
    - destruct X as (fs & is & E & _). rewrite E in L. injection L as <-. reflexivity.
    - destruct X as (fs & is & E & _). rewrite E in L. injection L as <-. reflexivity.
    - destruct X as (ms & E & _). rewrite E in L. injection L as <-. reflexivity.
    - rewrite X in L. injection L as <-. reflexivity.
    - rewrite X in L. destruct (String.eqb n "join__FieldSet"); [discriminate|]. injection L as <-. reflexivity.
    - rewrite X in L. injection L as <-. reflexivity.
  Qed.

  Lemma lookup_fields : forall n fs is, lookup s n = Some (DObject fs is) \/ lookup s n = Some (DInterface fs is) ->
    exists v, In v (all_named gs n) /\ (d_kind (v_def v) = KObject \/ d_kind (v_def v) = KInterface) /\
      Permutation (snd (compose_fields (all_named gs n))) fs /\
      fst (compose_fields (all_named gs n)) = nil /\
      (forall i, In i is <-> exists g, In g gs /\ In (i, n) (g_impls g)).
  Proof.
    intros n fs is L.
    assert (exists v, In v (all_named gs n)) as (v & I).
    { destruct L as [L|L]; destruct (lookup_some gs s si C n _ L) as [V|(_ & V)]; congruence || exact V. }
    exists v. split; [exact I|].
    assert (K : d_kind (v_def v) = KObject \/ d_kind (v_def v) = KInterface).
    { destruct L as [L|L]; rewrite <- (lookup_kind n v _ I L); cbn; auto. }
    split; [exact K|]. destruct (lookup_view gs s si C n v I) as (_ & X).
    destruct (name_items_spec gs (si_wf gs si) (si_kinds gs si) (si_interfaces gs si) ok n v I) as (_ & _ & _ & _ & _ & F & _).
    destruct K as [K|K]; rewrite K in X, F; destruct X as (fs' & is' & E & P & M);
      destruct L as [L|L]; rewrite L in E; try discriminate; injection E as <- <-; auto.
  Qed.

  Lemma known_iff : forall n, lookup s n <> None <->
    (exists g, In g gs /\ defined g n) /\ ~ (n = "join__FieldSet" /\ exists d, defines gs n d /\ d_kind d = KScalar).
  Proof.
    intros n. destruct (all_named gs n) as [|v vs] eqn:E.
    - assert (ND : forall d, ~ defines gs n d).
      { intros d D. apply defines_view in D. destruct D as (v & I & _). rewrite E in I. contradiction. }
      rewrite (lookup_undefined gs s si C n E). split.
      + intros L. destruct (mem n builtin_scalars) eqn:M; [|congruence]. apply mem_in in M.
        split; [|intros (_ & d & D & _); apply (ND d D)].
        destruct gs as [|g gs']; [discriminate C|]. exists g. split; [left; reflexivity|right; exact M].
      + intros ((g & G & [D|D]) & _).
        * apply in_map_iff in D. destruct D as (d & N & D). exfalso. apply (ND d). exists g. auto.
        * apply mem_in in D. rewrite D. discriminate.
    - assert (I : In v (all_named gs n)) by (rewrite E; left; reflexivity).
      destruct (lookup_view gs s si C n v I) as (_ & X).
      assert (D : defines gs n (v_def v)) by (apply defines_view; eauto).
      assert (G : exists g, In g gs /\ defined g n).
      { destruct D as (g & G & D & N). exists g. split; [exact G|]. left. rewrite <- N. apply in_map. exact D. }
      split.
      + intros L. split; [exact G|]. intros (-> & d & D' & K). apply defines_view in D'. destruct D' as (w & J & <-).
        rewrite (one_kind gs (si_wf gs si) (si_kinds gs si) _ v w I J), K in X. cbn in X. contradiction.
      + intros (_ & H). destruct (d_kind (v_def v)) eqn:K.
        * destruct X as (fs & is & -> & _). discriminate.
        * destruct X as (fs & is & -> & _). discriminate.
        * destruct X as (ms & -> & _). discriminate.
        * rewrite X. discriminate.
        * rewrite X. destruct (String.eqb n "join__FieldSet") eqn:J; [|discriminate]. apply String.eqb_eq in J. exfalso. eauto.
        * rewrite X. discriminate.
  Qed.

  Lemma fields_iff : forall n fs is, lookup s n = Some (DObject fs is) \/ lookup s n = Some (DInterface fs is) ->
    NoDup (map of_name fs) /\
    (forall f, In f (map of_name fs) <-> exists d, defines gs n d /\ In f (map f_name (d_fields d))) /\
    (forall f', In f' fs -> NoDup (map oi_name (of_args f')) /\
       forall a, In a (map oi_name (of_args f')) <->
         forall d f, defines gs n d -> In f (d_fields d) -> f_name f = of_name f' -> In a (map a_name (f_args f))) /\
    (forall i, In i is <-> exists g, In g gs /\ In (i, n) (g_impls g)).
  Proof.
    intros n fs is L. destruct (lookup_fields n fs is L) as (v & I & K & P & F & IMP).
    destruct (compose_fields_spec _ F) as (A & B & ND).
    assert (AF : forall x, In x (all_fields (all_named gs n)) <-> exists d, defines gs n d /\ v_def (v_parent x) = d /\ In (v_parent x) (all_named gs n) /\ In (v_field x) (d_fields d)).
    { intros x. rewrite all_fields_in. split.
      - intros (V & J). exists (v_def (v_parent x)). split; [apply defines_view; eauto|auto].
      - intros (d & _ & <- & V & J). auto. }
    split; [apply (Permutation_NoDup (Permutation_map of_name P)); exact ND|]. split.
    - intros f. split.
      + intros J. apply in_map_iff in J. destruct J as (f' & <- & J). apply (Permutation_in _ (Permutation_sym P)) in J.
        destruct (B f' J) as (_ & x & X & N). apply AF in X. destruct X as (d & D & _ & _ & X). exists d. split; [exact D|].
        rewrite <- N. unfold vf_name. apply in_map. exact X.
      + intros (d & D & J). apply in_map_iff in J. destruct J as (f0 & <- & J). apply defines_view in D. destruct D as (w & W & <-).
        destruct (A (mkfview w f0)) as (f' & J' & N); [apply all_fields_in; auto|].
        unfold vf_name in N. cbn [v_field] in N. rewrite <- N. apply in_map. apply (Permutation_in _ P). exact J'.
    - split; [|exact IMP]. intros f' J. apply (Permutation_in _ (Permutation_sym P)) in J.
      destruct (B f' J) as (CF & x0 & X0 & N0). destruct (compose_field_args _ _ CF) as (AD & AE & _).
      set (l := sel vf_name (all_fields (all_named gs n)) (of_name f')) in *.
      assert (NE : l <> nil).
      { assert (X : In x0 l) by (apply sel_in; auto). intros E. rewrite E in X. contradiction. }
      destruct (merge_field_arguments_spec l NE AD) as (M1 & M2 & M3). rewrite AE. split; [exact M3|].
      assert (LI : forall x, In x l <-> In (v_parent x) (all_named gs n) /\ In (v_field x) (d_fields (v_def (v_parent x))) /\ vf_name x = of_name f').
      { intros x. unfold l. rewrite sel_in, all_fields_in. tauto. }
      intros a. split.
      + intros H d f D FI FN. apply in_map_iff in H. destruct H as (i & <- & H).
        apply defines_view in D. destruct D as (w & W & <-).
        apply (proj1 (M1 i H) (mkfview w f)). apply LI. unfold vf_name. cbn. auto.
      + intros H. assert (X : In x0 l) by (apply sel_in; auto). apply LI in X. destruct X as (XV & XF & XN).
        assert (IA : In a (map a_name (f_args (v_field x0)))).
        { apply (H (v_def (v_parent x0)) (v_field x0)); [apply defines_view; eauto|exact XF|exact XN]. }
        apply in_map_iff in IA. destruct IA as (a0 & <- & IA).
        destruct (M2 (mkaview x0 a0)) as [(i & II & IN)|(_ & y & Y & NY)].
        * apply all_args_in. cbn. split; [apply LI; auto|exact IA].
        * unfold va_name in IN. cbn in IN. rewrite <- IN. apply in_map. exact II.
        * exfalso. apply NY. unfold va_name. cbn. apply LI in Y. destruct Y as (YV & YF & YN).
          apply (H (v_def (v_parent y)) (v_field y)); [apply defines_view; eauto|exact YF|exact YN].
  Qed.

  Lemma members_iff : forall n ms, lookup s n = Some (DUnion ms) ->
    forall m, In m ms <-> exists d, defines gs n d /\ In m (d_members d).
  Proof.
    intros n ms L m. destruct (lookup_some gs s si C n _ L) as [(v & I)|(_ & V)]; [|congruence].
    pose proof (lookup_kind n v _ I L) as K. cbn in K.
    destruct (lookup_view gs s si C n v I) as (_ & X). rewrite <- K in X. destruct X as (ms' & E & M).
    rewrite L in E. injection E as <-. rewrite (M m). split.
    - intros (w & W & J). exists (v_def w). split; [apply defines_view; eauto|exact J].
    - intros (d & D & J). apply defines_view in D. destruct D as (w & W & <-). eauto.
  Qed.

  Lemma inputs_iff : forall n o fs, lookup s n = Some (DInput o fs) ->
    NoDup (map oi_name fs) /\
    (forall f, In f (map oi_name fs) <-> forall d, defines gs n d -> In f (map f_name (d_fields d))) /\
    (o = true <-> exists d, defines gs n d /\ one_of (d_dirs d) = true).
  Proof.
    intros n o fs L. destruct (lookup_some gs s si C n _ L) as [(v & I)|(_ & V)]; [|congruence].
    pose proof (lookup_kind n v _ I L) as K. cbn in K.
    destruct (lookup_view gs s si C n v I) as (_ & X).
    destruct (name_items_spec gs (si_wf gs si) (si_kinds gs si) (si_interfaces gs si) ok n v I) as (_ & _ & _ & _ & _ & ID & _).
    rewrite <- K in X, ID. rewrite L in X. injection X as -> ->.
    assert (NE : all_named gs n <> nil) by (intros E; rewrite E in I; contradiction).
    destruct (input_fields_spec n _ NE ID) as (A & B & ND). split; [exact ND|]. split.
    - intros f. split.
      + intros J d D. apply in_map_iff in J. destruct J as (i & <- & J). apply defines_view in D. destruct D as (w & W & <-).
        apply (proj1 (A i J)). exact W.
      + intros H. assert (D : defines gs n (v_def v)) by (apply defines_view; eauto).
        pose proof (H _ D) as J. apply in_map_iff in J. destruct J as (f0 & <- & J).
        destruct (B (mkfview v f0)) as [(i & II & IN)|(_ & w & W & NW)].
        * apply all_fields_in. auto.
        * unfold vf_name in IN. cbn in IN. rewrite <- IN. apply in_map. exact II.
        * exfalso. apply NW. unfold vf_name. cbn. apply H. apply defines_view. eauto.
    - unfold dirs_of, collect. cbn [one_of]. rewrite existsb_exists. split.
      + intros (d & J & T). apply in_map_iff in J. destruct J as (w & <- & J). exists (v_def w). split; [apply defines_view; eauto|exact T].
      + intros (d & D & T). apply defines_view in D. destruct D as (w & W & <-). exists (d_dirs (v_def w)). split; [|exact T].
        apply in_map_iff. eauto.
  Qed.

  (* Definitions are there once. *)
  Definition names (l : list item) : list name := flat_map (fun i => match item_name i with Some n => [n] | None => nil end) l.

  Lemma names_app : forall a b, names (a ++ b) = names a ++ names b.
  Proof. intros. apply flat_map_app. Qed.
  Lemma names_none : forall l, (forall i, In i l -> item_name i = None) -> names l = nil.
  Proof. intros l H. apply flat_map_nil. intros i I. rewrite (H i I). reflexivity. Qed.
  Lemma names_fields : forall n fs, names (map (IField n) fs) = nil.
  Proof. intros n fs. apply names_none. intros i I. apply in_map_iff in I. destruct I as (f & <- & _). reflexivity. Qed.
  Lemma names_members : forall n fs, names (map (IMember n) fs) = nil.
  Proof. intros n fs. apply names_none. intros i I. apply in_map_iff in I. destruct I as (f & <- & _). reflexivity. Qed.
  Lemma schema_names : map fst (s_defs s) = names (composed_items gs).
  Proof.
    pose proof (proj2 (proj2 (composed_inv gs s C))) as E. rewrite E. clear E ok.
    generalize (composed_items gs) at 1. intros items. unfold names.
    induction (composed_items gs) as [|i l IH]; [reflexivity|]. cbn [flat_map]. rewrite map_app, IH, emit_def_names. reflexivity.
  Qed.

  Lemma names_diags : forall ds, names (items_of (map Diag ds)) = nil.
  Proof. intros ds. rewrite items_of_diags. reflexivity. Qed.

  Definition ones (n : name) (l : list name) : Prop := l = nil \/ l = [n].

  Lemma group_names : forall n, ~ In n root_names -> ones n (names (name_items gs n)).
  Proof.
    intros n NR. unfold name_items.
    assert (ME : mem n root_names = false) by (apply mem_not_in; exact NR). rewrite ME. unfold merge_group.
    assert (HEI : is_entity_interface (all_named gs n) = false)
      by (apply (not_entity_interface gs (si_wf gs si) (si_interfaces gs si) n); auto).
    rewrite HEI.
    destruct (all_named gs n) as [|w ws] eqn:D; [left; reflexivity|].
    assert (WN : d_name (v_def w) = n) by (apply (all_named_name gs); rewrite D; left; reflexivity).
    rewrite WN. destruct (String.eqb n "join__Graph").
    { left. apply names_none. intros i I. apply in_items_of in I. apply in_map_iff in I. destruct I as (x & E & _). discriminate. }
    unfold merge_object, merge_union, merge_input_object, merge_interface, merge_scalar, merge_enum. rewrite WN. clear D HEI.
    destruct (d_kind (v_def w)).
    - match goal with |- context [if ?b then _ else _] => destruct b end; [left; reflexivity|].
      destruct (compose_fields (w :: ws)) as [fd fs]. right. rewrite !items_of_app, !names_app, !names_diags, items_of_items, names_fields. reflexivity.
    - destruct (compose_fields (w :: ws)) as [fd fs]. right.
      rewrite !items_of_app, !names_app, !names_diags, items_of_items, names_fields. reflexivity.
    - right. rewrite !items_of_app, !names_app, items_of_items, names_members. reflexivity.
    - right. rewrite !items_of_app, !names_app, names_diags. reflexivity.
    - destruct (String.eqb n "join__FieldSet"); [left|right]; reflexivity.
    - right. destruct (used_in_input gs n), (used_in_output gs n).
      + match goal with |- context [if ?b then _ else _] => destruct b end; reflexivity.
      + match goal with |- context [match ?b with nil => _ | _ => _ end] => destruct b end; reflexivity.
      + reflexivity.
      + reflexivity.
  Qed.

  Lemma root_names_once : forall n, In n root_names -> ones n (names (name_items gs n)).
  Proof.
    intros n IR. unfold name_items. apply mem_in in IR. rewrite IR. unfold merge_root.
    destruct (all_named gs n) as [|w ws]; [left; reflexivity|]. destruct (compose_fields (w :: ws)) as [fd fs]. right.
    rewrite !items_of_app, !names_app, !names_diags, items_of_items, names_fields.
    match goal with |- _ ++ names (items_of ?X) ++ _ = _ => assert (IT : items_of X = nil) end.
    { destruct (String.eqb n "Subscription"); [|reflexivity].
      rewrite items_of_app, !items_of_flat_map.
      match goal with |- ?a ++ ?b = nil => cut (a = nil /\ b = nil); [intros (-> & ->); reflexivity|] end.
      split; apply flat_map_nil; intros x _;
        match goal with |- items_of (if ?b then _ else _) = _ => destruct b end; reflexivity. }
    rewrite IT. reflexivity.
  Qed.

  Lemma names_once : forall n, ones n (names (name_items gs n)).
  Proof. intros n. destruct (in_dec string_dec n root_names); [apply root_names_once|apply group_names]; assumption. Qed.

  Lemma nodup_app : forall (a b : list name), NoDup a -> NoDup b -> (forall x, In x a -> ~ In x b) -> NoDup (a ++ b).
  Proof.
    induction a as [|x a IH]; intros b A B D; [exact B|]. inversion A as [|? ? NI A']; subst. cbn. constructor.
    - rewrite in_app_iff. intros [I|I]; [contradiction|]. apply (D x); [left; reflexivity|exact I].
    - apply IH; [exact A'|exact B|]. intros y I. apply D. right. exact I.
  Qed.

  Lemma schema_nodup : (forall d, In d (all_defs gs) -> ~ In (d_name d) builtin_scalars) -> NoDup (map fst (s_defs s)).
  Proof.
    intros NB. rewrite schema_names, (composed_split gs si). rewrite !names_app.
    assert (DN : forall n, In n builtin_scalars -> all_named gs n = nil).
    { intros n I. destruct (all_named gs n) as [|v vs] eqn:E; [reflexivity|]. exfalso.
      assert (V : In v (all_named gs n)) by (rewrite E; left; reflexivity). apply (view_in gs (si_wf gs si)) in V.
      destruct V as (G & D & N). apply (NB (v_def v)); [apply (all_defs_in gs (v_graph v)); assumption|congruence]. }
    assert (OWN : forall n x, In x (names (name_items gs n)) -> x = n /\ ~ In n builtin_scalars).
    { intros n x I. assert (x = n).
      { destruct (names_once n) as [E|E]; rewrite E in I; [contradiction|]. destruct I as [<-|[]]. reflexivity. }
      split; [assumption|]. intros J. unfold name_items in I. rewrite (DN n J) in I.
      destruct (mem n root_names); contradiction. }
    assert (GI : forall x, In x (names (flat_map (group_items gs) (definition_names gs))) -> ~ In x root_names /\ ~ In x builtin_scalars).
    { intros x I. unfold names in I. rewrite flat_map_flat_map in I. apply in_flat_map in I. destruct I as (n & _ & I).
      destruct (in_dec string_dec n root_names) as [R|R].
      - rewrite (group_items_root gs (si_wf gs si) n R) in I. contradiction.
      - rewrite (group_items_plain gs (si_wf gs si) n R) in I. destruct (OWN n x I) as (-> & B). auto. }
    assert (ND1 : forall n, NoDup (names (name_items gs n))).
    { intros n. destruct (names_once n) as [-> | ->]; repeat constructor. intros []. }
    apply nodup_app.
    - cbn. repeat constructor; cbn; intuition discriminate.
    - apply nodup_app.
      + unfold names. rewrite flat_map_flat_map. pose proof (definition_names_nodup gs) as ND. clear GI.
        induction (definition_names gs) as [|n l IH]; [constructor|]. inversion ND as [|? ? NI ND']; subst. cbn [flat_map].
        apply nodup_app; [|apply IH; exact ND'|].
        * destruct (in_dec string_dec n root_names) as [R|R].
          -- rewrite (group_items_root gs (si_wf gs si) n R). constructor.
          -- rewrite (group_items_plain gs (si_wf gs si) n R). apply ND1.
        * assert (E : forall m x, In x (names (group_items gs m)) -> x = m).
          { intros m x I. destruct (in_dec string_dec m root_names) as [R|R].
            - rewrite (group_items_root gs (si_wf gs si) m R) in I. contradiction.
            - rewrite (group_items_plain gs (si_wf gs si) m R) in I. apply (OWN m x I). }
          intros x I J. apply in_flat_map in J. destruct J as (m & M & J). apply E in I. apply E in J. congruence.
      + apply nodup_app; [apply ND1| |].
        * apply nodup_app; [apply ND1|apply ND1|]. intros x I J. apply OWN in I. apply OWN in J. destruct I, J. congruence.
        * intros x I J. apply OWN in I. apply in_app_iff in J. destruct I as (-> & _). destruct J as [J|J]; apply OWN in J; destruct J; discriminate.
      + intros x I J. apply GI in I. destruct I as (I & _). apply I. rewrite !in_app_iff in J.
        destruct J as [J|[J|J]]; apply OWN in J; destruct J as (-> & _); cbn; tauto.
    - intros x I J. rewrite !in_app_iff in J.
      assert (B : In x builtin_scalars) by (revert I; cbn; tauto).
      destruct J as [J|[J|[J|J]]]; [apply GI in J; tauto| | |]; apply OWN in J; destruct J as (-> & J); contradiction.
  Qed.

  Lemma root_there : forall get n, (forall g, In g gs -> usual_root g (get g) n) ->
    (nonempty (roots_of gs get) = true <-> exists g, In g gs /\ get g <> None) /\
    (nonempty (roots_of gs get) = true <-> exists fs is, lookup s n = Some (DObject fs is)).
  Proof.
    intros get n H. rewrite (roots_named gs get n H). split.
    - destruct (all_named gs n) as [|v vs] eqn:E; cbn [nonempty]; (split; [|intros (g & G & N)]).
      + discriminate.
      + destruct (H g G) as [(R & d & D & DN & _)|(R & _)]; [|contradiction].
        assert (X : In (mkdview g d) (all_named gs n)) by (apply (view_in gs (si_wf gs si)); cbn; auto). rewrite E in X. contradiction.
      + intros _. assert (V : In v (all_named gs n)) by (rewrite E; left; reflexivity). apply (view_in gs (si_wf gs si)) in V.
        destruct V as (G & D & N). exists (v_graph v). split; [exact G|].
        destruct (H _ G) as [(R & _)|(_ & R)]; [congruence|]. exfalso. apply R. rewrite <- N. apply in_map. exact D.
      + reflexivity.
    - destruct (all_named gs n) as [|v vs] eqn:E; cbn [nonempty]; (split; [|intros (fs & is & L)]).
      + discriminate.
      + rewrite (lookup_undefined gs s si C n E) in L. destruct (mem n builtin_scalars); discriminate.
      + intros _. assert (V : In v (all_named gs n)) by (rewrite E; left; reflexivity).
        destruct (lookup_view gs s si C n v V) as (_ & X). apply (view_in gs (si_wf gs si)) in V. destruct V as (G & D & N).
        destruct (H _ G) as [(_ & d & D' & N' & K)|(_ & R)].
        * assert (E' : d_kind (v_def v) = KObject).
          { rewrite <- K. apply (proj1 (si_kinds gs si) (v_graph v) (v_graph v)); auto. congruence. }
          rewrite E' in X. destruct X as (fs & is & L & _). eauto.
        * exfalso. apply R. rewrite <- N. apply in_map. exact D.
      + reflexivity.
  Qed.
End cover.

(* C57 *)
Theorem C57_types_partial : forall gs s, sound_input gs -> compose gs = Composed s ->
  (forall n, n <> "join__FieldSet" -> (lookup s n <> None <-> exists g, In g gs /\ defined g n)) /\
  (forall n d x, defines gs n d -> lookup s n = Some x -> kind_of x = d_kind d).
Proof.
  intros gs s SI C. split.
  - intros n NE. rewrite (known_iff gs s SI C n). split; [tauto|]. intros H. split; [exact H|]. intros (X & _). contradiction.
  - intros n d x D L. apply (defines_view gs SI) in D. destruct D as (v & I & <-). apply (lookup_kind gs s SI C n v x I L).
Qed.

Theorem C57_once_partial : forall gs s, sound_input gs -> compose gs = Composed s ->
  (forall g d, In g gs -> In d (g_defs g) -> ~ In (d_name d) builtin_scalars) -> NoDup (map fst (s_defs s)).
Proof.
  intros gs s SI C H. apply (schema_nodup gs s SI C). intros d D. apply in_flat_map in D. destruct D as (g & G & D). apply (H g d G D).
Qed.

Theorem C57_fields_partial : forall gs s, sound_input gs -> compose gs = Composed s ->
  forall n fs is, lookup s n = Some (DObject fs is) \/ lookup s n = Some (DInterface fs is) ->
    NoDup (map of_name fs) /\
    (forall f, In f (map of_name fs) <-> exists d, defines gs n d /\ In f (map f_name (d_fields d))) /\
    (forall f', In f' fs -> NoDup (map oi_name (of_args f')) /\
       forall a, In a (map oi_name (of_args f')) <->
         forall d f, defines gs n d -> In f (d_fields d) -> f_name f = of_name f' -> In a (map a_name (f_args f))) /\
    (forall i, In i is <-> exists g, In g gs /\ In (i, n) (g_impls g)).
Proof. intros gs s SI C. apply (fields_iff gs s SI C). Qed.

Theorem C57_members_partial : forall gs s, sound_input gs -> compose gs = Composed s ->
  forall n ms, lookup s n = Some (DUnion ms) -> forall m, In m ms <-> exists d, defines gs n d /\ In m (d_members d).
Proof. intros gs s SI C. apply (members_iff gs s SI C). Qed.

Theorem C57_inputs_partial : forall gs s, sound_input gs -> compose gs = Composed s ->
  forall n o fs, lookup s n = Some (DInput o fs) ->
    NoDup (map oi_name fs) /\
    (forall f, In f (map oi_name fs) <-> forall d, defines gs n d -> In f (map f_name (d_fields d))) /\
    (o = true <-> exists d, defines gs n d /\ one_of (d_dirs d) = true).
Proof. intros gs s SI C. apply (inputs_iff gs s SI C). Qed.

Theorem C57_roots_partial : forall gs s, sound_input gs -> compose gs = Composed s ->
  forall b get n, In (b, (get, n)) [(s_query s, (g_query, "Query")); (s_mutation s, (g_mutation, "Mutation"));
                                    (s_subscription s, (g_subscription, "Subscription"))] ->
    (b = true <-> exists g, In g gs /\ get g <> None) /\ (b = true <-> exists fs is, lookup s n = Some (DObject fs is)).
Proof.
  intros gs s SI C b get n I.
  assert (R : s_query s = nonempty (roots_of gs g_query) /\ s_mutation s = nonempty (roots_of gs g_mutation) /\
              s_subscription s = nonempty (roots_of gs g_subscription)).
  { clear I. destruct gs as [|g gs]; [discriminate|]. unfold compose in C.
    destruct (negb (existsb has_root (g :: gs))); [discriminate|]. cbv zeta in C.
    destruct (diags_of (compose_subgraphs (g :: gs))); [|discriminate].
    destruct (emits (g :: gs) (items_of (compose_subgraphs (g :: gs)))); [|discriminate]. injection C as <-. auto. }
  destruct R as (R1 & R2 & R3).
  destruct I as [I|[I|[I|[]]]]; injection I as <- <- <-.
  - rewrite R1. apply (root_there gs s SI C). intros g G. apply (wf_query g (si_wf gs SI g G)).
  - rewrite R2. apply (root_there gs s SI C). intros g G. apply (wf_mutation g (si_wf gs SI g G)).
  - rewrite R3. apply (root_there gs s SI C). intros g G. apply (wf_subscription g (si_wf gs SI g G)).
Qed.

(* Two subgraphs: one knows books, the other what else there is to buy. *)
Definition books_g : subgraph := graph "books"
  [object "Query" [fld_args "books" (tnull "Book") [arg "first" (tnull "Int"); arg "debug" (tnull "Int")]];
   interface "Item" [infld "title" (tnull "String") None];
   object "Book" [fld "title" (tnull "String"); fld "pages" (treq "Int")];
   input "Page" [infld "first" (tnull "Int") None; infld "after" (tnull "ID") None]; union "Any" ["Book"]] [("Item", "Book")].
Definition shop_g : subgraph := graph "shop"
  [object "Query" [fld_args "books" (tnull "Book") [arg "first" (tnull "Int")]; fld "pen" (tnull "Pen")];
   object "Book" [fld "title" (treq "String"); fld "price" (tnull "Float")]; object "Pen" [fld "price" (tnull "Float")];
   input "Page" [infld "first" (treq "Int") None]; union "Any" ["Pen"; "Book"]] nil.

Example C57_example :
  sound_input [books_g; shop_g] /\
  (forall g d, In g [books_g; shop_g] -> In d (g_defs g) -> ~ In (d_name d) builtin_scalars) /\
  exists s, compose [books_g; shop_g] = Composed s /\
    (exists fs, lookup s "Book" = Some (DObject fs ["Item"]) /\ map of_name fs = ["pages"; "price"; "title"]) /\
    (exists fs, lookup s "Query" = Some (DObject fs nil) /\
       map (fun f => (of_name f, map oi_name (of_args f))) fs = [("books", ["first"]); ("pen", nil)]) /\
    lookup s "Any" = Some (DUnion ["Pen"; "Book"]) /\
    lookup s "Page" = Some (DInput false [mkoinput "first" (treq "Int") None plain]) /\
    lookup s "Magazine" = None /\ lookup s "ID" = Some DScalar.
Proof.
  split; [apply sound_inputb_ok; vm_compute; reflexivity|]. split.
  { intros g d G D B. destruct G as [<-|[<-|[]]]; cbn in D; repeat (destruct D as [<-|D]); try contradiction;
      cbn in B; intuition discriminate. }
  eexists. split; [vm_compute; reflexivity|].
  split; [eexists; split; vm_compute; reflexivity|]. split; [eexists; split; vm_compute; reflexivity|].
  split; [vm_compute; reflexivity|]. split; [vm_compute; reflexivity|]. split; vm_compute; reflexivity.
Qed.

(* Without agreement on kinds: the members of a union are kept, the fields of
   the object of the same name in the other subgraph are not. *)
Theorem C57_kinds_refuted : exists g h s ms,
  well_formed g /\ well_formed h /\ no_entity_interfaces [g; h] /\ compose [g; h] = Composed s /\
  lookup s "X" = Some (DUnion ms) /\ exists d, defines [g; h] "X" d /\ d_kind d = KObject /\ d_fields d <> nil.
Proof.
  exists (graph "g" [object "Query" [fld "a" (tnull "X")]; union "X" ["Y"]; object "Y" [fld "y" (tnull "Int")]] nil).
  exists (graph "h" [object "Query" [fld "b" (tnull "X")]; object "X" [fld "x" (tnull "Int")]] nil).
  eexists. eexists.
  split; [apply well_formedb_ok; vm_compute; reflexivity|]. split; [apply well_formedb_ok; vm_compute; reflexivity|].
  split; [apply no_entity_interfacesb_ok; vm_compute; reflexivity|].
  split; [vm_compute; reflexivity|]. split; [vm_compute; reflexivity|].
  exists (object "X" [fld "x" (tnull "Int")]). split; [|split; [reflexivity|discriminate]].
  eexists. split; [right; left; reflexivity|]. split; [right; left; reflexivity|reflexivity].
Qed.

(* With entity interfaces: an object of the subgraph of the interface gets the
   fields that other subgraphs add to the interface, also if a third subgraph
   already gave it one of the same name. *)
Definition keyed (i : bool) : directives := mkdirectives true false false i false false false false false false None nil nil.
Definition by_id : list key := [mkkey [SField "id" nil] true].
Definition entity_g : subgraph := graph "a"
  [object "Query" [fld "media" (tnull "Media")];
   mkdef "Media" KInterface [mkfield "id" (treq "ID") nil None plain] nil nil by_id plain;
   mkdef "Book" KObject [fld "id" (treq "ID")] nil nil by_id plain] [("Media", "Book")].
Definition entity_h : subgraph := graph "b"
  [object "Query" [fld "b" (tnull "Int")];
   mkdef "Media" KObject [fld "id" (treq "ID"); fld "reviews" (tnull "Int")] nil nil by_id (keyed true)] nil.
Definition entity_i : subgraph := graph "c"
  [object "Query" [fld "c" (tnull "Int")];
   mkdef "Book" KObject [fld "id" (treq "ID"); fld "reviews" (tnull "String")] nil nil by_id plain] nil.
Theorem C57_entity_interfaces_refuted : exists gs s fs,
  (forall g, In g gs -> well_formed g) /\ compose gs = Composed s /\ lookup s "Book" = Some (DObject fs ["Media"]) /\
  map (fun f => (of_name f, of_type f)) fs = [("id", treq "ID"); ("reviews", tnull "String"); ("reviews", tnull "Int")].
Proof.
  exists [entity_g; entity_h; entity_i]. eexists. eexists. split.
  { intros g [<-|[<-|[<-|[]]]]; apply well_formedb_ok; vm_compute; reflexivity. }
  split; [vm_compute; reflexivity|]. split; vm_compute; reflexivity.
Qed.

(* A root with a name of its own: the type that has the name `Query` in
   another subgraph is there as well, with the same fields. *)
Definition renamed_g : subgraph := mkgraph "g" ApolloV2 [object "Root" [fld "a" (tnull "Int")]; object "Query" [fld "q" (tnull "Int")]] nil
  (Some "Root") None None.
Theorem C57_roots_refuted : exists gs s, compose gs = Composed s /\
  (forall g, In g gs -> NoDup (map d_name (g_defs g))) /\
  ~ NoDup (map fst (s_defs s)) /\
  exists fs, lookup s "Query" = Some (DObject fs nil) /\ map of_name fs = ["a"; "q"].
Proof.
  exists [renamed_g]. eexists. split; [vm_compute; reflexivity|]. split; [|split].
  - intros g [<-|[]]. cbn. repeat constructor; cbn; intuition discriminate.
  - cbn [s_defs map fst]. intros ND.
    repeat match type of ND with
           | NoDup ("Query" :: _) => inversion ND as [|? ? NI _]; apply NI; cbn; tauto
           | NoDup _ => inversion ND as [|? ? _ ND']; clear ND; rename ND' into ND
           end.
  - eexists. split; vm_compute; reflexivity.
Qed.

(* A scalar of the specification that a subgraph defines is there twice. *)
Theorem C57_builtin_refuted : exists g s, sound_input [g] /\ compose [g] = Composed s /\
  map fst (s_defs s) = ["ID"; "String"; "Boolean"; "Int"; "Float"; "ID"; "Query"].
Proof.
  exists (graph "g" [object "Query" [fld "a" (tnull "ID")]; scalar_def "ID"] nil). eexists.
  split; [apply sound_inputb_ok; vm_compute; reflexivity|]. split; vm_compute; reflexivity.
Qed.
