(* What is found in the schema composed of well-formed subgraphs. *)
From Coq Require Import String List Bool Arith ZArith Lia Permutation.
From Verif.SchemaDiff Require Import Search.
From Verif.Compose Require Import Model Spec Facts SchemaFacts GroupFacts KindFacts.
Import ListNotations.
Local Open Scope string_scope.
Local Open Scope list_scope.

Lemma flat_map_flat_map : forall A B C (f : A -> list B) (h : B -> list C) l,
  flat_map h (flat_map f l) = flat_map (fun x => flat_map h (f x)) l.
Proof. induction l as [|x l IH]; [reflexivity|]. cbn. rewrite flat_map_app, IH. reflexivity. Qed.

(* The conditions under which the claims about whole schemas hold. *)
Record sound_input (gs : list subgraph) : Prop := {
  si_wf : forall g, In g gs -> well_formed g;
  si_kinds : same_kinds gs;
  si_interfaces : no_entity_interfaces gs }.

Section composed.
  Variable gs : list subgraph.
  Hypothesis si : sound_input gs.
  Hypothesis ok : diags_of (compose_subgraphs gs) = nil.

  Let wf := si_wf gs si.
  Let kinds := si_kinds gs si.
  Let no_ei := si_interfaces gs si.

  Lemma items_at : forall n, In n root_names ->
    items_of (merge_root n (all_named gs n)) = name_items gs n.
  Proof. intros n IR. unfold name_items. apply mem_in in IR. rewrite IR. reflexivity. Qed.

  Lemma composed_split :
    composed_items gs = map (fun m => IScalar m plain) builtin_scalars ++ flat_map (group_items gs) (definition_names gs) ++
      name_items gs "Query" ++ name_items gs "Mutation" ++ name_items gs "Subscription".
  Proof.
    rewrite composed_items_eq. rewrite (roots_query gs wf), (roots_mutation gs wf), (roots_subscription gs wf).
    rewrite !items_at by (unfold root_names; cbn; tauto). reflexivity.
  Qed.

  Lemma own_nonempty : forall n i, In i (name_items gs n) -> exists v, In v (all_named gs n).
  Proof.
    intros n i I. unfold name_items in I. destruct (all_named gs n) as [|v vs]; [|exists v; left; reflexivity].
    destruct (mem n root_names); contradiction.
  Qed.

  Lemma own_only : forall n i, In i (name_items gs n) ->
    match i with IField p _ => p = n | IMember u _ => u = n | _ => True end.
  Proof.
    intros n i I. destruct (own_nonempty n i I) as (v & J).
    destruct (name_items_spec gs wf kinds no_ei ok n v J) as (_ & _ & _ & _ & H & _). apply H. exact I.
  Qed.

  (* what a selector finds in all of the items, it finds in those of its name *)
  Lemma select_own : forall B (h : item -> list B) n,
    (forall i, match i with IField p _ => p <> n -> h i = nil | IMember u _ => u <> n -> h i = nil | _ => h i = nil end) ->
    flat_map h (composed_items gs) = flat_map h (name_items gs n).
  Proof.
    intros B h n H.
    assert (OTHER : forall m, m <> n -> flat_map h (name_items gs m) = nil).
    { intros m NE. apply flat_map_nil. intros i I. pose proof (own_only m i I) as O. specialize (H i).
      destruct i; try exact H; apply H; congruence. }
    rewrite composed_split, !flat_map_app.
    assert (E0 : flat_map h (map (fun m => IScalar m plain) builtin_scalars) = nil).
    { apply flat_map_nil. intros i I. apply in_map_iff in I. destruct I as (x & <- & _). apply (H (IScalar x plain)). }
    rewrite E0. cbn [List.app].
    destruct (in_dec string_dec n root_names) as [IR|NR].
    - assert (E1 : flat_map h (flat_map (group_items gs) (definition_names gs)) = nil).
      { rewrite flat_map_flat_map. apply flat_map_nil. intros m I.
        destruct (in_dec string_dec m root_names) as [IR'|NR'].
        - rewrite (group_items_root gs wf m IR'). reflexivity.
        - rewrite (group_items_plain gs wf m NR'). apply OTHER. intros ->. contradiction. }
      rewrite E1. cbn [List.app].
      destruct IR as [<-|[<-|[<-|[]]]].
      + rewrite (OTHER "Mutation"), (OTHER "Subscription") by discriminate. cbn. rewrite app_nil_r. reflexivity.
      + rewrite (OTHER "Query"), (OTHER "Subscription") by discriminate. cbn. rewrite app_nil_r. reflexivity.
      + rewrite (OTHER "Query"), (OTHER "Mutation") by discriminate. reflexivity.
    - rewrite (OTHER "Query"), (OTHER "Mutation"), (OTHER "Subscription") by (intros <-; apply NR; cbn; tauto).
      cbn [List.app]. rewrite app_nil_r, flat_map_flat_map.
      rewrite (flat_map_only _ (fun m => flat_map h (group_items gs m)) (definition_names gs) n).
      + rewrite (group_items_plain gs wf n NR). reflexivity.
      + apply definition_names_nodup.
      + intros m _ NE. destruct (in_dec string_dec m root_names) as [IR'|NR'].
        * rewrite (group_items_root gs wf m IR'). reflexivity.
        * rewrite (group_items_plain gs wf m NR'). apply OTHER. exact NE.
      + intros NI. unfold group_items. rewrite (defs_named_none _ _ NI). reflexivity.
  Qed.

  Lemma composed_fields_sel : forall n, flat_map (field_sel n) (composed_items gs) = flat_map (field_sel n) (name_items gs n).
  Proof.
    intros n. apply select_own. intros []; try reflexivity. cbn [field_sel].
    intros NE. destruct (String.eqb parent n) eqn:E; [apply String.eqb_eq in E; contradiction|reflexivity].
  Qed.
  Lemma composed_members_sel : forall n, flat_map (member_sel n) (composed_items gs) = flat_map (member_sel n) (name_items gs n).
  Proof.
    intros n. apply select_own. intros []; try reflexivity. cbn [member_sel].
    intros NE. destruct (String.eqb u n) eqn:E; [apply String.eqb_eq in E; contradiction|reflexivity].
  Qed.

  Definition builtin_item (n : name) : option item := if mem n builtin_scalars then Some (IScalar n plain) else None.

  Lemma composed_inserted : forall n,
    inserted (composed_items gs) n =
    match inserted (name_items gs n) n with Some i => Some i | None => builtin_item n end.
  Proof.
    intros n. destruct (in_dec string_dec n root_names) as [IR|NR].
    - rewrite composed_split, !inserted_app.
      assert (R : forall m, In m root_names -> m <> n -> inserted (name_items gs m) n = None).
      { intros m I NE. apply inserted_none. intros i J E. rewrite <- (items_at m I) in J.
        apply (root_items_names m _ i n J) in E. congruence. }
      assert (G : inserted (flat_map (group_items gs) (definition_names gs)) n = None).
      { apply inserted_none. intros i I E. apply in_flat_map in I. destruct I as (m & _ & I).
        pose proof (group_items_names gs m i n I E) as X. subst m.
        rewrite (group_items_root gs wf n IR) in I. contradiction. }
      rewrite G, inserted_builtin. fold (builtin_item n).
      destruct IR as [<-|[<-|[<-|[]]]].
      + rewrite (R "Mutation"), (R "Subscription") by (try discriminate; cbn; tauto).
        destruct (inserted (name_items gs "Query") "Query"); reflexivity.
      + rewrite (R "Query"), (R "Subscription") by (try discriminate; cbn; tauto).
        destruct (inserted (name_items gs "Mutation") "Mutation"); reflexivity.
      + rewrite (R "Query"), (R "Mutation") by (try discriminate; cbn; tauto).
        destruct (inserted (name_items gs "Subscription") "Subscription"); reflexivity.
    - rewrite (inserted_group gs n NR), (group_items_plain gs wf n NR). reflexivity.
  Qed.

  Lemma inserted_view : forall n v, In v (all_named gs n) ->
    inserted (composed_items gs) n =
    match own_item gs n (d_kind (v_def v)) with Some i => Some i | None => builtin_item n end.
  Proof.
    intros n v I. rewrite composed_inserted.
    destruct (name_items_spec gs wf kinds no_ei ok n v I) as (_ & E & _). rewrite E. reflexivity.
  Qed.
  Lemma inserted_undefined : forall n, all_named gs n = nil -> inserted (composed_items gs) n = builtin_item n.
  Proof.
    intros n E. rewrite composed_inserted. unfold name_items. rewrite E. destruct (mem n root_names); reflexivity.
  Qed.

  Lemma view_of : forall g d, In g gs -> In d (g_defs g) -> In (mkdview g d) (all_named gs (d_name d)).
  Proof. intros g d I J. apply (view_in gs wf). cbn. auto. Qed.

  Lemma kind_inserted : forall g n k, In g gs -> has_kind g n k ->
    inserted (composed_items gs) n = match own_item gs n k with Some i => Some i | None => builtin_item n end.
  Proof.
    intros g n k I (d & J & <- & <-). apply (inserted_view _ (mkdview g d)). apply view_of; assumption.
  Qed.

  (* Whether a name that a subgraph defines is known. *)
  Lemma defined_known : forall g n, In g gs -> defined g n -> n <> "join__FieldSet" -> inserted (composed_items gs) n <> None.
  Proof.
    intros g n I D J E. destruct (all_named gs n) as [|v vs] eqn:A.
    - rewrite (inserted_undefined n A) in E. unfold builtin_item in E. destruct D as [D|D].
      + apply in_map_iff in D. destruct D as (d & <- & D). pose proof (view_of g d I D) as X. rewrite A in X. contradiction.
      + apply mem_in in D. rewrite D in E. discriminate.
    - rewrite (inserted_view n v) in E by (rewrite A; left; reflexivity).
      unfold own_item in E. destruct (d_kind (v_def v)); try discriminate.
      destruct (String.eqb n "join__FieldSet") eqn:F; [apply String.eqb_eq in F; contradiction|discriminate].
  Qed.

  (* Which interfaces a type implements, and which members a union has. *)
  Lemma implements_named_in : forall n i,
    In i (implements_named gs (composed_items gs) n) <-> exists g, In g gs /\ In (i, n) (g_impls g).
  Proof.
    intros n i. unfold implements_named. rewrite filter_In, distinct_in by apply String.eqb_eq.
    rewrite in_map_iff. split.
    - intros (((j & m) & <- & I) & _). apply filter_In in I. destruct I as (I & E). cbn [snd fst] in *.
      apply String.eqb_eq in E. subst m. apply in_flat_map in I. exact I.
    - intros (g & I & J). split.
      + exists (i, n). split; [reflexivity|]. apply filter_In. cbn [snd]. rewrite String.eqb_refl.
        split; [|reflexivity]. apply in_flat_map. exists g. auto.
      + destruct (wf_impls g (wf g I) i n J) as (K & _). rewrite (kind_inserted g i KInterface I K). reflexivity.
  Qed.

  Lemma members_in : forall n v m, In v (all_named gs n) -> d_kind (v_def v) = KUnion ->
    (In m (filter (fun m => is_object_item (inserted (composed_items gs) m)) (members_named (composed_items gs) n)) <->
     exists w, In w (all_named gs n) /\ In m (d_members (v_def w))).
  Proof.
    intros n v m I K. unfold members_named. rewrite filter_In, distinct_in by apply String.eqb_eq.
    change (flat_map (fun i : item => match i with IMember u m0 => if String.eqb u n then [m0] else nil | _ => nil end) (composed_items gs))
      with (flat_map (member_sel n) (composed_items gs)).
    rewrite composed_members_sel.
    destruct (name_items_spec gs wf kinds no_ei ok n v I) as (_ & _ & _ & -> & _). rewrite K. cbn [own_members].
    rewrite in_flat_map. split; [intros (H & _); exact H|]. intros (w & J & M). split; [exists w; auto|].
    apply (view_in gs wf) in J. destruct J as (J & D & _).
    rewrite (kind_inserted (v_graph w) m KObject J); [reflexivity|]. apply (wf_members _ (wf _ J) (v_def w)); assumption.
  Qed.

  Lemma fields_named_view : forall n v, In v (all_named gs n) ->
    fields_named (composed_items gs) n =
    sort (fun x y => str_leb (of_name x) (of_name y)) (own_fields gs n (d_kind (v_def v))).
  Proof.
    intros n v I. unfold fields_named.
    change (flat_map (fun i : item => match i with IField p f => if String.eqb p n then [f] else nil | _ => nil end) (composed_items gs))
      with (flat_map (field_sel n) (composed_items gs)).
    rewrite composed_fields_sel. destruct (name_items_spec gs wf kinds no_ei ok n v I) as (_ & _ & -> & _). reflexivity.
  Qed.
End composed.

(* Lookup, by the kind of the definitions of the name. *)
Section lookup.
  Variable gs : list subgraph.
  Variable s : schema.
  Hypothesis si : sound_input gs.
  Hypothesis C : compose gs = Composed s.

  Let ok : diags_of (compose_subgraphs gs) = nil := proj1 (composed_inv gs s C).

  Lemma lookup_view : forall n v, In v (all_named gs n) ->
    lookup_directives s n =
      match d_kind (v_def v) with
      | KScalar => if String.eqb n "join__FieldSet" then None else Some (dirs_of (all_named gs n))
      | _ => Some (dirs_of (all_named gs n))
      end /\
    match d_kind (v_def v) with
    | KObject => exists fs is, lookup s n = Some (DObject fs is) /\
        Permutation (snd (compose_fields (all_named gs n))) fs /\
        (forall i, In i is <-> exists g, In g gs /\ In (i, n) (g_impls g))
    | KInterface => exists fs is, lookup s n = Some (DInterface fs is) /\
        Permutation (snd (compose_fields (all_named gs n))) fs /\
        (forall i, In i is <-> exists g, In g gs /\ In (i, n) (g_impls g))
    | KUnion => exists ms, lookup s n = Some (DUnion ms) /\
        (forall m, In m ms <-> exists w, In w (all_named gs n) /\ In m (d_members (v_def w)))
    | KInputObject => lookup s n =
        Some (DInput (one_of (dirs_of (all_named gs n))) (input_fields n (all_named gs n)))
    | KScalar => lookup s n = if String.eqb n "join__FieldSet" then None else Some DScalar
    | KEnum => lookup s n = Some (DEnum (enum_values gs n (all_named gs n)))
    end.
  Proof.
    intros n v I. destruct (lookup_inserted gs s n C) as (L & LD). rewrite (inserted_view gs si ok n v I) in L, LD.
    pose proof (fields_named_view gs si ok n v I) as F.
    destruct (d_kind (v_def v)) eqn:K; unfold own_item in *; cbn [emit_def hd_error option_map fst snd own_fields] in *.
    - split; [exact LD|]. exists (fields_named (composed_items gs) n), (implements_named gs (composed_items gs) n).
      split; [exact L|]. split; [rewrite F; apply sort_perm|]. apply (implements_named_in gs si ok).
    - split; [exact LD|]. exists (fields_named (composed_items gs) n), (implements_named gs (composed_items gs) n).
      split; [exact L|]. split; [rewrite F; apply sort_perm|]. apply (implements_named_in gs si ok).
    - split; [exact LD|]. eexists. split; [exact L|]. intros m. apply (members_in gs si ok n v m I K).
    - auto.
    - destruct (String.eqb n "join__FieldSet") eqn:J.
      + apply String.eqb_eq in J. subst n. cbv in L, LD. auto.
      + auto.
    - auto.
  Qed.

  Lemma lookup_undefined : forall n, all_named gs n = nil ->
    lookup s n = if mem n builtin_scalars then Some DScalar else None.
  Proof.
    intros n E. destruct (lookup_inserted gs s n C) as (L & _). rewrite (inserted_undefined gs si n E) in L.
    unfold builtin_item in L. destruct (mem n builtin_scalars); exact L.
  Qed.

  (* Everything found has been defined by a subgraph, but for the scalars. *)
  Lemma lookup_some : forall n d, lookup s n = Some d ->
    (exists v, In v (all_named gs n)) \/ (In n builtin_scalars /\ d = DScalar).
  Proof.
    intros n d L. destruct (all_named gs n) as [|v vs] eqn:E; [|left; exists v; left; reflexivity].
    right. rewrite (lookup_undefined n E) in L. destruct (mem n builtin_scalars) eqn:M; [|discriminate].
    apply mem_in in M. split; [exact M|congruence].
  Qed.
End lookup.
