(* What a name stands for in the schema composed of well-formed subgraphs. *)
From Coq Require Import String List Bool Arith ZArith Lia Permutation.
From Verif.SchemaDiff Require Import Search.
From Verif.Compose Require Import Model Spec Facts SchemaFacts GroupFacts.
Import ListNotations.
Local Open Scope string_scope.
Local Open Scope list_scope.

(* Lists that are collected from the items of a name *)
Lemma flat_map_only : forall B (h : name -> list B) (l : list name) (x : name), NoDup l ->
  (forall y, In y l -> y <> x -> h y = nil) ->
  (~ In x l -> h x = nil) ->
  flat_map h l = h x.
Proof.
  intros B h l x. induction l as [|y l IH]; intros ND H N; [symmetry; apply N; intros []|].
  inversion ND as [|? ? NI ND']; subst. cbn [flat_map].
  destruct (string_dec y x) as [->|NE].
  - assert (E : flat_map h l = nil).
    { apply flat_map_nil. intros z I. apply H; [right; exact I|]. intros ->. contradiction. }
    rewrite E. apply app_nil_r.
  - rewrite (H y (or_introl eq_refl) NE). cbn. apply IH; [exact ND'| |].
    + intros z I. apply H. right. exact I.
    + intros J. apply N. intros [->|K]; contradiction.
Qed.

Definition field_sel (n : name) (i : item) : list ofield :=
  match i with IField p f => if String.eqb p n then [f] else nil | _ => nil end.
Definition member_sel (n : name) (i : item) : list name :=
  match i with IMember u m => if String.eqb u n then [m] else nil | _ => nil end.

Lemma field_sel_in : forall l n f, In f (flat_map (field_sel n) l) <-> In (IField n f) l.
Proof.
  intros l n f. rewrite in_flat_map. split.
  - intros (i & I & J). destruct i; cbn [field_sel] in J; try contradiction.
    destruct (String.eqb parent n) eqn:E; [|contradiction]. apply String.eqb_eq in E. destruct J as [<-|[]]. congruence.
  - intros I. exists (IField n f). split; [exact I|]. cbn [field_sel]. rewrite String.eqb_refl. left. reflexivity.
Qed.

Lemma field_sel_own : forall n fs, flat_map (field_sel n) (map (IField n) fs) = fs.
Proof. induction fs as [|f fs IH]; [reflexivity|]. cbn. rewrite String.eqb_refl, IH. reflexivity. Qed.
Lemma member_sel_own : forall n ms, flat_map (member_sel n) (map (IMember n) ms) = ms.
Proof. induction ms as [|f fs IH]; [reflexivity|]. cbn. rewrite String.eqb_refl, IH. reflexivity. Qed.
Lemma field_sel_members : forall n u ms, flat_map (field_sel n) (map (IMember u) ms) = nil.
Proof. induction ms as [|f fs IH]; [reflexivity|]. cbn. exact IH. Qed.
Lemma member_sel_fields : forall n p fs, flat_map (member_sel n) (map (IField p) fs) = nil.
Proof. induction fs as [|f fs IH]; [reflexivity|]. cbn. exact IH. Qed.

Lemma if_diags : forall (b : bool) l, items_of (if b then map Diag l else nil) = nil.
Proof. intros [] l; [apply items_of_diags|reflexivity]. Qed.

Section composed.
  Variable gs : list subgraph.
  Hypothesis wf : forall g, In g gs -> well_formed g.
  Hypothesis kinds : same_kinds gs.
  Hypothesis no_ei : no_entity_interfaces gs.
  Hypothesis ok : diags_of (compose_subgraphs gs) = nil.

  Lemma root_usual : forall g n, In g gs -> is_root g n = true -> In n root_names.
  Proof.
    intros g n I R. pose proof (wf g I) as W. unfold is_root, is_name in R. revert R.
    destruct (wf_query g W) as [(-> & _)|(-> & _)], (wf_mutation g W) as [(-> & _)|(-> & _)],
      (wf_subscription g W) as [(-> & _)|(-> & _)]; intros R; cbn [orb] in R; try discriminate;
      repeat (apply orb_true_iff in R; destruct R as [R|R]); try discriminate;
      apply String.eqb_eq in R; subst n; cbn; tauto.
  Qed.

  Lemma view_in : forall n v, In v (all_named gs n) <->
    In (v_graph v) gs /\ In (v_def v) (g_defs (v_graph v)) /\ d_name (v_def v) = n.
  Proof.
    intros n v. rewrite all_named_in. split.
    - intros (I & E). apply definition_by_name_some in E. tauto.
    - intros (I & J & <-). split; [exact I|]. apply definition_by_name_in; [|exact J]. apply wf_names, wf. exact I.
  Qed.

  Lemma defs_named_plain : forall n, ~ In n root_names -> defs_named gs n = all_named gs n.
  Proof.
    intros n NR. assert (H : forall g, In g gs -> is_root g n = false).
    { intros g I. destruct (is_root g n) eqn:E; [|reflexivity]. exfalso. apply NR. apply (root_usual g); assumption. }
    clear kinds no_ei ok wf. unfold defs_named, all_named. induction gs as [|g l IH]; [reflexivity|]. cbn [flat_map].
    rewrite (H g (or_introl eq_refl)). rewrite IH; [reflexivity|]. intros g' I. apply H. right. exact I.
  Qed.

  Lemma usual_not_defined : forall g r n, usual_root g r n -> r = None -> definition_by_name g n = None.
  Proof. intros g r n [(E & _)|(E & N)] H; [congruence|]. apply definition_by_name_none. exact N. Qed.

  Lemma defs_named_root : forall n, In n root_names -> defs_named gs n = nil.
  Proof.
    intros n IR. unfold defs_named. apply flat_map_nil. intros g I. pose proof (wf g I) as W.
    destruct (is_root g n) eqn:R; [reflexivity|]. unfold is_root, is_name in R.
    apply orb_false_iff in R. destruct R as (R & RS). apply orb_false_iff in R. destruct R as (RQ & RM).
    destruct IR as [<-|[<-|[<-|[]]]].
    - destruct (wf_query g W) as [(E & _)|(E & N)]; [rewrite E in RQ; discriminate|]. rewrite definition_by_name_none by exact N. reflexivity.
    - destruct (wf_mutation g W) as [(E & _)|(E & N)]; [rewrite E in RM; discriminate|]. rewrite definition_by_name_none by exact N. reflexivity.
    - destruct (wf_subscription g W) as [(E & _)|(E & N)]; [rewrite E in RS; discriminate|]. rewrite definition_by_name_none by exact N. reflexivity.
  Qed.

  Lemma roots_named : forall get n, (forall g, In g gs -> usual_root g (get g) n) -> roots_of gs get = all_named gs n.
  Proof.
    intros get n H. clear wf kinds no_ei ok. unfold roots_of, all_named. induction gs as [|g l IH]; [reflexivity|]. cbn [flat_map].
    rewrite IH by (intros g' I; apply H; right; exact I). f_equal.
    destruct (H g (or_introl eq_refl)) as [(-> & _)|(-> & N)]; [reflexivity|].
    rewrite definition_by_name_none by exact N. reflexivity.
  Qed.
  Lemma roots_query : roots_of gs g_query = all_named gs "Query".
  Proof. apply roots_named. intros g I. apply wf_query, wf. exact I. Qed.
  Lemma roots_mutation : roots_of gs g_mutation = all_named gs "Mutation".
  Proof. apply roots_named. intros g I. apply wf_mutation, wf. exact I. Qed.
  Lemma roots_subscription : roots_of gs g_subscription = all_named gs "Subscription".
  Proof. apply roots_named. intros g I. apply wf_subscription, wf. exact I. Qed.

  Lemma root_kind : forall n v, In n root_names -> In v (all_named gs n) -> d_kind (v_def v) = KObject.
  Proof.
    intros n v IR I. apply view_in in I. destruct I as (I & J & N). pose proof (wf _ I) as W.
    assert (H : exists r, usual_root (v_graph v) r n).
    { destruct IR as [<-|[<-|[<-|[]]]]; eexists;
        [apply (wf_query _ W)|apply (wf_mutation _ W)|apply (wf_subscription _ W)]. }
    destruct H as (r & [(_ & d & D & DN & K)|(_ & X)]).
    - destruct (proj1 kinds (v_graph v) (v_graph v) (v_def v) d I I J D); [congruence|exact K].
    - exfalso. apply X. rewrite <- N. apply in_map. exact J.
  Qed.

  (* All the definitions of a name are of one kind. *)
  Lemma one_kind : forall n v w, In v (all_named gs n) -> In w (all_named gs n) -> d_kind (v_def v) = d_kind (v_def w).
  Proof.
    intros n v w I J. apply view_in in I, J. destruct I as (I & I' & IN), J as (J & J' & JN).
    apply (proj1 kinds (v_graph v) (v_graph w)); congruence.
  Qed.

  Lemma not_entity_interface : forall n defs, (forall v, In v defs -> In v (all_named gs n)) -> is_entity_interface defs = false.
  Proof.
    intros n defs H. unfold is_entity_interface. destruct (find (fun v => is_v2 (v_graph v)) defs) as [v|] eqn:F; [|reflexivity].
    apply find_some in F. destruct F as (I & _). apply H, view_in in I. destruct I as (I & J & _).
    destruct (no_ei _ _ I J) as (K & O). destruct (d_kind (v_def v)) eqn:D; try reflexivity; [exact O|].
    unfold is_entity. rewrite (K eq_refl). reflexivity.
  Qed.

  (* Nothing is reported for any group. *)
  Lemma group_ok : forall n, ~ In n root_names -> diags_of (merge_group gs (all_named gs n)) = nil.
  Proof.
    intros n NR. rewrite <- (defs_named_plain n NR). unfold compose_subgraphs in ok. rewrite !diags_of_app in ok.
    apply app_eq_nil in ok. destruct ok as (_ & O). apply app_eq_nil in O. destruct O as (O & _).
    rewrite diags_of_flat_map, flat_map_nil in O.
    destruct (in_dec string_dec n (definition_names gs)) as [I|NI]; [apply O; exact I|].
    rewrite (defs_named_none _ _ NI). reflexivity.
  Qed.
  Lemma root_ok : forall n, In n root_names -> diags_of (merge_root n (all_named gs n)) = nil.
  Proof.
    intros n IR. unfold compose_subgraphs in ok. rewrite !diags_of_app, roots_query, roots_mutation, roots_subscription in ok.
    apply app_eq_nil in ok. destruct ok as (_ & O). apply app_eq_nil in O. destruct O as (_ & O).
    apply app_eq_nil in O. destruct O as (OQ & O). apply app_eq_nil in O. destruct O as (OM & OS).
    destruct IR as [<-|[<-|[<-|[]]]]; assumption.
  Qed.

  (* The items of a name: from its group, or as a root. *)
  Definition name_items (n : name) : list item :=
    items_of (if mem n root_names then merge_root n (all_named gs n) else merge_group gs (all_named gs n)).

  Lemma group_items_plain : forall n, ~ In n root_names -> group_items gs n = name_items n.
  Proof.
    intros n NR. unfold name_items, group_items. rewrite (defs_named_plain n NR).
    apply mem_not_in in NR. rewrite NR. reflexivity.
  Qed.
  Lemma group_items_root : forall n, In n root_names -> group_items gs n = nil.
  Proof. intros n IR. unfold group_items. rewrite (defs_named_root n IR). reflexivity. Qed.

  Definition enum_values (n : name) (defs : list dview) : list (name * directives) :=
    match used_in_input gs n, used_in_output gs n, defs with
    | _, _, nil => nil
    | true, false, first :: _ =>
        map (with_sites defs)
          (filter (fun v => forallb (fun d => mem v (value_names (v_def d))) defs) (value_names (v_def first)))
    | true, true, first :: _ => map (with_sites defs) (value_names (v_def first))
    | false, _, _ => flat_map value_group (groups fst (flat_map (fun d => d_values (v_def d)) defs))
    end.

  (* What is inserted under a name. *)
  Definition own_item (n : name) (k : kind) : option item :=
    let defs := all_named gs n in
    match k with
    | KObject => Some (IObject n (dirs_of defs))
    | KInterface => Some (IInterface n (dirs_of defs))
    | KUnion => Some (IUnion n (dirs_of defs))
    | KInputObject => Some (IInput n (input_fields n defs) (dirs_of defs))
    | KScalar => if String.eqb n "join__FieldSet" then None else Some (IScalar n (dirs_of defs))
    | KEnum => Some (IEnum n (enum_values n defs) (dirs_of defs))
    end.
  Definition own_fields (n : name) (k : kind) : list ofield :=
    match k with KObject | KInterface => snd (compose_fields (all_named gs n)) | _ => nil end.
  Definition own_members (n : name) (k : kind) : list name :=
    match k with KUnion => flat_map (fun v => d_members (v_def v)) (all_named gs n) | _ => nil end.

  Lemma inserted_one : forall n i l, item_name i = Some n -> (forall j, In j l -> item_name j = None) ->
    inserted (i :: l) n = Some i.
  Proof.
    intros n i l N H. change (i :: l) with ([i] ++ l). rewrite inserted_app.
    rewrite inserted_none by (intros j J E; rewrite (H j J) in E; discriminate).
    unfold inserted. cbn. rewrite N. cbn. rewrite String.eqb_refl. reflexivity.
  Qed.
  Lemma inserted_last : forall n i l, item_name i = Some n -> inserted (l ++ [i]) n = Some i.
  Proof.
    intros n i l N. rewrite inserted_app. unfold inserted. cbn. rewrite N. cbn. rewrite String.eqb_refl. reflexivity.
  Qed.

  Lemma name_items_spec : forall n v, In v (all_named gs n) ->
    n <> "join__Graph" /\
    inserted (name_items n) n = own_item n (d_kind (v_def v)) /\
    flat_map (field_sel n) (name_items n) = own_fields n (d_kind (v_def v)) /\
    flat_map (member_sel n) (name_items n) = own_members n (d_kind (v_def v)) /\
    (forall i, In i (name_items n) ->
       match i with IField p _ => p = n | IMember u _ => u = n | _ => True end) /\
    match d_kind (v_def v) with
    | KObject | KInterface => fst (compose_fields (all_named gs n)) = nil
    | KInputObject => input_diags n (all_named gs n) = nil
    | KEnum =>
        (used_in_input gs n = true -> used_in_output gs n = false -> enum_values n (all_named gs n) <> nil) /\
        (used_in_input gs n = true -> used_in_output gs n = true ->
         forall w, In w (all_named gs n) -> value_names (v_def w) = map fst (enum_values n (all_named gs n)))
    | _ => True
    end /\
    (d_kind (v_def v) = KInterface -> check_implementers gs n (map of_name (snd (compose_fields (all_named gs n)))) = nil).
  Proof.
    intros n v I. pose proof (one_kind n) as OK1.
    assert (HN : forall w, In w (all_named gs n) -> d_name (v_def w) = n) by (intros w; apply all_named_name).
    assert (HF : forall fs, flat_map (field_sel n) (map (IField n) fs) = fs) by (intros; apply field_sel_own).
    destruct (in_dec string_dec n root_names) as [IR|NR].
    - (* a root *)
      pose proof (root_kind n v IR I) as K. pose proof (root_ok n IR) as RO. unfold name_items.
      assert (ME : mem n root_names = true) by (apply mem_in; exact IR). rewrite ME. rewrite K. cbn [own_item own_fields own_members].
      unfold merge_root in *.
      destruct (all_named gs n) as [|w ws] eqn:D; [contradiction|].
      destruct (compose_fields (w :: ws)) as [fd fs] eqn:CF. cbn [fst snd].
      rewrite !diags_of_app, diags_of_diags, diags_of_items, app_nil_r in RO.
      apply app_eq_nil in RO. destruct RO as (_ & RO). apply app_eq_nil in RO. destruct RO as (RO1 & RO2). subst fd.
      rewrite !items_of_app. cbn [map items_of]. rewrite items_of_items.
      match type of RO1 with diags_of ?X = nil => assert (IT : items_of X = nil) end.
      { destruct (String.eqb n "Subscription"); [|reflexivity].
        rewrite items_of_app, !items_of_flat_map.
        match goal with |- ?a ++ ?b = nil => cut (a = nil /\ b = nil); [intros (-> & ->); reflexivity|] end.
        split; apply flat_map_nil; intros x _;
          match goal with |- items_of (if ?b then _ else _) = _ => destruct b end; reflexivity. }
      rewrite IT. change (items_of (map Diag nil)) with (@nil item). cbn [items_of flat_map List.app].
      split; [intros ->; destruct IR as [X|[X|[X|[]]]]; discriminate|]. split.
      { apply inserted_one; [reflexivity|]. intros j J. apply in_map_iff in J. destruct J as (f & <- & _). reflexivity. }
      split; [cbn [flat_map field_sel List.app]; apply HF|].
      split; [cbn [flat_map member_sel List.app]; apply member_sel_fields|].
      split; [intros i [<-|J]; [exact Logic.I|]; apply in_map_iff in J; destruct J as (f & <- & _); reflexivity|].
      split; [reflexivity|discriminate].
    - (* a group *)
      pose proof (group_ok n NR) as GO. unfold name_items.
      assert (ME : mem n root_names = false) by (apply mem_not_in; exact NR). rewrite ME.
      assert (HEI : is_entity_interface (all_named gs n) = false) by (apply (not_entity_interface n); auto).
      destruct (all_named gs n) as [|w ws] eqn:D; [contradiction|].
      assert (WN : d_name (v_def w) = n) by (apply HN; left; reflexivity).
      assert (WK : d_kind (v_def w) = d_kind (v_def v)) by (apply OK1; [left; reflexivity|exact I]).
      unfold merge_group in *. rewrite WN in *.
      destruct (String.eqb n "join__Graph") eqn:JG; [discriminate|]. apply String.eqb_neq in JG.
      split; [exact JG|]. rewrite HEI in *. rewrite WK in *.
      unfold own_item, own_fields, own_members. rewrite D.
      destruct (d_kind (v_def v)) eqn:K.
      + unfold merge_object in *. rewrite WN in *.
        assert (NO : existsb (fun x => negb (is_object (v_def x))) (w :: ws) = false).
        { destruct (existsb _ (w :: ws)) eqn:E; [|reflexivity]. apply existsb_exists in E. destruct E as (x & J & E).
          unfold is_object in E. rewrite (OK1 x v J I), K in E. discriminate. }
        rewrite NO in *. destruct (compose_fields (w :: ws)) as [fd fs] eqn:CF. cbn [fst snd].
        rewrite !diags_of_app, !diags_of_diags, diags_of_items, app_nil_r in GO.
        apply app_eq_nil in GO. destruct GO as (_ & GO). apply app_eq_nil in GO. destruct GO as (_ & GO).
        apply app_eq_nil in GO. destruct GO as (_ & GO). subst fd.
        rewrite !items_of_app, !items_of_diags, items_of_items. cbn [items_of flat_map List.app].
        split; [apply inserted_one; [reflexivity|]; intros j J; apply in_map_iff in J; destruct J as (f & <- & _); reflexivity|].
        split; [cbn [flat_map field_sel List.app]; apply HF|].
        split; [cbn [flat_map member_sel List.app]; apply member_sel_fields|].
        split; [intros i [<-|J]; [exact Logic.I|]; apply in_map_iff in J; destruct J as (f & <- & _); reflexivity|].
        split; [reflexivity|discriminate].
      + unfold merge_interface in *. rewrite WN in *.
        destruct (compose_fields (w :: ws)) as [fd fs] eqn:CF. cbn [fst snd].
        rewrite !diags_of_app, !diags_of_diags, diags_of_items in GO.
        apply app_eq_nil in GO. destruct GO as (_ & GO). apply app_eq_nil in GO. destruct GO as (_ & GO).
        apply app_eq_nil in GO. destruct GO as (-> & GO). cbn [List.app] in GO.
        rewrite !items_of_app, !items_of_diags, items_of_items. cbn [items_of flat_map List.app]. rewrite app_nil_r.
        split; [apply inserted_one; [reflexivity|]; intros j J; apply in_map_iff in J; destruct J as (f & <- & _); reflexivity|].
        split; [cbn [flat_map field_sel List.app]; apply HF|].
        split; [cbn [flat_map member_sel List.app]; apply member_sel_fields|].
        split; [intros i [<-|J]; [exact Logic.I|]; apply in_map_iff in J; destruct J as (f & <- & _); reflexivity|].
        split; [reflexivity|]. intros _. exact GO.
      + unfold merge_union in *. rewrite WN in *.
        rewrite !items_of_app, items_of_items. cbn [items_of flat_map List.app].
        split; [apply inserted_last; reflexivity|].
        split; [rewrite flat_map_app, field_sel_members; reflexivity|].
        split; [rewrite flat_map_app, member_sel_own; cbn [flat_map member_sel List.app]; apply app_nil_r|].
        split; [|split; [exact Logic.I|discriminate]].
        intros i J. apply in_app_or in J. destruct J as [J|[<-|[]]]; [|exact Logic.I].
        apply in_map_iff in J. destruct J as (f & <- & _); reflexivity.
      + unfold merge_input_object in *. rewrite WN in *. cbv zeta in *.
        fold (all_fields (w :: ws)) in *. fold (input_fields n (w :: ws)) in *. fold (input_diags n (w :: ws)) in *.
        rewrite diags_of_app, diags_of_diags in GO. apply app_eq_nil in GO. destruct GO as (GO & _).
        rewrite !items_of_app, items_of_diags. cbn [items_of flat_map List.app].
        split; [apply inserted_one; [reflexivity|intros j []]|].
        split; [reflexivity|]. split; [reflexivity|].
        split; [intros i [<-|[]]; exact Logic.I|]. split; [exact GO|discriminate].
      + unfold merge_scalar in *. rewrite WN in *.
        destruct (String.eqb n "join__FieldSet"); cbn [items_of flat_map List.app].
        * split; [reflexivity|]. split; [reflexivity|]. split; [reflexivity|]. split; [intros i []|]. split; [exact Logic.I|discriminate].
        * split; [apply inserted_one; [reflexivity|intros j []]|]. split; [reflexivity|]. split; [reflexivity|].
          split; [intros i [<-|[]]; exact Logic.I|]. split; [exact Logic.I|discriminate].
      + unfold merge_enum in *. rewrite WN in *. cbv zeta in *. unfold enum_values.
        destruct (used_in_input gs n); [destruct (used_in_output gs n)|].
        * destruct (existsb (fun d => negb (names_eqb (value_names (v_def w)) (value_names (v_def d)))) (w :: ws)) eqn:E; [discriminate|].
          cbn [items_of flat_map List.app].
          split; [apply inserted_one; [reflexivity|intros j []]|]. split; [reflexivity|]. split; [reflexivity|].
          split; [intros i [<-|[]]; exact Logic.I|]. split; [|discriminate]. split; [discriminate|].
          intros _ _ x J. destruct (names_eqb (value_names (v_def w)) (value_names (v_def x))) eqn:NE.
          -- apply names_eqb_eq in NE. rewrite map_map. cbn [fst with_sites]. rewrite map_id. congruence.
          -- exfalso. assert (existsb (fun d => negb (names_eqb (value_names (v_def w)) (value_names (v_def d)))) (w :: ws) = true); [|congruence].
             apply existsb_exists. exists x. rewrite NE. auto.
        * rewrite diags_of_app in GO. apply app_eq_nil in GO. destruct GO as (GO & _). rewrite items_of_app.
          destruct (filter (fun v0 => forallb (fun d => mem v0 (value_names (v_def d))) (w :: ws)) (value_names (v_def w)))
            as [|x xs] eqn:F; [discriminate|].
          cbn [items_of flat_map List.app].
          split; [apply inserted_one; [reflexivity|intros j []]|]. split; [reflexivity|]. split; [reflexivity|].
          split; [intros i [<-|[]]; exact Logic.I|]. split; [|discriminate]. split; [intros _ _; discriminate|discriminate].
        * cbn [items_of flat_map List.app].
          split; [apply inserted_one; [reflexivity|intros j []]|]. split; [reflexivity|]. split; [reflexivity|].
          split; [intros i [<-|[]]; exact Logic.I|]. split; [|discriminate]. split; discriminate.
  Qed.
End composed.
