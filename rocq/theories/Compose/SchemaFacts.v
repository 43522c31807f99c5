(* What a name stands for in the composed schema. *)
From Coq Require Import String List Bool Arith ZArith Lia.
From Verif.SchemaDiff Require Import Search.
From Verif.Compose Require Import Model Spec Facts.
Import ListNotations.
Local Open Scope string_scope.
Local Open Scope list_scope.

(* Events *)
Lemma items_of_app : forall a b, items_of (a ++ b) = items_of a ++ items_of b.
Proof. intros. unfold items_of. apply flat_map_app. Qed.
Lemma diags_of_app : forall a b, diags_of (a ++ b) = diags_of a ++ diags_of b.
Proof. intros. unfold diags_of. apply flat_map_app. Qed.
Lemma items_of_diags : forall ds, items_of (map Diag ds) = nil.
Proof. induction ds; [reflexivity|]. cbn. assumption. Qed.
Lemma diags_of_diags : forall ds, diags_of (map Diag ds) = ds.
Proof. induction ds as [|d ds IH]; [reflexivity|]. cbn. f_equal. exact IH. Qed.
Lemma items_of_items : forall A (f : A -> item) l, items_of (map (fun x => Item (f x)) l) = map f l.
Proof. induction l as [|x l IH]; [reflexivity|]. cbn. f_equal. exact IH. Qed.
Lemma diags_of_items : forall A (f : A -> item) l, diags_of (map (fun x => Item (f x)) l) = nil.
Proof. induction l as [|x l IH]; [reflexivity|]. cbn. exact IH. Qed.

Lemma items_of_flat_map : forall A (f : A -> list event) l,
  items_of (flat_map f l) = flat_map (fun x => items_of (f x)) l.
Proof. induction l as [|x l IH]; [reflexivity|]. cbn. rewrite items_of_app, IH. reflexivity. Qed.
Lemma diags_of_flat_map : forall A (f : A -> list event) l,
  diags_of (flat_map f l) = flat_map (fun x => diags_of (f x)) l.
Proof. induction l as [|x l IH]; [reflexivity|]. cbn. rewrite diags_of_app, IH. reflexivity. Qed.

Lemma flat_map_nil : forall A B (f : A -> list B) l, flat_map f l = nil <-> forall x, In x l -> f x = nil.
Proof.
  induction l as [|x l IH]; cbn; [split; [intros _ y []|reflexivity]|]. split.
  - intros E. apply app_eq_nil in E. destruct E as (E & F). intros y [<-|I]; [exact E|]. apply IH; assumption.
  - intros H. rewrite (H x (or_introl eq_refl)). cbn. apply IH. intros y I. apply H. right. exact I.
Qed.

(* What was inserted last *)
Lemma find_app : forall A (p : A -> bool) l m, find p (l ++ m) = match find p l with Some x => Some x | None => find p m end.
Proof. induction l as [|x l IH]; intros m; cbn; [reflexivity|]. destruct (p x); [reflexivity|apply IH]. Qed.

Lemma inserted_app : forall a b n,
  inserted (a ++ b) n = match inserted b n with Some i => Some i | None => inserted a n end.
Proof. intros. unfold inserted. rewrite rev_app_distr. apply find_app. Qed.

Lemma inserted_nil : forall n, inserted nil n = None.
Proof. reflexivity. Qed.

Lemma inserted_in : forall l n i, inserted l n = Some i -> In i l /\ item_name i = Some n.
Proof.
  intros l n i E. unfold inserted in E. apply find_some in E. destruct E as (I & E).
  split; [apply in_rev; exact I|]. unfold is_name in E. destruct (item_name i) as [m|]; [|discriminate].
  apply String.eqb_eq in E. congruence.
Qed.

Lemma inserted_none : forall l n, (forall i, In i l -> item_name i <> Some n) -> inserted l n = None.
Proof.
  intros l n H. destruct (inserted l n) as [i|] eqn:E; [|reflexivity].
  apply inserted_in in E. destruct E as (I & E). exfalso. apply (H i I E).
Qed.

Lemma inserted_some : forall l n i, In i l -> item_name i = Some n -> exists j, inserted l n = Some j.
Proof.
  intros l n i I E. destruct (inserted l n) as [j|] eqn:F; [eauto|].
  exfalso. unfold inserted in F.
  pose proof (find_none _ _ F i (proj1 (in_rev l i) I)) as X. cbn in X. rewrite E in X. cbn in X.
  rewrite String.eqb_refl in X. discriminate.
Qed.

Lemma inserted_flat_map : forall A (f : A -> list item) (k : A -> name) l n,
  (forall x i m, In i (f x) -> item_name i = Some m -> m = k x) ->
  NoDup (map k l) ->
  inserted (flat_map f l) n =
    match find (fun x => String.eqb n (k x)) l with Some x => inserted (f x) n | None => None end.
Proof.
  intros A f k l n K. induction l as [|x l IH]; intros ND; [reflexivity|]. cbn [flat_map find map] in *.
  inversion ND as [|? ? NI ND']; subst. rewrite inserted_app, (IH ND').
  destruct (String.eqb n (k x)) eqn:E.
  - apply String.eqb_eq in E. subst n.
    destruct (find (fun y => String.eqb (k x) (k y)) l) as [y|] eqn:F; [|reflexivity].
    apply find_some in F. destruct F as (I & F). apply String.eqb_eq in F. exfalso. apply NI. rewrite F. apply in_map. exact I.
  - destruct (find (fun y => String.eqb n (k y)) l) as [y|] eqn:F.
    + destruct (inserted (f y) n) as [i|] eqn:G; [reflexivity|]. apply inserted_none. intros i I H.
      apply (K x i n I) in H. subst. rewrite String.eqb_refl in E. discriminate.
    + apply inserted_none. intros i I H. apply (K x i n I) in H. subst. rewrite String.eqb_refl in E. discriminate.
Qed.

(* Definitions of a name *)
Lemma definition_by_name_some : forall g n d, definition_by_name g n = Some d -> In d (g_defs g) /\ d_name d = n.
Proof.
  intros g n d E. unfold definition_by_name in E. apply find_some in E. destruct E as (I & E).
  apply String.eqb_eq in E. auto.
Qed.

Lemma definition_by_name_in : forall g d, NoDup (map d_name (g_defs g)) -> In d (g_defs g) ->
  definition_by_name g (d_name d) = Some d.
Proof. intros. unfold definition_by_name. apply find_unique; assumption. Qed.

Lemma definition_by_name_none : forall g n, ~ In n (map d_name (g_defs g)) -> definition_by_name g n = None.
Proof. intros. unfold definition_by_name. apply find_key_none. assumption. Qed.

Definition all_named (gs : list subgraph) (n : name) : list dview :=
  flat_map (fun g => match definition_by_name g n with Some d => [mkdview g d] | None => nil end) gs.

Lemma all_named_in : forall gs n v, In v (all_named gs n) <->
  In (v_graph v) gs /\ definition_by_name (v_graph v) n = Some (v_def v).
Proof.
  intros gs n v. unfold all_named. rewrite in_flat_map. split.
  - intros (g & I & J). destruct (definition_by_name g n) as [d|] eqn:E; [|contradiction].
    destruct J as [<-|[]]. cbn. auto.
  - intros (I & E). exists (v_graph v). split; [exact I|]. rewrite E. left. destruct v; reflexivity.
Qed.

Lemma defs_named_in : forall gs n v, In v (defs_named gs n) -> In v (all_named gs n) /\ is_root (v_graph v) n = false.
Proof.
  intros gs n v. unfold defs_named, all_named. rewrite !in_flat_map. intros (g & I & J).
  destruct (is_root g n) eqn:R; [contradiction|]. split.
  - exists g. auto.
  - destruct (definition_by_name g n); [|contradiction]. destruct J as [<-|[]]. exact R.
Qed.

Lemma all_named_name : forall gs n v, In v (all_named gs n) -> d_name (v_def v) = n.
Proof. intros gs n v I. apply all_named_in in I. apply (definition_by_name_some _ _ _ (proj2 I)). Qed.

(* Names of what a group inserts *)
Definition group_items (gs : list subgraph) (n : name) : list item := items_of (merge_group gs (defs_named gs n)).

Lemma in_items_of : forall i l, In i (items_of l) <-> In (Item i) l.
Proof.
  intros i l. unfold items_of. rewrite in_flat_map. split.
  - intros ([j|d] & I & J); [|contradiction]. destruct J as [<-|[]]. exact I.
  - intros I. exists (Item i). split; [exact I|]. left. reflexivity.
Qed.

Ltac in_events :=
  repeat match goal with
  | H : In _ (_ ++ _) |- _ => apply in_app_or in H; destruct H as [H|H]
  | H : In _ (_ :: _) |- _ => destruct H as [H|H]
  | H : In _ nil |- _ => contradiction
  | H : In _ (map _ _) |- _ => apply in_map_iff in H; let x := fresh "x" in let E := fresh "E" in destruct H as (x & E & H)
  | H : In _ (flat_map _ _) |- _ => apply in_flat_map in H; let x := fresh "x" in destruct H as (x & ? & H)
  | H : Item _ = Item _ |- _ => injection H as <-
  | H : Diag _ = Item _ |- _ => discriminate
  | H : In _ (match ?x with _ => _ end) |- _ => destruct x eqn:?
  | H : In _ (let (_, _) := ?x in _) |- _ => destruct x eqn:?
  | H : In _ (if ?x then _ else _) |- _ => destruct x eqn:?
  end.

Lemma merge_group_names : forall gs defs first rest i m, defs = first :: rest ->
  In (Item i) (merge_group gs defs) -> item_name i = Some m -> m = d_name (v_def first).
Proof.
  intros gs defs first rest i m -> I E. unfold merge_group in I.
  destruct (String.eqb (d_name (v_def first)) "join__Graph"); [in_events; try discriminate|].
  destruct (is_entity_interface (first :: rest)).
  - unfold merge_entity_interface in I. cbv zeta in I.
    in_events; try discriminate; subst; cbn in E; congruence.
  - destruct (d_kind (v_def first)).
    + unfold merge_object in I. cbv zeta in I. in_events; try discriminate; subst; cbn in E; congruence.
    + unfold merge_interface in I. cbv zeta in I. in_events; try discriminate; subst; cbn in E; congruence.
    + unfold merge_union in I. cbv zeta in I. in_events; try discriminate; subst; cbn in E; congruence.
    + unfold merge_input_object in I. cbv zeta in I. in_events; try discriminate; subst; cbn in E; congruence.
    + unfold merge_scalar in I. cbv zeta in I. in_events; try discriminate; subst; cbn in E; congruence.
    + unfold merge_enum in I. cbv zeta in I. in_events; try discriminate; subst; cbn in E; congruence.
Qed.

Lemma group_items_names : forall gs n i m, In i (group_items gs n) -> item_name i = Some m -> m = n.
Proof.
  intros gs n i m I E. unfold group_items in I. apply in_items_of in I.
  destruct (defs_named gs n) as [|first rest] eqn:D; [contradiction|].
  rewrite (merge_group_names _ _ _ _ _ _ eq_refl I E).
  assert (J : In first (defs_named gs n)) by (rewrite D; left; reflexivity).
  apply defs_named_in in J. apply (all_named_name gs). apply J.
Qed.

Lemma root_items_names : forall n defs i m, In i (items_of (merge_root n defs)) -> item_name i = Some m -> m = n.
Proof.
  intros n defs i m I E. apply in_items_of in I. unfold merge_root in I. destruct defs as [|v vs]; [contradiction|].
  in_events; try discriminate; subst; cbn in E; congruence.
Qed.

Lemma definition_names_nodup : forall gs, NoDup (definition_names gs).
Proof.
  intros gs. unfold definition_names.
  apply (Permutation.Permutation_NoDup (sort_perm _ str_leb _)). apply distinct_nodup. apply String.eqb_eq.
Qed.

Lemma definition_names_in : forall gs n, In n (definition_names gs) <-> In n (map d_name (all_defs gs)).
Proof. intros. unfold definition_names. rewrite sort_in. apply distinct_in. apply String.eqb_eq. Qed.

Lemma defs_named_none : forall gs n, ~ In n (definition_names gs) -> defs_named gs n = nil.
Proof.
  intros gs n H. destruct (defs_named gs n) as [|v vs] eqn:E; [reflexivity|]. exfalso. apply H.
  apply definition_names_in. assert (J : In v (defs_named gs n)) by (rewrite E; left; reflexivity).
  apply defs_named_in in J. destruct J as (J & _). apply all_named_in in J. destruct J as (J & F).
  apply definition_by_name_some in F. apply in_map_iff. exists (v_def v). split; [apply F|].
  unfold all_defs. apply in_flat_map. exists (v_graph v). tauto.
Qed.

Definition composed_items (gs : list subgraph) : list item := items_of (compose_subgraphs gs).

Lemma composed_items_eq : forall gs,
  composed_items gs =
  map (fun m => IScalar m plain) builtin_scalars ++ flat_map (group_items gs) (definition_names gs) ++
  items_of (merge_root "Query" (roots_of gs g_query)) ++
  items_of (merge_root "Mutation" (roots_of gs g_mutation)) ++
  items_of (merge_root "Subscription" (roots_of gs g_subscription)).
Proof.
  intros gs. unfold composed_items, compose_subgraphs. rewrite !items_of_app, items_of_items, items_of_flat_map. reflexivity.
Qed.

Definition root_names : list name := ["Query"; "Mutation"; "Subscription"].

Lemma inserted_builtin : forall n,
  inserted (map (fun m => IScalar m plain) builtin_scalars) n = if mem n builtin_scalars then Some (IScalar n plain) else None.
Proof.
  intros n. unfold inserted. cbn [builtin_scalars map rev List.app find item_name is_name mem existsb].
  rewrite !(String.eqb_sym n).
  repeat match goal with
  | |- context [String.eqb ?a ?b] => let E := fresh "E" in destruct (String.eqb a b) eqn:E;
      [apply String.eqb_eq in E; subst n; reflexivity|cbn [orb]]
  end. reflexivity.
Qed.

(* A name that is not that of a root: what its group inserts. *)
Lemma inserted_group : forall gs n, ~ In n root_names ->
  inserted (composed_items gs) n =
  match inserted (group_items gs n) n with
  | Some i => Some i
  | None => if mem n builtin_scalars then Some (IScalar n plain) else None
  end.
Proof.
  intros gs n NR. rewrite composed_items_eq, !inserted_app.
  assert (R : forall m defs, In m root_names -> inserted (items_of (merge_root m defs)) n = None).
  { intros m defs I. apply inserted_none. intros i J E. apply (root_items_names m defs i n J) in E. subst. contradiction. }
  rewrite !R by (unfold root_names; cbn; tauto).
  rewrite (inserted_flat_map _ (group_items gs) (fun m => m)).
  2:{ intros x i m. apply group_items_names. }
  2:{ rewrite map_id. apply definition_names_nodup. }
  rewrite inserted_builtin.
  match goal with |- context [find ?p ?l] => destruct (find p l) as [m|] eqn:F end.
  - apply find_some in F. destruct F as (_ & F). apply String.eqb_eq in F. subst m. reflexivity.
  - assert (NI : ~ In n (definition_names gs)).
    { intros I. pose proof (find_none _ _ F n I) as X. cbn in X. rewrite String.eqb_refl in X. discriminate. }
    unfold group_items. rewrite (defs_named_none _ _ NI). reflexivity.
Qed.

(* Lookup *)
Lemma emit_def_names : forall gs items i, map fst (emit_def gs items i) = match item_name i with Some n => [n] | None => nil end.
Proof. intros gs items []; reflexivity. Qed.

Lemma emit_find : forall gs items l n,
  find (fun p => String.eqb n (fst p)) (rev (flat_map (emit_def gs items) l)) =
  match inserted l n with Some i => hd_error (emit_def gs items i) | None => None end.
Proof.
  intros gs items l n. unfold inserted. induction l as [|i l IH] using rev_ind; [reflexivity|].
  rewrite flat_map_app, !rev_app_distr. cbn [flat_map]. rewrite app_nil_r.
  cbn [rev List.app find]. rewrite find_app.
  assert (H : rev (emit_def gs items i) = emit_def gs items i) by (destruct i; reflexivity).
  rewrite H. pose proof (emit_def_names gs items i) as N. unfold is_name.
  destruct (item_name i) as [m|].
  - destruct (emit_def gs items i) as [|[m' pd] [|q r]] eqn:EM; try discriminate. cbn [map fst] in N. injection N as ->.
    cbn [find List.app fst]. rewrite (String.eqb_sym m n). destruct (String.eqb n m) eqn:E; [rewrite EM; reflexivity|]. exact IH.
  - destruct (emit_def gs items i); [|discriminate]. cbn [find]. exact IH.
Qed.

Lemma composed_inv : forall gs s, compose gs = Composed s ->
  diags_of (compose_subgraphs gs) = nil /\ emits gs (composed_items gs) = true /\
  s_defs s = flat_map (emit_def gs (composed_items gs)) (composed_items gs).
Proof.
  intros [|g gs] s E; [discriminate|]. unfold compose in E.
  destruct (existsb has_root (g :: gs)); cbn [negb] in E; [|discriminate]. cbv zeta in E.
  destruct (diags_of (compose_subgraphs (g :: gs))) as [|d ds] eqn:D; [|discriminate].
  fold (composed_items (g :: gs)) in E.
  destruct (emits (g :: gs) (composed_items (g :: gs))) eqn:M; [|discriminate].
  injection E as <-. auto.
Qed.

Lemma lookup_inserted : forall gs s n, compose gs = Composed s ->
  lookup s n = match inserted (composed_items gs) n with
               | Some i => option_map (fun p => fst (snd p)) (hd_error (emit_def gs (composed_items gs) i))
               | None => None
               end /\
  lookup_directives s n = match inserted (composed_items gs) n with
               | Some i => option_map (fun p => snd (snd p)) (hd_error (emit_def gs (composed_items gs) i))
               | None => None
               end.
Proof.
  intros gs s n E. destruct (composed_inv _ _ E) as (_ & _ & D). unfold lookup, lookup_directives.
  rewrite D, emit_find. destruct (inserted (composed_items gs) n); split; reflexivity.
Qed.
