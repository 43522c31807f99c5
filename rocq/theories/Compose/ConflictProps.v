(** C76: what subgraphs disagree about is reported. *)
From Coq Require Import String List Bool ZArith Lia.
From Verif.Compose Require Import Model Spec Facts SchemaFacts GroupFacts KindFacts LookupFacts Decide.
Import ListNotations.
Local Open Scope string_scope.
Local Open Scope list_scope.

(** ** Specification *)
(* The field is selected by a key, at its top level. *)
Inductive key_field (n : name) : list selection -> Prop :=
| kf_here sub ss : In (SField n sub) ss -> key_field n ss
| kf_inline c sub ss : In (SInline c sub) ss -> key_field n sub -> key_field n ss.

(* The subgraph has a value for the field of its own, by the rules for subgraphs
   of the second version of Federation. *)
Definition resolves (g : subgraph) (d : definition) (f : field) : Prop :=
  In d (g_defs g) /\ d_kind d = KObject /\ In f (d_fields d) /\ g_spec g <> ApolloV1 /\
  overrides (f_dirs f) = None /\ external (f_dirs f) = false /\ external (d_dirs d) = false /\ internal (f_dirs f) = false.

(* It says that others may have one. *)
Definition shares (d : definition) (f : field) : Prop :=
  shareable (f_dirs f) = true \/ shareable (d_dirs d) = true \/ exists k, In k (d_keys d) /\ key_field (f_name f) (k_fields k).

(** ** Facts *)
Lemma value_eqb_eq : forall a b, value_eqb a b = true <-> a = b.
Proof.
  fix IH 1. intros a b. destruct a as [s | z | s | x | s | l | l |]; destruct b as [s' | z' | s' | x' | s' | m | m |]; cbn [value_eqb];
    try (split; [discriminate | intro H; discriminate H]).
  - rewrite String.eqb_eq. split; [intros -> | intros [= ->]]; reflexivity.
  - rewrite Z.eqb_eq. split; [intros -> | intros [= ->]]; reflexivity.
  - rewrite String.eqb_eq. split; [intros -> | intros [= ->]]; reflexivity.
  - rewrite Bool.eqb_true_iff. split; [intros -> | intros [= ->]]; reflexivity.
  - rewrite String.eqb_eq. split; [intros -> | intros [= ->]]; reflexivity.
  - match goal with |- ?f l m = true <-> _ => set (go := f) end.
    assert (H : go l m = true <-> l = m).
    { revert m. induction l as [| [k x] l IHl]; intros [| [k' y] m]; unfold go; fold go; cbn;
        try (split; [discriminate | intro H; discriminate H]); [split; reflexivity |].
      fold value_eqb. rewrite !andb_true_iff, String.eqb_eq, (IH x y). change ((fix go (l0 m0 : list (name * value)) {struct l0} : bool := _) l m) with (go l m).
      rewrite (IHl m). split; [intros ((-> & ->) & ->); reflexivity | intros [= -> -> ->]; auto]. }
    rewrite H. split; [intros -> | intros [= ->]]; reflexivity.
  - match goal with |- ?f l m = true <-> _ => set (go := f) end.
    assert (H : go l m = true <-> l = m).
    { revert m. induction l as [| x l IHl]; intros [| y m]; cbn;
        try (split; [discriminate | intro H; discriminate H]); [split; reflexivity |].
      rewrite !andb_true_iff, (IH x y). change ((fix go (l0 m0 : list value) {struct l0} : bool := _) l m) with (go l m).
      rewrite (IHl m). split; [intros (-> & ->); reflexivity | intros [= -> ->]; auto]. }
    rewrite H. split; [intros -> | intros [= ->]]; reflexivity.
  - split; reflexivity.
Qed.

Lemma key_field_iff : forall n ss, key_field n ss <-> (exists sub, In (SField n sub) ss) \/ exists c sub, In (SInline c sub) ss /\ key_field n sub.
Proof.
  intros n ss. split.
  - intros [sub l I | c sub l I H]; [left; exists sub; exact I | right; exists c, sub; auto].
  - intros [(sub & I) | (c & sub & I & H)]; [exact (kf_here n sub ss I) | exact (kf_inline n c sub ss I H)].
Qed.
Lemma key_field_some : forall n ss, key_field n ss <-> exists s, In s ss /\ key_field n [s].
Proof.
  intros n ss. rewrite key_field_iff. split.
  - intros [(sub & I) | (c & sub & I & H)]; eexists; (split; [exact I |]); apply key_field_iff; [left; eexists; left; reflexivity | right; exists c, sub; split; [left; reflexivity | exact H]].
  - intros (s & I & H). apply key_field_iff in H as [(sub & [-> | []]) | (c & sub & [-> | []] & H)]; [left; exists sub; exact I | right; exists c, sub; auto].
Qed.
Lemma selects_key : forall n s, selects n s = true <-> key_field n [s].
Proof.
  fix IH 2. intros n s. destruct s as [m sub | c sub]; cbn [selects].
  - rewrite String.eqb_eq, key_field_iff. split; [intros ->; left; exists sub; left; reflexivity |].
    intros [(sub' & [E | []]) | (c & sub' & [E | []] & _)]; [congruence | discriminate E].
  - assert (H : existsb (selects n) sub = true <-> key_field n sub).
    { induction sub as [| x sub IHs].
      - split; [discriminate |]. intro H. apply key_field_some in H as (? & [] & _).
      - cbn [existsb]. rewrite orb_true_iff, IHs, (IH n x). clear. rewrite (key_field_some n (x :: sub)), (key_field_some n sub). split.
        + intros [H | (y & I & H)]; [exists x; split; [left; reflexivity | exact H] | exists y; split; [right; exact I | exact H]].
        + intros (y & [-> | I] & H); [left; exact H | right; exists y; auto]. }
    rewrite H. clear. rewrite (key_field_iff n [SInline c sub]). split.
    + intro H. right. exists c, sub. split; [left; reflexivity | exact H].
    + intros [(s & [E | []]) | (c' & s & [E | []] & H)]; [discriminate E | injection E as _ ->; exact H].
Qed.
Lemma is_part_of_key_spec : forall f, is_part_of_key f = true <-> exists k, In k (d_keys (v_def (v_parent f))) /\ key_field (vf_name f) (k_fields k).
Proof.
  intro f. unfold is_part_of_key. rewrite existsb_exists. split; intros (k & Hk & H); exists k; (split; [exact Hk |]).
  - apply existsb_exists in H as (s & Hs & H). apply key_field_some. exists s. split; [exact Hs | apply selects_key; exact H].
  - apply key_field_some in H as (s & Hs & H). apply existsb_exists. exists s. split; [exact Hs | apply selects_key; exact H].
Qed.

Lemma map_nil : forall A B (f : A -> B) l, map f l = nil -> l = nil.
Proof. intros A B f [|]; [reflexivity | discriminate]. Qed.

Section conflicts.
  Variable gs : list subgraph.
  Variable s : schema.
  Hypothesis si : sound_input gs.
  Hypothesis C : compose gs = Composed s.
  Let ok : diags_of (compose_subgraphs gs) = nil := proj1 (composed_inv gs s C).

  (* nothing is reported for the fields of an object or an interface *)
  Lemma field_group_ok : forall n f v, In v (all_named gs n) -> d_kind (v_def v) = KObject \/ d_kind (v_def v) = KInterface ->
    In f (d_fields (v_def v)) -> exists f', compose_field (sel vf_name (all_fields (all_named gs n)) (f_name f)) = (nil, Some f').
  Proof.
    intros n f v I K J.
    destruct (name_items_spec gs (si_wf gs si) (si_kinds gs si) (si_interfaces gs si) ok n v I) as (_ & _ & _ & _ & _ & F & _).
    assert (F' : fst (compose_fields (all_named gs n)) = nil) by (destruct K as [K | K]; rewrite K in F; exact F).
    destruct (compose_fields_spec _ F') as (A & B & _).
    destruct (A (mkfview v f)) as (f' & I' & N'); [apply all_fields_in; split; assumption |].
    destruct (B f' I') as (E & _). exists f'. rewrite N' in E. exact E.
  Qed.
  Lemma view_of : forall g d, In g gs -> In d (g_defs g) -> In (mkdview g d) (all_named gs (d_name d)).
  Proof. intros g d G D. apply (view_in gs (si_wf gs si)). cbn. auto. Qed.
  Lemma compose_field_diags : forall l f', compose_field l = (nil, Some f') ->
    exists first rest, l = first :: rest /\ (is_object (v_def (v_parent first)) = true -> invalid_field_sharing l = nil) /\
      fst (merge_field_arguments l) = nil /\ override_source_has_override l = nil /\ flat_map external_diags l = nil.
  Proof.
    intros [| x r] f' E; [discriminate |]. exists x, r. split; [reflexivity |].
    unfold compose_field in E. destruct (merge_field_arguments (x :: r)) as [ad args]. cbv zeta in E.
    destruct (compose_field_types compose_for_output (x :: r)) as [[t | d] |]; [| discriminate | discriminate].
    injection E as E _. apply app_eq_nil in E as [E1 E]. apply app_eq_nil in E as [_ E]. apply app_eq_nil in E as [E2 E]. apply app_eq_nil in E as [E3 E4].
    split; [intro H; rewrite H in E1; exact E1 |]. split; [exact E2 |]. split; [exact E3 | exact E4].
  Qed.

  (** *** Sharing *)
  Lemma named_app : forall a b n, all_named (a ++ b) n = all_named a n ++ all_named b n.
  Proof. intros a b n. unfold all_named. apply flat_map_app. Qed.
  Definition sources (l : list subgraph) (n fn : name) : list fview := filter is_source (sel vf_name (all_fields (all_named l n)) fn).
  Lemma sources_app : forall a b n fn, sources (a ++ b) n fn = sources a n fn ++ sources b n fn.
  Proof.
    intros a b n fn. unfold sources. rewrite named_app. unfold all_fields. rewrite flat_map_app. unfold sel. rewrite filter_app, filter_app. reflexivity.
  Qed.
  Lemma source_in : forall g d f, In g gs -> resolves g d f -> sources [g] (d_name d) (f_name f) <> nil.
  Proof.
    intros g d f G (D & K & F & V & H1 & H2 & H3 & H4) E.
    assert (X : In (mkfview (mkdview g d) f) (sources [g] (d_name d) (f_name f))); [| rewrite E in X; destruct X].
    unfold sources. apply filter_In. split.
    - apply sel_in. split; [| reflexivity]. apply all_fields_in. cbn [v_parent v_field v_def]. split; [| exact F].
      apply all_named_in. cbn [v_graph v_def]. split; [left; reflexivity |]. apply definition_by_name_in; [| exact D]. apply wf_names. apply (si_wf gs si). exact G.
    - unfold is_source. cbn [v_parent v_field v_def v_graph]. rewrite H1, H2, H3, H4. unfold graph_of. cbn [v_parent v_graph].
      unfold is_v1. destruct (g_spec g); [contradiction V; reflexivity | reflexivity | reflexivity].
  Qed.
  Lemma two_or_more : forall A (a b : list A), a <> nil -> b <> nil -> exists x y l, a ++ b = x :: y :: l.
  Proof. intros A [| x [| y a]] b H1 H2; [contradiction H1; reflexivity | destruct b as [| y b]; [contradiction H2; reflexivity |] |]; cbn; eauto. Qed.

  Lemma sharing : forall a g b g' c d d' f f', gs = a ++ g :: b ++ g' :: c -> resolves g d f -> resolves g' d' f' ->
    d_name d = d_name d' -> f_name f = f_name f' ->
    exists h e x, In h gs /\ In e (g_defs h) /\ d_name e = d_name d /\ In x (d_fields e) /\ f_name x = f_name f /\ shares e x.
  Proof.
    intros a g b g' c d d' f f' E R R' Nd Nf.
    assert (G : In g gs) by (rewrite E; apply in_or_app; right; left; reflexivity).
    assert (G' : In g' gs) by (rewrite E; apply in_or_app; right; right; apply in_or_app; right; left; reflexivity).
    pose proof R as (D & K & F & _). pose proof R' as (D' & K' & F' & _).
    assert (V := view_of g d G D).
    destruct (field_group_ok (d_name d) f (mkdview g d) V (or_introl K) F) as (o & CF).
    destruct (compose_field_diags _ _ CF) as (first & rest & El & Hs & _).
    set (l := sel vf_name (all_fields (all_named gs (d_name d))) (f_name f)) in *.
    assert (Hl : forall x, In x l <-> In (v_parent x) (all_named gs (d_name d)) /\ In (v_field x) (d_fields (v_def (v_parent x))) /\ vf_name x = f_name f).
    { intro x. unfold l. rewrite sel_in, all_fields_in. tauto. }
    assert (Hobj : is_object (v_def (v_parent first)) = true).
    { assert (I : In first l) by (rewrite El; left; reflexivity). apply Hl in I as (I & _). unfold is_object.
      rewrite (one_kind gs (si_wf gs si) (si_kinds gs si) (d_name d) _ _ I V). cbn [v_def]. rewrite K. reflexivity. }
    specialize (Hs Hobj). unfold invalid_field_sharing in Hs.
    destruct (existsb (fun x => is_part_of_key x || shareable (f_dirs (v_field x)) || shareable (d_dirs (v_def (v_parent x)))) l) eqn:Ex.
    - apply existsb_exists in Ex as (x & I & H). apply Hl in I as (I & J & N). apply (view_in gs (si_wf gs si)) in I as (I1 & I2 & I3).
      exists (v_graph (v_parent x)), (v_def (v_parent x)), (v_field x). split; [exact I1 |]. split; [exact I2 |]. split; [exact I3 |]. split; [exact J |]. split; [exact N |].
      apply orb_true_iff in H as [H | H]; [apply orb_true_iff in H as [H | H] |].
      + apply is_part_of_key_spec in H. right. right. exact H.
      + left. exact H.
      + right. left. exact H.
    - exfalso. assert (Hf : filter is_source l = sources gs (d_name d) (f_name f)) by reflexivity.
      destruct (two_or_more _ (sources [g] (d_name d) (f_name f)) (sources [g'] (d_name d) (f_name f))) as (x & y & m & E2).
      { apply source_in; assumption. }
      { rewrite Nd, Nf. apply source_in; assumption. }
      assert (Hlen : 2 <= length (filter is_source l)).
      { rewrite Hf, E. change (a ++ g :: b ++ g' :: c) with (a ++ ([g] ++ (b ++ ([g'] ++ c)))). rewrite !sources_app, !app_length.
        assert (H2 : length (sources [g] (d_name d) (f_name f) ++ sources [g'] (d_name d) (f_name f)) = S (S (length m))) by (rewrite E2; reflexivity).
        rewrite app_length in H2. lia. }
      destruct (filter is_source l) as [| x1 [| x2 m2]]; [cbn in Hlen; lia | cbn in Hlen; lia | discriminate].
  Qed.

  (** *** Defaults of arguments *)
  Lemma defaults : forall g g' d d' f f' x x' v v', In g gs -> In g' gs -> In d (g_defs g) -> In d' (g_defs g') -> d_name d = d_name d' ->
    d_kind d = KObject \/ d_kind d = KInterface -> In f (d_fields d) -> In f' (d_fields d') -> f_name f = f_name f' ->
    In x (f_args f) -> In x' (f_args f') -> a_name x = a_name x' -> a_default x = Some v -> a_default x' = Some v' -> v = v'.
  Proof.
    intros g g' d d' f f' x x' v v' G G' D D' Nd K F F' Nf X X' Nx Hv Hv'.
    assert (V := view_of g d G D). assert (V' := view_of g' d' G' D'). rewrite <- Nd in V'.
    destruct (field_group_ok (d_name d) f (mkdview g d) V K F) as (o & CF).
    destruct (compose_field_diags _ _ CF) as (first & rest & El & _ & Ha & _).
    set (l := sel vf_name (all_fields (all_named gs (d_name d))) (f_name f)) in *.
    assert (I : In (mkfview (mkdview g d) f) l) by (unfold l; apply sel_in; split; [apply all_fields_in; split; [exact V | exact F] | reflexivity]).
    assert (I' : In (mkfview (mkdview g' d') f') l) by (unfold l; apply sel_in; split; [apply all_fields_in; split; [exact V' | exact F'] | symmetry; exact Nf]).
    set (y := mkaview (mkfview (mkdview g d) f) x). set (y' := mkaview (mkfview (mkdview g' d') f') x').
    assert (J : In y (flat_map args_of l)) by (apply in_flat_map; eexists; split; [exact I |]; apply in_map; exact X).
    assert (J' : In y' (flat_map args_of l)) by (apply in_flat_map; eexists; split; [exact I' |]; apply in_map; exact X').
    rewrite El in Ha. unfold merge_field_arguments in Ha. cbv zeta in Ha. cbn [fst] in Ha. rewrite <- El in Ha.
    rewrite flat_map_nil in Ha.
    assert (Hg := groups_has va_name _ _ J). set (grp := sel va_name (flat_map args_of l) (va_name y)) in *.
    assert (M : In y grp) by (apply sel_in; auto). assert (M' : In y' grp) by (apply sel_in; split; [exact J' | symmetry; exact Nx]).
    specialize (Ha _ (in_map _ _ _ Hg)).
    assert (Hc : conflicting_defaults grp = nil).
    { destruct grp as [| z zs] eqn:Eg; [destruct M |]. unfold merge_argument in Ha.
      destruct (negb (mem (va_name z) (argument_intersection l))).
      - cbn [fst] in Ha. apply app_eq_nil in Ha as [Ha _]. apply map_nil in Ha. exact Ha.
      - destruct (fold_arg_types (a_type (v_arg z)) zs); cbn [fst] in Ha; apply app_eq_nil in Ha as [Ha _]; apply map_nil in Ha; exact Ha. }
    unfold conflicting_defaults in Hc. destruct (first_default grp) as [u |] eqn:Ef.
    - assert (Hu : forall z w, In z grp -> a_default (v_arg z) = Some w -> w = u).
      { intros z w Hz Hw. destruct (value_eqb u w) eqn:Eq; [apply value_eqb_eq in Eq; symmetry; exact Eq |].
        assert (H : In z nil); [| destruct H]. rewrite <- Hc. apply filter_In. split; [exact Hz |]. rewrite Hw, Eq. reflexivity. }
      rewrite (Hu y v M Hv), (Hu y' v' M' Hv'). reflexivity.
    - exfalso. clear - Ef M Hv. induction grp as [| z zs IH]; [destruct M |]. cbn [first_default] in Ef.
      destruct (a_default (v_arg z)) eqn:Ez; [discriminate |]. destruct M as [-> | M]; [cbn in Ez; rewrite Hv in Ez; discriminate | apply (IH M Ef)].
  Qed.

  (** *** Overrides and external fields *)
  Lemma external_fields : forall g d f, In g gs -> In d (g_defs g) -> d_kind d = KObject \/ d_kind d = KInterface -> In f (d_fields d) ->
    external (f_dirs f) = true \/ external (d_dirs d) = true -> has_requires (f_dirs f) = false /\ has_provides (f_dirs f) = false.
  Proof.
    intros g d f G D K F Hext. assert (V := view_of g d G D).
    destruct (field_group_ok (d_name d) f (mkdview g d) V K F) as (o & CF).
    destruct (compose_field_diags _ _ CF) as (first & rest & El & _ & _ & _ & He). rewrite flat_map_nil in He.
    specialize (He (mkfview (mkdview g d) f)). unfold external_diags in He. cbn [v_field v_parent v_def] in He.
    assert (Hor : external (f_dirs f) || external (d_dirs d) = true) by (apply orb_true_iff; exact Hext). rewrite Hor in He.
    assert (I : In (mkfview (mkdview g d) f) (sel vf_name (all_fields (all_named gs (d_name d))) (f_name f))) by (apply sel_in; split; [apply all_fields_in; split; [exact V | exact F] | reflexivity]).
    specialize (He I). apply app_eq_nil in He as [E1 E2]. rewrite andb_true_r in E1, E2.
    split; [destruct (has_requires (f_dirs f)); [discriminate | reflexivity] | destruct (has_provides (f_dirs f)); [discriminate | reflexivity]].
  Qed.

  Definition overriding (l : list subgraph) (n fn : name) : list (name * fview) :=
    flat_map (fun x => match overrides (f_dirs (v_field x)) with Some o => [(o, x)] | None => nil end) (sel vf_name (all_fields (all_named l n)) fn).
  Lemma overriding_app : forall a b n fn, overriding (a ++ b) n fn = overriding a n fn ++ overriding b n fn.
  Proof.
    intros a b n fn. unfold overriding. rewrite named_app. unfold all_fields. rewrite flat_map_app. unfold sel. rewrite filter_app, flat_map_app. reflexivity.
  Qed.
  Lemma overriding_in : forall g d f o, In g gs -> In d (g_defs g) -> In f (d_fields d) -> overrides (f_dirs f) = Some o ->
    In (o, mkfview (mkdview g d) f) (overriding [g] (d_name d) (f_name f)).
  Proof.
    intros g d f o G D F H. unfold overriding. apply in_flat_map. exists (mkfview (mkdview g d) f). cbn [v_field]. rewrite H. split; [| left; reflexivity].
    apply sel_in. split; [| reflexivity]. apply all_fields_in. cbn [v_parent v_field v_def]. split; [| exact F].
    apply all_named_in. cbn [v_graph v_def]. split; [left; reflexivity |]. apply definition_by_name_in; [| exact D]. apply wf_names. apply (si_wf gs si). exact G.
  Qed.
  Lemma override_once : forall a g b g' c d d' f f' o, gs = a ++ g :: b ++ g' :: c -> In d (g_defs g) -> In d' (g_defs g') ->
    d_name d = d_name d' -> d_kind d = KObject \/ d_kind d = KInterface -> In f (d_fields d) -> In f' (d_fields d') -> f_name f = f_name f' ->
    overrides (f_dirs f) = Some o -> overrides (f_dirs f') = Some o -> False.
  Proof.
    intros a g b g' c d d' f f' o E D D' Nd K F F' Nf Ho Ho'.
    assert (G : In g gs) by (rewrite E; apply in_or_app; right; left; reflexivity).
    assert (G' : In g' gs) by (rewrite E; apply in_or_app; right; right; apply in_or_app; right; left; reflexivity).
    assert (V := view_of g d G D).
    destruct (field_group_ok (d_name d) f (mkdview g d) V K F) as (u & CF).
    destruct (compose_field_diags _ _ CF) as (first & rest & El & _ & _ & Hov & _).
    unfold override_source_has_override in Hov. cbv zeta in Hov.
    change (flat_map (fun x => match overrides (f_dirs (v_field x)) with Some s => [(s, x)] | None => nil end) (sel vf_name (all_fields (all_named gs (d_name d))) (f_name f)))
      with (overriding gs (d_name d) (f_name f)) in Hov.
    rewrite flat_map_nil in Hov.
    assert (I := overriding_in g d f o G D F Ho). assert (I' := overriding_in g' d' f' o G' D' F' Ho'). rewrite <- Nd, <- Nf in I'.
    set (from := overriding gs (d_name d) (f_name f)) in *.
    assert (J : In (o, mkfview (mkdview g d) f) from).
    { unfold from. rewrite E. change (a ++ g :: b ++ g' :: c) with (a ++ ([g] ++ (b ++ g' :: c))). rewrite !overriding_app. apply in_or_app. right. apply in_or_app. left. exact I. }
    assert (Hg := groups_has fst from _ J). cbn [fst] in Hg. specialize (Hov _ Hg).
    assert (Hlen : 2 <= length (sel fst from o)).
    { unfold from. rewrite E. change (a ++ g :: b ++ g' :: c) with (a ++ ([g] ++ (b ++ ([g'] ++ c)))). rewrite !overriding_app. unfold sel. rewrite !filter_app, !app_length.
      assert (H1 : 1 <= length (filter (fun x : name * fview => fst x =? o) (overriding [g] (d_name d) (f_name f)))).
      { assert (H : In (o, mkfview (mkdview g d) f) (filter (fun x : name * fview => fst x =? o) (overriding [g] (d_name d) (f_name f)))) by (apply filter_In; split; [exact I | apply String.eqb_refl]).
        destruct (filter _ (overriding [g] _ _)); [destruct H | cbn; lia]. }
      assert (H2 : 1 <= length (filter (fun x : name * fview => fst x =? o) (overriding [g'] (d_name d) (f_name f)))).
      { assert (H : In (o, mkfview (mkdview g' d') f') (filter (fun x : name * fview => fst x =? o) (overriding [g'] (d_name d) (f_name f)))) by (apply filter_In; split; [exact I' | apply String.eqb_refl]).
        destruct (filter _ (overriding [g'] _ _)); [destruct H | cbn; lia]. }
      lia. }
    destruct (sel fst from o) as [| [? ?] [| [? ?] ?]]; [cbn in Hlen; lia | cbn in Hlen; lia | discriminate].
  Qed.
End conflicts.

(** ** C76 *)
(* A field of an object that two subgraphs resolve is declared as shared by one
   that has it. *)
Theorem C76_sharing : forall gs s a g b g' c d d' f f', sound_input gs -> compose gs = Composed s -> gs = a ++ g :: b ++ g' :: c ->
  resolves g d f -> resolves g' d' f' -> d_name d = d_name d' -> f_name f = f_name f' ->
  exists h e x, In h gs /\ In e (g_defs h) /\ d_name e = d_name d /\ In x (d_fields e) /\ f_name x = f_name f /\ shares e x.
Proof. intros gs s a g b g' c d d' f f' S0 C. apply (sharing gs s S0 C). Qed.

(* All defaults of an argument are equal. *)
Theorem C76_defaults_partial : forall gs s g g' d d' f f' x x' v v', sound_input gs -> compose gs = Composed s ->
  In g gs -> In g' gs -> In d (g_defs g) -> In d' (g_defs g') -> d_name d = d_name d' ->
  d_kind d = KObject \/ d_kind d = KInterface -> In f (d_fields d) -> In f' (d_fields d') -> f_name f = f_name f' ->
  In x (f_args f) -> In x' (f_args f') -> a_name x = a_name x' -> a_default x = Some v -> a_default x' = Some v' -> v = v'.
Proof. intros gs s g g' d d' f f' x x' v v' S0 C. apply (defaults gs s S0 C). Qed.

(* No two fields override the same source. *)
Theorem C76_overrides : forall gs s a g b g' c d d' f f' o, sound_input gs -> compose gs = Composed s -> gs = a ++ g :: b ++ g' :: c ->
  In d (g_defs g) -> In d' (g_defs g') -> d_name d = d_name d' -> d_kind d = KObject \/ d_kind d = KInterface ->
  In f (d_fields d) -> In f' (d_fields d') -> f_name f = f_name f' -> overrides (f_dirs f) = Some o -> overrides (f_dirs f') <> Some o.
Proof. intros gs s a g b g' c d d' f f' o S0 C E D D' Nd K F F' Nf Ho Ho'. apply (override_once gs s S0 C a g b g' c d d' f f' o E D D' Nd K F F' Nf Ho Ho'). Qed.

(* A field that is resolved elsewhere has no requirements and provides nothing. *)
Theorem C76_external : forall gs s g d f, sound_input gs -> compose gs = Composed s -> In g gs -> In d (g_defs g) ->
  d_kind d = KObject \/ d_kind d = KInterface -> In f (d_fields d) -> external (f_dirs f) = true \/ external (d_dirs d) = true ->
  has_requires (f_dirs f) = false /\ has_provides (f_dirs f) = false.
Proof. intros gs s g d f S0 C. apply (external_fields gs s S0 C). Qed.

Definition arg_default (n : name) (t : ftype) (v : value) : argument := mkargument n t (Some v) plain.
Definition own (n : name) (t : ftype) : field := mkfield n t nil None plain.
Definition dirs (sh ex : bool) (req : bool) (o : option name) : directives := mkdirectives sh ex false false false false false false req false o nil nil.

(* Two subgraphs with the same field, once shared and once not; with defaults
   that are equal and not; overridden once and twice. *)
Definition pets (d1 d2 : directives) (v1 v2 : value) : list subgraph :=
  [graph "a" [object "Query" [fld "pet" (tnull "Pet")]; object "Pet" [mkfield "name" (tnull "String") [arg_default "length" (tnull "Int") v1] None d1]] nil;
   graph "b" [object "Query" [fld "pet" (tnull "Pet")]; object "Pet" [mkfield "name" (tnull "String") [arg_default "length" (tnull "Int") v2] None d2]] nil].
Example C76_example :
  sound_input (pets shared plain (VInt 1) (VInt 1)) /\
  (exists s, compose (pets shared plain (VInt 1) (VInt 1)) = Composed s) /\
  (exists s, compose (pets plain (dirs false true false None) (VInt 1) (VInt 1)) = Composed s) /\
  compose (pets plain plain (VInt 1) (VInt 1)) = Rejected [FieldSharing "Pet" "name"] /\
  compose (pets shared plain (VInt 1) (VInt 2)) = Rejected [ConflictingDefaults "Pet" "name" "length"] /\
  compose (pets (dirs false false false (Some "x")) (dirs false false false (Some "x")) (VInt 1) (VInt 1)) = Rejected [OverrideSource "Pet" "name"] /\
  compose (pets plain (dirs false true true None) (VInt 1) (VInt 1)) = Rejected [ExternalRequires "Pet" "name"].
Proof.
  split; [apply sound_inputb_ok; vm_compute; reflexivity |]. split; [eexists; vm_compute; reflexivity |]. split; [eexists; vm_compute; reflexivity |].
  split; [vm_compute; reflexivity |]. split; [vm_compute; reflexivity |]. split; vm_compute; reflexivity.
Qed.

(* Fields of input objects may have different defaults; the first is taken, and
   the subgraph with the other one never uses its own. *)
Theorem C76_input_defaults_refuted : exists g h s v v' i, sound_input [g; h] /\ compose [g; h] = Composed s /\ v <> v' /\
  In (input "Page" [infld "first" (tnull "Int") (Some v)]) (g_defs g) /\ In (input "Page" [infld "first" (tnull "Int") (Some v')]) (g_defs h) /\
  lookup s "Page" = Some (DInput false [i]) /\ oi_default i = Some v.
Proof.
  exists (graph "a" [object "Query" [fld_args "a" (tnull "Int") [arg "p" (tnull "Page")]]; input "Page" [infld "first" (tnull "Int") (Some (VInt 10))]] nil),
    (graph "b" [object "Query" [fld_args "b" (tnull "Int") [arg "p" (tnull "Page")]]; input "Page" [infld "first" (tnull "Int") (Some (VInt 20))]] nil).
  eexists. exists (VInt 10), (VInt 20). eexists. split; [apply sound_inputb_ok; vm_compute; reflexivity |]. split; [vm_compute; reflexivity |].
  split; [discriminate |]. split; [right; left; reflexivity |]. split; [right; left; reflexivity |]. split; vm_compute; reflexivity.
Qed.
(* It is enough that one says so: a subgraph that doesn't say that its field is
   shared is composed with one that does. *)
Example one_share_enough : exists g h s d d' f f', sound_input [g; h] /\ compose [g; h] = Composed s /\
  resolves g d f /\ resolves h d' f' /\ d_name d = d_name d' /\ f_name f = f_name f' /\ shares d f /\ ~ shares d' f'.
Proof.
  exists (graph "a" [object "Query" [fld "pet" (tnull "Int")]] nil), (graph "b" [object "Query" [own "pet" (tnull "Int")]] nil). eexists.
  exists (object "Query" [fld "pet" (tnull "Int")]), (object "Query" [own "pet" (tnull "Int")]), (fld "pet" (tnull "Int")), (own "pet" (tnull "Int")).
  split; [apply sound_inputb_ok; vm_compute; reflexivity |]. split; [vm_compute; reflexivity |].
  split; [repeat (split; [try reflexivity; try (left; reflexivity); discriminate |]); reflexivity |].
  split; [repeat (split; [try reflexivity; try (left; reflexivity); discriminate |]); reflexivity |].
  split; [reflexivity |]. split; [reflexivity |]. split; [left; reflexivity |]. intros [H | [H | (k & [] & _)]]; discriminate.
Qed.
