(** * C109: the supergraph says where a field can be resolved *)

From Coq Require Import NArith Ascii String List Bool Arith Lia Sorted.
From Verif.Supergraph Require Import Model Spec Texts Lists.
Import ListNotations.
Local Open Scope string_scope.
Local Open Scope nat_scope.
Local Open Scope list_scope.

Section Field.
Variable ty : Type.
Variable ty_eqb : ty -> ty -> bool.
Variable render_ty : ty -> string.
Variable parse_ty : string -> option ty.
Variable fs : Type.
Variable fs_empty : fs -> bool.
Variable render_fs : fs -> string.
Variable parse_fs : string -> option fs.
Hypothesis ty_eq : forall a b, ty_eqb a b = true <-> a = b.
Hypothesis ty_back : forall t, parse_ty (render_ty t) = Some t.
Hypothesis fs_back : forall f, fs_empty f = false -> parse_fs (render_fs f) = Some f.
Hypothesis fs_text : forall f, fs_empty f = false -> render_fs f <> EmptyString.

Variable names : list string.
Variable composed : ty.
Variable composite : bool.

Notation src := (source ty fs).
Let value (s : src) : string := variant (nth (s_graph s) names EmptyString).
Let own_b (s : src) : bool := negb (s_external s && negb (s_key s)).
Let types_of (s : src) : list (string * ty) :=
  if ty_eqb (s_type s) composed then [] else [(value s, s_type s)].
Let set_of (s : src) (o : option fs) : list (string * fs) :=
  if own_b s then
    match o with
    | Some f => if fs_empty f then [] else [(value s, f)]
    | None => []
    end
  else [].
Let from_of (s : src) : list string :=
  match s_override s with
  | Some (from, _) => if known (map variant names) from then [from] else []
  | None => []
  end.
Let one (s : src) := compose_one ty_eqb names composed s.

Lemma own_b_spec s : own_b s = true <-> own ty fs s.
Proof.
  unfold own_b, own. destruct (s_external s), (s_key s); cbn; intuition discriminate.
Qed.

Lemma jf_override_text s :
  w_override (render render_ty fs_empty render_fs names (one s))
  = match s_override s with Some (from, _) => Some from | None => None end.
Proof.
  unfold one, compose_one, render. cbn [w_override jf_override].
  destruct (s_override s) as [[from l]|]; [|reflexivity].
  destruct (position from names) as [g|] eqn:P; [|reflexivity].
  apply position_some in P. rewrite (nth_error_nth names g EmptyString P). reflexivity.
Qed.

Lemma non_empty_some f : fs_empty f = false -> non_empty (Some (render_fs f)) = Some (render_fs f).
Proof.
  intros E. pose proof (fs_text f E) as T. unfold non_empty.
  destruct (render_fs f); [destruct T; reflexivity|reflexivity].
Qed.

(** What reading the directive of one source adds. *)
Lemma read_one_source s st :
  In (value s) (map variant names) ->
  (forall f, s_provides s = Some f -> fs_empty f = false -> own ty fs s -> composite = true) ->
  read_one ty_eqb parse_ty parse_fs (map variant names) composed composite st
    (render render_ty fs_empty render_fs names (one s))
  = Some (State true
            (if own_b s then set_insert (value s) (st_in st) else st_in st)
            (st_types st ++ types_of s)
            (st_requires st ++ set_of s (s_requires s))
            (st_provides st ++ set_of s (s_provides s))
            (st_overrides st ++ from_of s)).
Proof.
  intros K HP. unfold read_one.
  change (w_graph (render render_ty fs_empty render_fs names (one s))) with (Some (value s)).
  cbv iota beta. rewrite (proj2 (known_in _ _) K).
  assert (R : read_records ty_eqb parse_ty parse_fs composed composite (value s)
                (render render_ty fs_empty render_fs names (one s)) st
              = Some (State true
                  (if own_b s then set_insert (value s) (st_in st) else st_in st)
                  (st_types st ++ types_of s)
                  (st_requires st ++ set_of s (s_requires s))
                  (st_provides st ++ set_of s (s_provides s))
                  (st_overrides st))).
  { unfold read_records.
    change (w_external (render render_ty fs_empty render_fs names (one s)))
      with (s_external s && negb (s_key s)).
    assert (T : match w_type (render render_ty fs_empty render_fs names (one s)) with
                | Some t =>
                    match parse_ty t with
                    | Some t' => Some (if ty_eqb t' composed then st_types st else st_types st ++ [(value s, t')])
                    | None => None
                    end
                | None => Some (st_types st)
                end = Some (st_types st ++ types_of s)).
    { unfold one, compose_one, render, types_of. cbn [w_type jf_type].
      destruct (ty_eqb (s_type s) composed) eqn:Q; cbn [option_map].
      - rewrite app_nil_r. reflexivity.
      - rewrite ty_back, Q. reflexivity. }
    rewrite T. clear T. unfold own_b, set_of. unfold own_b.
    pose proof (own_b_spec s) as OB. unfold own_b in OB.
    destruct (s_external s && negb (s_key s)) eqn:X; cbn [negb].
    - rewrite !app_nil_r. reflexivity.
    - cbn [negb] in OB. pose proof (proj1 OB eq_refl) as O. clear OB.
      assert (P : match non_empty (w_provides (render render_ty fs_empty render_fs names (one s))) with
                  | Some p =>
                      if composite then
                        match parse_fs p with
                        | Some f => Some (st_provides st ++ [(value s, f)])
                        | None => None
                        end
                      else None
                  | None => Some (st_provides st)
                  end
                  = Some (st_provides st ++
                      match s_provides s with
                      | Some f => if fs_empty f then [] else [(value s, f)]
                      | None => []
                      end)).
      { unfold one, compose_one, render. cbn [w_provides jf_provides].
        destruct (s_provides s) as [f|]; [|rewrite app_nil_r; reflexivity].
        destruct (fs_empty f) eqn:E; [rewrite app_nil_r; reflexivity|].
        rewrite (non_empty_some f E), (HP f eq_refl E O), (fs_back f E). reflexivity. }
      rewrite P. clear P.
      assert (P : match non_empty (w_requires (render render_ty fs_empty render_fs names (one s))) with
                  | Some p =>
                      match parse_fs p with
                      | Some f => Some (st_requires st ++ [(value s, f)])
                      | None => None
                      end
                  | None => Some (st_requires st)
                  end
                  = Some (st_requires st ++
                      match s_requires s with
                      | Some f => if fs_empty f then [] else [(value s, f)]
                      | None => []
                      end)).
      { unfold one, compose_one, render. cbn [w_requires jf_requires].
        destruct (s_requires s) as [f|]; [|rewrite app_nil_r; reflexivity].
        destruct (fs_empty f) eqn:E; [rewrite app_nil_r; reflexivity|].
        rewrite (non_empty_some f E), (fs_back f E). reflexivity. }
      rewrite P. reflexivity. }
  rewrite R. rewrite jf_override_text. unfold from_of.
  destruct (s_override s) as [[from l]|]; [|rewrite app_nil_r; reflexivity].
  destruct (known (map variant names) from); [reflexivity|]. rewrite app_nil_r. reflexivity.
Qed.

Lemma read_all_sources : forall l st,
  (forall s, In s l -> In (value s) (map variant names)) ->
  (forall s f, In s l -> s_provides s = Some f -> fs_empty f = false -> own ty fs s -> composite = true) ->
  read_all ty_eqb parse_ty parse_fs (map variant names) composed composite st
    (map (render render_ty fs_empty render_fs names) (map one l))
  = Some (State (st_has st || match l with [] => false | _ => true end)
            (fold_left (fun a v => set_insert v a) (map value (filter own_b l)) (st_in st))
            (st_types st ++ flat_map types_of l)
            (st_requires st ++ flat_map (fun s => set_of s (s_requires s)) l)
            (st_provides st ++ flat_map (fun s => set_of s (s_provides s)) l)
            (st_overrides st ++ flat_map from_of l)).
Proof.
  induction l as [|s l IH]; intros st K HP.
  - cbn. rewrite !app_nil_r, orb_false_r. destruct st. reflexivity.
  - cbn [map read_all]. rewrite read_one_source.
    + rewrite IH.
      * cbn [st_has st_in st_types st_requires st_provides st_overrides flat_map filter].
        rewrite !app_assoc, orb_true_r. destruct (own_b s); reflexivity.
      * intros s' J. apply K. right. exact J.
      * intros s' f J. apply HP. right. exact J.
    + apply K. left. reflexivity.
    + intros f. apply HP. left. reflexivity.
Qed.

Variable parents : list nat.
Variable sources : list src.
Hypothesis FO : field_of ty fs names parents sources.

Lemma value_ok g : In g parents ->
  exists n, nth_error names g = Some n /\ variant (nth g names EmptyString) = variant n.
Proof.
  intros J. pose proof (fo_parents _ _ _ _ _ FO g J) as L.
  destruct (nth_error names g) as [n|] eqn:E; [|apply nth_error_None in E; lia].
  exists n. split; [reflexivity|]. rewrite (nth_error_nth names g EmptyString E). reflexivity.
Qed.

Lemma variant_inj i j n m :
  nth_error names i = Some n -> nth_error names j = Some m -> variant n = variant m -> i = j.
Proof.
  intros A B E. apply (fo_values _ _ _ _ _ FO i j n m (variant m) A B); [|apply variant_value].
  rewrite <- E. apply variant_value.
Qed.

Lemma label_of s from l : s_override s = Some (from, l) -> jf_label (one s) = option_map parse_label l.
Proof.
  intros E. unfold one, compose_one. cbn [jf_label]. rewrite E. destruct l; reflexivity.
Qed.

(** The subgraphs the writer drops are those that were taken over. *)
Lemma gone_spec g :
  In g (flat_map (@fully_overridden ty fs) (map one sources)) <-> taken_over ty fs names sources g.
Proof.
  unfold taken_over. rewrite in_flat_map. split.
  - intros [d [J K]]. apply in_map_iff in J. destruct J as [s [<- J]].
    unfold fully_overridden in K.
    destruct (s_override s) as [[from l]|] eqn:O.
    2: { unfold one, compose_one in K. cbn [jf_override] in K. rewrite O in K. destruct K. }
    rewrite (label_of s from l O) in K.
    unfold one, compose_one in K. cbn [jf_override] in K. rewrite O in K.
    destruct (position from names) as [h|] eqn:P; [|destruct K].
    destruct (replaces_all (option_map parse_label l)) eqn:R; [|destruct K].
    destruct K as [<-|[]]. exists s, from, l. split; [exact J|]. split; [exact O|].
    split; [apply replaces_all_spec; exact R|]. apply position_some. exact P.
  - intros [s [n [l [J [O [F A]]]]]]. exists (one s). split; [apply in_map; exact J|].
    unfold fully_overridden. rewrite (label_of s n l O).
    unfold one, compose_one. cbn [jf_override]. rewrite O.
    destruct (position n names) as [h|] eqn:P.
    + rewrite (proj2 (replaces_all_spec l) F). apply position_some in P.
      left. exact (variant_inj h g n n P A eq_refl).
    + exfalso. apply (position_none _ _ P). exact (nth_error_In _ _ A).
Qed.

Let kept (s : src) : bool := negb (mem (s_graph s) (flat_map (@fully_overridden ty fs) (map one sources))).

Lemma kept_stays s : In s (filter kept sources) <-> stays ty fs names sources s.
Proof.
  unfold stays, kept. rewrite filter_In, negb_true_iff, <- gone_spec. split.
  - intros [J M]. split; [exact J|]. intros G. apply mem_in in G. congruence.
  - intros [J G]. split; [exact J|]. destruct (mem _ _) eqn:M; [|reflexivity].
    apply mem_in in M. destruct (G M).
Qed.

Lemma graphs_of_sources (l : list src) : flat_map (@graph_of ty fs) (map one l) = map (@s_graph ty fs) l.
Proof. induction l as [|s l IH]; [reflexivity|]. cbn. f_equal. exact IH. Qed.

Lemma write_sources :
  write render_ty fs_empty render_fs names parents (compose ty_eqb names composed sources)
  = map (render render_ty fs_empty render_fs names)
      (map one (if must_be_present parents (map one sources) then filter kept sources else [])).
Proof.
  unfold write, compose. fold one. f_equal.
  change (fun s : src => one s) with one.
  assert (E : forall l, filter (fun d =>
             match jf_graph d with
             | Some g => negb (negb (must_be_present parents (map one sources))
                               || mem g (flat_map (@fully_overridden ty fs) (map one sources)))
             | None => true
             end) (map one l)
           = map one (if must_be_present parents (map one sources) then filter kept l else [])).
  { destruct (must_be_present parents (map one sources)); cbn [negb orb].
    - induction l as [|s l IH]; [reflexivity|]. cbn [map filter].
      change (jf_graph (one s)) with (Some (s_graph s)). cbv iota beta. fold (kept s).
      destruct (kept s); cbn [map]; rewrite IH; reflexivity.
    - induction l as [|s l IH]; [reflexivity|]. cbn [map filter].
      change (jf_graph (one s)) with (Some (s_graph s)). cbv iota beta. exact IH. }
  apply E.
Qed.

(** Directives are left out only where they say nothing more than the parent. *)
Lemma not_present : must_be_present parents (map one sources) = false ->
  (forall g, In g parents <-> In g (map (@s_graph ty fs) sources))
  /\ forall s, In s sources ->
       s_override s = None /\ s_requires s = None /\ s_provides s = None
       /\ s_type s = composed /\ own ty fs s.
Proof.
  unfold must_be_present. destruct (existsb special (map one sources)) eqn:X; [discriminate|].
  intros M. apply negb_false_iff, same_list_eq in M. rewrite graphs_of_sources in M.
  split.
  - intros g. rewrite <- (sort_in parents), <- dedup_in, M, sort_in. reflexivity.
  - intros s J.
    assert (Q : special (one s) = false).
    { destruct (special (one s)) eqn:Q; [|reflexivity].
      rewrite <- X. symmetry. apply existsb_exists. exists (one s). split; [apply in_map; exact J|exact Q]. }
    unfold special in Q. rewrite !orb_false_iff in Q.
    destruct Q as [[[[Q1 Q2] Q3] Q4] Q5].
    unfold one, compose_one in Q1, Q2, Q3, Q4, Q5.
    cbn [jf_override jf_requires jf_provides jf_type jf_external] in *.
    split; [destruct (s_override s) as [[? ?]|]; [discriminate|reflexivity]|].
    split; [destruct (s_requires s); [discriminate|reflexivity]|].
    split; [destruct (s_provides s); [discriminate|reflexivity]|].
    split.
    + destruct (ty_eqb (s_type s) composed) eqn:T; [|discriminate]. apply ty_eq. exact T.
    + apply own_b_spec. unfold own_b. rewrite Q5. reflexivity.
Qed.

(** Directives are written whenever they say more. *)
Lemma present : must_be_present parents (map one sources) = true ->
  (exists g, In g parents /\ ~ In g (map (@s_graph ty fs) sources))
  \/ exists s, In s sources /\ special (one s) = true.
Proof.
  unfold must_be_present. destruct (existsb special (map one sources)) eqn:X.
  - intros _. right. apply existsb_exists in X. destruct X as [d [J Q]].
    apply in_map_iff in J. destruct J as [s [<- J]]. exists s. split; assumption.
  - intros M. left. rewrite graphs_of_sources in M. apply negb_true_iff in M.
    destruct (in_dec Nat.eq_dec 0 []) as [[]|_].
    assert (D : forall l, (forall g, In g l -> In g (map (@s_graph ty fs) sources))
                \/ exists g, In g l /\ ~ In g (map (@s_graph ty fs) sources)).
    { induction l as [|g l IH]; [left; intros g []|].
      destruct (in_dec Nat.eq_dec g (map (@s_graph ty fs) sources)) as [J|J].
      - destruct IH as [IH|[h [A B]]]; [|right; exists h; split; [right; exact A|exact B]].
        left. intros h [<-|K]; [exact J|exact (IH h K)].
      - right. exists g. split; [left; reflexivity|exact J]. }
    destruct (D parents) as [I|W]; [|exact W]. exfalso.
    assert (E : dedup (sort parents) = sort (map (@s_graph ty fs) sources)).
    { apply strict_unique.
      - apply dedup_strict, sort_sorted.
      - pose proof (sort_sorted (map (@s_graph ty fs) sources)) as W.
        pose proof (fo_once _ _ _ _ _ FO) as U.
        apply (Permutation.Permutation_NoDup (Permutation.Permutation_sym (sort_perm _))) in U.
        clear - W U. revert U. induction W as [|x l W IH F]; intros U; [constructor|].
        inversion U as [|? ? N1 N2]; subst. constructor; [exact (IH N2)|].
        rewrite Forall_forall in *. intros y J. pose proof (F y J).
        destruct (Nat.eq_dec x y) as [->|]; [destruct (N1 J)|lia].
      - intros g. rewrite dedup_in, !sort_in. split; [apply I|].
        intros J. apply in_map_iff in J. destruct J as [s [<- J]].
        exact (fo_sources _ _ _ _ _ FO s J). }
    rewrite (proj2 (same_list_eq _ _) E) in M. discriminate.
Qed.

Definition sees (v : string) (s : src) : Prop :=
  exists n, nth_error names (s_graph s) = Some n /\ enum_value n v.

Lemma value_sees s v : In s sources -> (v = value s <-> sees v s).
Proof.
  intros J. destruct (value_ok _ (fo_sources _ _ _ _ _ FO s J)) as [n [A B]].
  unfold value, sees. rewrite B. split.
  - intros ->. exists n. split; [exact A|apply variant_value].
  - intros [m [C D]]. rewrite A in C. injection C as <-. symmetry. apply variant_spec. exact D.
Qed.

Hypothesis PC : forall s f, In s sources -> own ty fs s -> s_provides s = Some f -> fs_empty f = false ->
  composite = true.

(** C109.  What the engine keeps of a field nobody left without an owner: its
    subgraphs are those that serve it, less those whose value of [join__Graph] is
    spelled out as the origin of an override; the types, requirements and provided
    fields are those of the sources that stay. *)
Theorem C109_exact :
  (exists s, stays ty fs names sources s) ->
  exists r,
    supergraph_field ty_eqb render_ty parse_ty fs_empty render_fs parse_fs names parents composed composite
      (compose ty_eqb names composed sources) = Some r
    /\ StronglySorted below (r_exists r)
    /\ (forall v, In v (r_exists r) <->
          (exists s, stays ty fs names sources s /\ own ty fs s /\ sees v s)
          /\ ~ exists s l, stays ty fs names sources s /\ s_override s = Some (v, l))
    /\ (forall v t, In (v, t) (r_types r) <->
          exists s, stays ty fs names sources s /\ sees v s /\ s_type s = t /\ t <> composed)
    /\ (forall v f, In (v, f) (r_requires r) <->
          exists s, stays ty fs names sources s /\ own ty fs s /\ sees v s
                    /\ s_requires s = Some f /\ fs_empty f = false)
    /\ (forall v f, In (v, f) (r_provides r) <->
          exists s, stays ty fs names sources s /\ own ty fs s /\ sees v s
                    /\ s_provides s = Some f /\ fs_empty f = false).
Proof.
  intros [s0 H0]. unfold supergraph_field. rewrite write_sources.
  destruct (must_be_present parents (map one sources)) eqn:M.
  - unfold read. rewrite read_all_sources.
    2: { intros s J. apply kept_stays in J. destruct J as [J _].
         destruct (value_ok _ (fo_sources _ _ _ _ _ FO s J)) as [n [A B]].
         unfold value. rewrite B. apply in_map. exact (nth_error_In _ _ A). }
    2: { intros s f J P E O. apply kept_stays in J. destruct J as [J _]. exact (PC s f J O P E). }
    cbn [st_has st_in st_types st_requires st_provides st_overrides orb app].
    assert (NE : match filter kept sources with [] => false | _ => true end = true).
    { apply kept_stays in H0. destruct (filter kept sources); [destruct H0|reflexivity]. }
    rewrite NE. cbn [negb andb].
    eexists. split; [reflexivity|]. cbn [r_exists r_types r_requires r_provides].
    split; [apply remove_all_sorted, insert_all_sorted; constructor|].
    split; [|split; [|split]].
    + intros v. rewrite remove_all_in, insert_all_in. cbn [In].
      assert (A : (False \/ In v (map value (filter own_b (filter kept sources)))) <->
                  exists s, stays ty fs names sources s /\ own ty fs s /\ sees v s).
      { rewrite in_map_iff. split.
        - intros [[]|[s [E J]]]. apply filter_In in J. destruct J as [J O]. apply kept_stays in J.
          exists s. split; [exact J|]. split; [apply own_b_spec; exact O|].
          apply value_sees; [exact (proj1 J)|symmetry; exact E].
        - intros [s [J [O V]]]. right. exists s.
          split; [symmetry; apply value_sees; [exact (proj1 J)|exact V]|].
          apply filter_In. split; [apply kept_stays; exact J|apply own_b_spec; exact O]. }
      rewrite A. clear A. split.
      * intros [[s [J [O V]]] N1]. split; [exists s; split; [exact J|split; assumption]|].
        intros [s' [l [J' O']]]. apply N1. apply in_flat_map. exists s'.
        split; [apply kept_stays; exact J'|]. unfold from_of. rewrite O'.
        assert (K : known (map variant names) v = true).
        { apply known_in. destruct V as [n [A B]]. apply variant_spec in B. subst v.
          apply in_map. exact (nth_error_In _ _ A). }
        rewrite K. left. reflexivity.
      * intros [W N1]. split; [exact W|]. intros K. apply N1.
        apply in_flat_map in K. destruct K as [s' [J' K]]. unfold from_of in K.
        destruct (s_override s') as [[from l]|] eqn:O'; [|destruct K].
        destruct (known (map variant names) from); [|destruct K].
        destruct K as [->|[]]. exists s', l. split; [apply kept_stays; exact J'|exact O'].
    + intros v t. rewrite in_flat_map. unfold types_of. split.
      * intros [s [J K]]. apply kept_stays in J.
        destruct (ty_eqb (s_type s) composed) eqn:T; [destruct K|].
        destruct K as [K|[]]. injection K as K1 K2. exists s. split; [exact J|].
        split; [apply value_sees; [exact (proj1 J)|symmetry; exact K1]|]. split; [exact K2|].
        intros E. rewrite <- K2 in E. apply ty_eq in E. congruence.
      * intros [s [J [V [T N1]]]]. exists s. split; [apply kept_stays; exact J|].
        destruct (ty_eqb (s_type s) composed) eqn:Q.
        { apply ty_eq in Q. destruct N1. congruence. }
        left. apply (value_sees s v (proj1 J)) in V. congruence.
    + intros v f. rewrite in_flat_map. unfold set_of. split.
      * intros [s [J K]]. apply kept_stays in J. destruct (own_b s) eqn:O; [|destruct K].
        destruct (s_requires s) as [f'|] eqn:R; [|destruct K].
        destruct (fs_empty f') eqn:E; [destruct K|]. destruct K as [K|[]]. injection K as K1 K2.
        subst f'. exists s. split; [exact J|]. split; [apply own_b_spec; exact O|].
        split; [apply value_sees; [exact (proj1 J)|symmetry; exact K1]|]. split; [exact R|exact E].
      * intros [s [J [O [V [R E]]]]]. exists s. split; [apply kept_stays; exact J|].
        rewrite (proj2 (own_b_spec s) O), R, E. left.
        apply (value_sees s v (proj1 J)) in V. congruence.
    + intros v f. rewrite in_flat_map. unfold set_of. split.
      * intros [s [J K]]. apply kept_stays in J. destruct (own_b s) eqn:O; [|destruct K].
        destruct (s_provides s) as [f'|] eqn:R; [|destruct K].
        destruct (fs_empty f') eqn:E; [destruct K|]. destruct K as [K|[]]. injection K as K1 K2.
        subst f'. exists s. split; [exact J|]. split; [apply own_b_spec; exact O|].
        split; [apply value_sees; [exact (proj1 J)|symmetry; exact K1]|]. split; [exact R|exact E].
      * intros [s [J [O [V [R E]]]]]. exists s. split; [apply kept_stays; exact J|].
        rewrite (proj2 (own_b_spec s) O), R, E. left.
        apply (value_sees s v (proj1 J)) in V. congruence.
  - apply not_present in M. destruct M as [M1 M2].
    cbn [map]. unfold read. cbn [read_all st_has st_in st_types st_requires st_provides st_overrides fold_left
                                  negb andb].
    assert (NE : match map (fun g => variant (nth g names EmptyString)) parents with
                 | [] => true | _ => false end = false).
    { destruct H0 as [J _]. pose proof (fo_sources _ _ _ _ _ FO s0 J) as K.
      destruct parents; [destruct K|reflexivity]. }
    rewrite NE. eexists. split; [reflexivity|]. cbn [r_exists r_types r_requires r_provides].
    split; [apply insert_all_sorted; constructor|].
    assert (ST : forall s, In s sources -> stays ty fs names sources s).
    { intros s J. split; [exact J|]. intros [s' [n [l [J' [O _]]]]].
      rewrite (proj1 (M2 s' J')) in O. discriminate. }
    split; [|split; [|split]].
    + intros v. rewrite insert_all_in. cbn [In]. rewrite in_map_iff. split.
      * intros [[]|[g [E J]]]. apply M1 in J. apply in_map_iff in J. destruct J as [s [<- J]].
        split.
        { exists s. split; [exact (ST s J)|]. split; [apply (M2 s J)|].
          apply value_sees; [exact J|symmetry; exact E]. }
        intros [s' [l [[J' _] O]]]. rewrite (proj1 (M2 s' J')) in O. discriminate.
      * intros [[s [[J _] [_ V]]] _]. right. exists (s_graph s).
        split; [symmetry; apply (value_sees s v J); exact V|]. apply (fo_sources _ _ _ _ _ FO s J).
    + intros v t. split; [intros []|]. intros [s [[J _] [_ [T N1]]]]. destruct N1.
      rewrite <- T. apply (M2 s J).
    + intros v f. split; [intros []|]. intros [s [[J _] [_ [_ [R _]]]]].
      destruct (M2 s J) as [_ [R' _]]. congruence.
    + intros v f. split; [intros []|]. intros [s [[J _] [_ [_ [R _]]]]].
      destruct (M2 s J) as [_ [_ [R' _]]]. congruence.
Qed.

(** Where overrides are read as they are meant, the subgraphs of the field are
    those that serve it. *)
Theorem C109_serves :
  (exists s, stays ty fs names sources s) ->
  overrides_read ty fs names sources ->
  exists r,
    supergraph_field ty_eqb render_ty parse_ty fs_empty render_fs parse_fs names parents composed composite
      (compose ty_eqb names composed sources) = Some r
    /\ forall v, In v (r_exists r) <->
         exists g n, serves ty fs names sources g /\ nth_error names g = Some n /\ enum_value n v.
Proof.
  intros H0 OR. destruct (C109_exact H0) as [r [E [_ [X _]]]]. exists r. split; [exact E|].
  intros v. rewrite X. split.
  - intros [[s [J [O [n [A B]]]]] _]. exists (s_graph s), n.
    split; [exists s; split; [exact J|split; [reflexivity|exact O]]|]. split; assumption.
  - intros [g [n [[s [J [G O]]] [A B]]]]. subst g. split.
    + exists s. split; [exact J|]. split; [exact O|]. exists n. split; assumption.
    + intros [s' [l [J' O']]].
      destruct (OR s' v l (s_graph s) n J' O' A B) as [EN FL]. subst v.
      destruct J as [_ NT]. apply NT. exists s', n, l.
      split; [exact (proj1 J')|]. split; [exact O'|]. split; [exact FL|exact A].
Qed.

(** In particular where every override is from a name with a lower case letter:
    the engine never takes such a name for a graph. *)
Theorem C109_lower :
  (exists s, stays ty fs names sources s) ->
  overrides_lower ty fs sources ->
  exists r,
    supergraph_field ty_eqb render_ty parse_ty fs_empty render_fs parse_fs names parents composed composite
      (compose ty_eqb names composed sources) = Some r
    /\ forall v, In v (r_exists r) <->
         exists g n, serves ty fs names sources g /\ nth_error names g = Some n /\ enum_value n v.
Proof.
  intros H0 OL. apply C109_serves; [exact H0|].
  intros s from l g n [J _] O A B. exfalso. destruct (OL s from l J O) as [c [C1 C2]].
  exact (value_no_lower _ _ _ B C1 C2).
Qed.

(** A field every source of which was taken over by another: it exists in all the
    subgraphs of its parent. *)
Theorem C109_nobody :
  (forall s, ~ stays ty fs names sources s) ->
  sources <> [] ->
  exists r,
    supergraph_field ty_eqb render_ty parse_ty fs_empty render_fs parse_fs names parents composed composite
      (compose ty_eqb names composed sources) = Some r
    /\ r_types r = [] /\ r_requires r = [] /\ r_provides r = []
    /\ forall v, In v (r_exists r) <->
         exists g n, In g parents /\ nth_error names g = Some n /\ enum_value n v.
Proof.
  intros N0 NN. unfold supergraph_field. rewrite write_sources.
  assert (K : filter kept sources = []).
  { destruct (filter kept sources) as [|s l] eqn:E; [reflexivity|].
    destruct (N0 s). apply kept_stays. rewrite E. left. reflexivity. }
  rewrite K. replace (if must_be_present parents (map one sources) then [] else []) with (@nil src)
    by (destruct (must_be_present parents (map one sources)); reflexivity).
  cbn [map]. unfold read.
  cbn [read_all st_has st_in st_types st_requires st_provides st_overrides fold_left negb andb].
  assert (NE : match map (fun g => variant (nth g names EmptyString)) parents with
               | [] => true | _ => false end = false).
  { destruct sources as [|s l] eqn:E; [destruct NN; reflexivity|].
    pose proof (fo_sources _ _ _ _ _ FO s) as Q.
    destruct parents; [destruct Q; left; reflexivity|reflexivity]. }
  rewrite NE. eexists. split; [reflexivity|]. cbn [r_exists r_types r_requires r_provides].
  split; [reflexivity|]. split; [reflexivity|]. split; [reflexivity|].
  intros v. rewrite insert_all_in. cbn [In]. rewrite in_map_iff. split.
  - intros [[]|[g [E J]]]. destruct (value_ok g J) as [n [A B]]. exists g, n.
    split; [exact J|]. split; [exact A|]. apply variant_spec. congruence.
  - intros [g [n [J [A B]]]]. right. exists g. split; [|exact J].
    apply variant_spec in B. rewrite (nth_error_nth names g EmptyString A). exact B.
Qed.

End Field.

(** ** What the composer accepts *)

Lemma distinct_spec l : distinct l = true <-> NoDup l.
Proof.
  induction l as [|x l IH]; cbn [distinct]; [split; [constructor|reflexivity]|].
  rewrite andb_true_iff, negb_true_iff, IH. split.
  - intros [A B]. constructor; [|exact B]. intros J.
    assert (existsb (String.eqb x) l = true); [|congruence].
    apply existsb_exists. exists x. split; [exact J|apply String.eqb_refl].
  - intros U. inversion U as [|? ? A B]; subst. split; [|exact B].
    destruct (existsb (String.eqb x) l) eqn:E; [|reflexivity]. apply existsb_exists in E.
    destruct E as [y [J E]]. apply String.eqb_eq in E. subst y. destruct (A J).
Qed.

Lemma froms_in ty fs (sources : list (source ty fs)) from :
  In from (froms ty fs sources) <-> exists s l, In s sources /\ s_override s = Some (from, l).
Proof.
  unfold froms. rewrite in_flat_map. split.
  - intros [s [J K]]. destruct (s_override s) as [[f l]|] eqn:E; [|destruct K].
    destruct K as [<-|[]]. exists s, l. split; assumption.
  - intros [s [l [J E]]]. exists s. split; [exact J|]. rewrite E. left. reflexivity.
Qed.

Lemma froms_once ty fs (sources : list (source ty fs)) :
  NoDup (froms ty fs sources) <->
  forall i j s s' from l l',
    nth_error sources i = Some s -> nth_error sources j = Some s' ->
    s_override s = Some (from, l) -> s_override s' = Some (from, l') -> i = j.
Proof.
  induction sources as [|x r IH].
  - split; [|constructor]. intros _ i j s s' from l l' A. destruct i; discriminate.
  - assert (EQ : froms ty fs (x :: r)
      = match s_override x with Some (from, _) => [from] | None => [] end ++ froms ty fs r) by reflexivity.
    rewrite EQ. clear EQ. split.
    + intros U i j s s' from l l' A B O O'.
      assert (R : NoDup (froms ty fs r)).
      { destruct (s_override x) as [[f k]|]; [inversion U; assumption|exact U]. }
      assert (X : forall k t, nth_error r k = Some t -> forall lt, s_override t = Some (from, lt) ->
                  forall lx, s_override x <> Some (from, lx)).
      { intros k t T lt OT lx OX. rewrite OX in U. cbn [app] in U. inversion U as [|? ? V _]; subst.
        apply V. apply froms_in. exists t, lt. split; [exact (nth_error_In _ _ T)|exact OT]. }
      destruct i as [|i], j as [|j]; cbn [nth_error] in A, B.
      * reflexivity.
      * injection A as <-. destruct (X j s' B l' O' l O).
      * injection B as <-. destruct (X i s A l O l' O').
      * f_equal. exact (proj1 IH R i j s s' from l l' A B O O').
    + intros H.
      assert (R : NoDup (froms ty fs r)).
      { apply IH. intros i j s s' from l l' A B O O'.
        specialize (H (S i) (S j) s s' from l l' A B O O'). injection H as H. exact H. }
      destruct (s_override x) as [[f k]|] eqn:OX; [|exact R]. cbn [app]. constructor; [|exact R].
      rewrite froms_in. intros [s [l [J O]]]. apply In_nth_error in J. destruct J as [n J].
      specialize (H 0 (S n) x s f k l eq_refl J OX O). discriminate.
Qed.

(** The diagnostics about overrides and external fields are about what they should. *)
Theorem C109_accepted ty fs names parents (sources : list (source ty fs)) :
  field_of ty fs names parents sources ->
  accepted names sources = true <-> acceptable ty fs names sources.
Proof.
  intros FO.
  assert (N0 : forall s, In s sources -> nth_error names (s_graph s) = Some (nth (s_graph s) names EmptyString)).
  { intros s J. apply nth_error_nth'.
    apply (fo_parents _ _ _ _ _ FO), (fo_sources _ _ _ _ _ FO), J. }
  unfold accepted. rewrite andb_true_iff, distinct_spec, froms_once, forallb_forall. split.
  - intros [A B]. constructor; [exact A| |].
    + intros s from l J O E. specialize (B s J). rewrite O in B. apply andb_true_iff in B.
      destruct B as [B _]. apply negb_true_iff, String.eqb_neq in B. rewrite (N0 s J) in E.
      injection E as E. congruence.
    + intros s J X. specialize (B s J). apply andb_true_iff in B. destruct B as [_ B]. rewrite X in B.
      destruct (s_requires s), (s_provides s); try discriminate. split; reflexivity.
  - intros [A B C]. split; [exact A|]. intros s J. apply andb_true_iff. split.
    + destruct (s_override s) as [[from l]|] eqn:O; [|reflexivity].
      apply negb_true_iff, String.eqb_neq. intros E. apply (B s from l J O). rewrite (N0 s J). congruence.
    + destruct (s_external s) eqn:X; [|reflexivity]. destruct (C s J X) as [-> ->]. reflexivity.
Qed.
