(** The walks over a schema, and what a contract ends up hiding. *)
From Coq Require Import String List Arith ZArith Bool Lia.
From Verif.Contracts Require Import Model Spec Finalize Complete.
Import ListNotations.
Local Open Scope nat_scope.
Local Open Scope list_scope.

Lemma weights_app : forall g a b, weights g (a ++ b) = weights g a + weights g b.
Proof. intros g a b. unfold weights. rewrite map_app, list_sum_app. reflexivity. Qed.
Lemma weights_rev : forall g l, weights g (rev l) = weights g l.
Proof.
  intros g l; induction l as [|x l IH]; [reflexivity|]. simpl. rewrite weights_app, IH. unfold weights. simpl. lia.
Qed.
Lemma weights_const : forall g k l, (forall x, In x l -> weight g x = k) -> weights g l = k * List.length l.
Proof.
  intros g k l; induction l as [|x l IH]; intro H; [unfold weights; simpl; lia|].
  unfold weights in *. simpl. rewrite IH by (intros; apply H; right; assumption). rewrite (H x (or_introl eq_refl)). lia.
Qed.

Section Walk.
Variable g : graph.
Variables (skip : site -> bool) (next : site -> list site).
Hypothesis Hlight : forall s, is_type s = false -> weights g (next s) < weight g s.
Hypothesis Hnone : forall t, ~ in_range g t -> next (SType t) = [].

(** What can be reached from [start] without going through what is skipped. *)
Inductive met (start : list site) : site -> Prop :=
| Met_start s : In s start -> skip s = false -> met start s
| Met_next s x : met start s -> In x (next s) -> skip x = false -> met start x.

Definition left_over (reached : marks) : nat :=
  list_sum (map (fun t => if reached (SType t) then 0 else weights g (next (SType t))) (types g)).

Lemma left_over_le : forall l r s, list_sum (map (fun t => if set r s true (SType t) then 0 else weights g (next (SType t))) l) <=
  list_sum (map (fun t => if r (SType t) then 0 else weights g (next (SType t))) l).
Proof.
  intros l r s; induction l as [|t l IH]; [simpl; lia|]. cbn [map list_sum fold_right]. fold (list_sum (map (fun t => if set r s true (SType t) then 0 else weights g (next (SType t))) l)).
  fold (list_sum (map (fun t => if r (SType t) then 0 else weights g (next (SType t))) l)).
  assert ((if set r s true (SType t) then 0 else weights g (next (SType t))) <= (if r (SType t) then 0 else weights g (next (SType t)))).
  { destruct (r (SType t)) eqn:E; [rewrite (set_grows r s (SType t) E); lia|]. destruct (set r s true (SType t)); lia. }
  lia.
Qed.
Lemma left_over_set : forall l r t, In t l -> r (SType t) = false ->
  list_sum (map (fun x => if set r (SType t) true (SType x) then 0 else weights g (next (SType x))) l) + weights g (next (SType t)) <=
  list_sum (map (fun x => if r (SType x) then 0 else weights g (next (SType x))) l).
Proof.
  intros l r t; induction l as [|x l IH]; intros H E; [destruct H|].
  cbn [map list_sum fold_right].
  fold (list_sum (map (fun x => if set r (SType t) true (SType x) then 0 else weights g (next (SType x))) l)).
  fold (list_sum (map (fun x => if r (SType x) then 0 else weights g (next (SType x))) l)).
  pose proof (left_over_le l r (SType t)) as L.
  destruct (tdef_eqb x t) eqn:X.
  - apply tdef_eqb_eq in X; subst x. rewrite set_same, E. lia.
  - rewrite set_other by (intro K; injection K as ->; replace (tdef_eqb x x) with true in X by (symmetry; apply tdef_eqb_eq; reflexivity); discriminate).
    destruct H as [->|H]; [replace (tdef_eqb t t) with true in X by (symmetry; apply tdef_eqb_eq; reflexivity); discriminate|].
    specialize (IH H E). lia.
Qed.

Lemma in_range_dec : forall t, in_range g t \/ ~ in_range g t.
Proof. intros [n|n|n|n|n|n]; simpl; lia. Qed.

Lemma walk_done : forall start fuel stack reached,
  weights g stack + left_over reached < fuel ->
  (forall s, In s stack -> In s start \/ exists p, met start p /\ In s (next p)) ->
  (forall s, reached s = true -> met start s) ->
  (forall s x, reached s = true -> In x (next s) -> skip x = false -> reached x = true \/ In x stack) ->
  (forall s, In s start -> skip s = false -> reached s = true \/ In s stack) ->
  exists r, walk skip is_type next fuel stack reached = Done r /\ forall s, r s = true <-> met start s.
Proof.
  intros start fuel; induction fuel as [|n IH]; intros stack reached F A B C D; [lia|].
  destruct stack as [|s rest]; cbn [walk].
  - exists reached. split; [reflexivity|]. intro s. split; [apply B|]. intro M. induction M as [s H1 H2|s x M IHM H1 H2].
    + destruct (D s H1 H2) as [K|[]]; exact K.
    + destruct (C s x IHM H1 H2) as [K|[]]; exact K.
  - assert (W1 : weights g (s :: rest) = weight g s + weights g rest) by reflexivity.
    assert (W0 : 1 <= weight g s) by (destruct s; simpl; lia).
    destruct (skip s) eqn:Sk.
    + apply IH; [lia|intros; apply A; right; assumption|exact B| |].
      * intros y x H1 H2 H3. destruct (C y x H1 H2 H3) as [K|[K|K]]; [left; exact K|subst; congruence|right; exact K].
      * intros y H1 H2. destruct (D y H1 H2) as [K|[K|K]]; [left; exact K|subst; congruence|right; exact K].
    + assert (Ms : met start s).
      { destruct (A s (or_introl eq_refl)) as [K|[p [K1 K2]]]; [apply Met_start; assumption|apply (Met_next start p); assumption]. }
      destruct (is_type s && reached s) eqn:O.
      * apply andb_true_iff in O. destruct O as [_ O].
        apply IH; [lia|intros; apply A; right; assumption|exact B| |].
        -- intros y x H1 H2 H3. destruct (C y x H1 H2 H3) as [K|[K|K]]; [left; exact K|subst; left; exact O|right; exact K].
        -- intros y H1 H2. destruct (D y H1 H2) as [K|[K|K]]; [left; exact K|subst; left; exact O|right; exact K].
      * apply IH.
        -- rewrite weights_app, weights_rev. destruct (is_type s) eqn:T.
           ++ destruct s as [t| | |]; try discriminate. simpl in O.
              destruct (in_range_dec t) as [R|R].
              ** pose proof (left_over_set (types g) reached t (proj1 (in_types g t) R) O) as L. unfold left_over in *. simpl in W1. lia.
              ** rewrite (Hnone t R). pose proof (left_over_le (types g) reached (SType t)) as L. unfold left_over in *. simpl in W1. unfold weights at 1. simpl. lia.
           ++ pose proof (Hlight s T) as L1. pose proof (left_over_le (types g) reached s) as L. unfold left_over in *. lia.
        -- intros x Hx. apply in_app_iff in Hx. destruct Hx as [Hx|Hx]; [|apply A; right; exact Hx].
           right. exists s. split; [exact Ms|apply in_rev, Hx].
        -- intros x Hx. destruct (set_true _ _ _ Hx) as [->|K]; [exact Ms|apply B, K].
        -- intros y x H1 H2 H3. destruct (set_true _ _ _ H1) as [->|K].
           ++ right. apply in_or_app; left. apply -> in_rev. exact H2.
           ++ destruct (C y x K H2 H3) as [Q|[<-|Q]]; [left; apply set_grows, Q|left; apply set_same|right; apply in_or_app; right; exact Q].
        -- intros y H1 H2. destruct (D y H1 H2) as [Q|[<-|Q]]; [left; apply set_grows, Q|left; apply set_same|right; apply in_or_app; right; exact Q].
Qed.

Lemma left_over_start : left_over (fun _ => false) = list_sum (map (fun t => weights g (next (SType t))) (types g)).
Proof. reflexivity. Qed.

Theorem walk_met : forall start, exists r, walk skip is_type next (walk_fuel g next start) start (fun _ => false) = Done r /\
  forall s, r s = true <-> met start s.
Proof.
  intro start. apply walk_done.
  - rewrite left_over_start. unfold walk_fuel. lia.
  - intros s H; left; exact H.
  - discriminate.
  - discriminate.
  - intros s H _; right; exact H.
Qed.
End Walk.

Section Graph.
Variable g : graph.
Hypothesis W : wf g.
Hypothesis WT : wf_types g.

Lemma none_object : forall o, ~ o < List.length (g_objects g) -> object_of g o = MkObject [] [].
Proof. intros o H. unfold object_of. apply nth_overflow; lia. Qed.
Lemma none_interface : forall o, ~ o < List.length (g_interfaces g) -> interface_of g o = MkInterface [] [].
Proof. intros o H. unfold interface_of. apply nth_overflow; lia. Qed.
Lemma none_union : forall o, ~ o < List.length (g_unions g) -> union_of g o = [].
Proof. intros o H. unfold union_of. apply nth_overflow; lia. Qed.
Lemma none_enum : forall o, ~ o < List.length (g_enums g) -> enum_of g o = [].
Proof. intros o H. unfold enum_of. apply nth_overflow; lia. Qed.
Lemma none_input : forall o, ~ o < List.length (g_inputs g) -> input_of g o = [].
Proof. intros o H. unfold input_of. apply nth_overflow; lia. Qed.

Lemma meta_light : forall s, is_type s = false -> weights g (meta_next g s) < weight g s.
Proof.
  intros [t|f|v|x] H; [discriminate| | |]; cbn [meta_next weight].
  - rewrite weights_app. rewrite (weights_const g 2 (map SValue _)).
    + rewrite map_length. unfold weights. simpl. lia.
    + intros x Hx. apply in_map_iff in Hx. destruct Hx as [k [<- _]]. reflexivity.
  - unfold weights; simpl; lia.
  - unfold weights; simpl; lia.
Qed.
Lemma meta_none : forall t, ~ in_range g t -> meta_next g (SType t) = [].
Proof.
  intros [n|n|n|n|n|n] H; simpl in *; [reflexivity| | | | |].
  - rewrite none_object by exact H. reflexivity.
  - rewrite none_interface by exact H. reflexivity.
  - rewrite none_union by exact H. reflexivity.
  - rewrite none_enum by exact H. reflexivity.
  - rewrite none_input by exact H. reflexivity.
Qed.

Lemma met_meta : forall s, met (fun _ => false) (meta_next g) (rev (map SField (g_meta g))) s <-> meta g s.
Proof.
  intro s. split.
  - intro M. induction M as [s H _|s x M IH H _].
    + apply in_rev in H. apply in_map_iff in H. destruct H as [f [<- H]]. apply M_field, H.
    + destruct s as [[n|n|n|n|n|n]|f|v|e]; cbn [meta_next] in H; try destruct H.
      * apply in_app_iff in H. destruct H as [H|H]; apply in_map_iff in H; destruct H as [k [<- H]]; [eapply M_object_field|eapply M_object_interface]; eassumption.
      * apply in_app_iff in H. destruct H as [H|H]; apply in_map_iff in H; destruct H as [k [<- H]]; [eapply M_interface_field|eapply M_interface_object]; eassumption.
      * apply in_map_iff in H; destruct H as [k [<- H]]. eapply M_union; eassumption.
      * apply in_map_iff in H; destruct H as [k [<- H]]. eapply M_enum; eassumption.
      * apply in_map_iff in H; destruct H as [k [<- H]]. eapply M_input; eassumption.
      * apply in_app_iff in H. destruct H as [H|[<-|[]]]; [apply in_map_iff in H; destruct H as [k [<- H]]; eapply M_arg; eassumption|apply M_type, IH].
      * subst x. apply M_value_type, IH.
      * contradiction.
  - intro M. induction M as [f H|f v M IH H|f M IH|v M IH|o f M IH H|o i M IH H|i f M IH H|i o M IH H|u o M IH H|e x M IH H|o v M IH H].
    + apply Met_start; [apply -> in_rev; apply in_map, H|reflexivity].
    + eapply Met_next; [exact IH| |reflexivity]. cbn [meta_next]. apply in_or_app; left; apply in_map, H.
    + eapply Met_next; [exact IH| |reflexivity]. cbn [meta_next]. apply in_or_app; right; left; reflexivity.
    + eapply Met_next; [exact IH| |reflexivity]. left; reflexivity.
    + eapply Met_next; [exact IH| |reflexivity]. cbn [meta_next]. apply in_or_app; left; apply in_map, H.
    + eapply Met_next; [exact IH| |reflexivity]. cbn [meta_next]. apply in_or_app; right; apply (in_map (fun i => SType (TInterface i))), H.
    + eapply Met_next; [exact IH| |reflexivity]. cbn [meta_next]. apply in_or_app; left; apply in_map, H.
    + eapply Met_next; [exact IH| |reflexivity]. cbn [meta_next]. apply in_or_app; right; apply (in_map object_site), H.
    + eapply Met_next; [exact IH| |reflexivity]. cbn [meta_next]. apply (in_map object_site), H.
    + eapply Met_next; [exact IH| |reflexivity]. cbn [meta_next]. apply in_map, H.
    + eapply Met_next; [exact IH| |reflexivity]. cbn [meta_next]. apply in_map, H.
Qed.

Lemma roots_root : forall o, In o (roots g) <-> root g (SType (TObject o)).
Proof.
  intro o. unfold roots, root. split.
  - intros [H|H]; [exists o; split; [reflexivity|left; congruence]|]. apply in_app_iff in H. destruct H as [H|H].
    + destruct (g_mutation g); [destruct H as [->|[]]|destruct H]. exists o; split; [reflexivity|right; left; reflexivity].
    + destruct (g_subscription g); [destruct H as [->|[]]|destruct H]. exists o; split; [reflexivity|right; right; reflexivity].
  - intros [k [E H]]. injection E as <-. destruct H as [H|[H|H]]; [left; congruence|right; apply in_or_app; left; rewrite H; left; reflexivity|].
    right; apply in_or_app; right. rewrite H; left; reflexivity.
Qed.

Lemma mark_builtins_at : forall m s, mark_builtins g m s = true <-> m s = true /\ ~ builtin g s /\ ~ root g s.
Proof.
  intros m s. unfold mark_builtins. cbv zeta.
  set (step1 := fun (m : marks) id => if existsb (String.eqb (nth id (g_scalars g) ""%string)) builtins then set m (SType (TScalar id)) false else m).
  assert (A : forall l m, fold_left step1 l m s = true <->
     m s = true /\ ~ (exists n, In n l /\ s = SType (TScalar n) /\ In (nth n (g_scalars g) ""%string) builtins)).
  { intro l; induction l as [|n l IH]; intro m1; [simpl; split; [intro H; split; [exact H|intros [n [[] _]]]|intros [H _]; exact H]|].
    cbn [fold_left]. rewrite IH. unfold step1.
    destruct (existsb (String.eqb (nth n (g_scalars g) ""%string)) builtins) eqn:E.
    - apply existsb_exists in E. destruct E as [b [E1 E2]]. apply String.eqb_eq in E2. subst b.
      destruct (site_eqb (SType (TScalar n)) s) eqn:Q.
      + apply site_eqb_eq in Q. subst s. rewrite set_same. split; [intros [K _]; discriminate|].
        intros [_ K]. exfalso. apply K. exists n. split; [left; reflexivity|]. split; [reflexivity|exact E1].
      + assert (N : SType (TScalar n) <> s) by (intro K; apply site_eqb_eq in K; congruence).
        rewrite set_other by exact N. split; intros [K1 K2]; (split; [exact K1|]); intros [k [K3 K4]]; apply K2; exists k.
        * destruct K3 as [<-|K3]; [destruct K4 as [K4 _]; congruence|split; assumption].
        * split; [right; exact K3|exact K4].
    - split; intros [K1 K2]; (split; [exact K1|]); intros [k [K3 [K4 K5]]]; apply K2; exists k.
      + destruct K3 as [<-|K3]; [exfalso|split; [exact K3|split; assumption]].
        assert (existsb (String.eqb (nth n (g_scalars g) ""%string)) builtins = true); [|congruence].
        apply existsb_exists. exists (nth n (g_scalars g) ""%string). split; [exact K5|apply String.eqb_refl].
      + split; [right; exact K3|split; assumption]. }
  assert (B : forall l m, fold_left (fun m o => set m (object_site o) false) l m s = true <->
     m s = true /\ ~ (exists o, In o l /\ s = SType (TObject o))).
  { intro l; induction l as [|n l IH]; intro m1; [simpl; split; [intro H; split; [exact H|intros [n [[] _]]]|intros [H _]; exact H]|].
    cbn [fold_left]. rewrite IH. destruct (site_eqb (object_site n) s) eqn:Q.
    - apply site_eqb_eq in Q. subst s. rewrite set_same. split; [intros [K _]; discriminate|].
      intros [_ K]. exfalso. apply K. exists n. split; [left; reflexivity|reflexivity].
    - assert (N : object_site n <> s) by (intro K; apply site_eqb_eq in K; congruence).
      rewrite set_other by exact N. split; intros [K1 K2]; (split; [exact K1|]); intros [k [K3 K4]]; apply K2; exists k.
      + destruct K3 as [<-|K3]; [exfalso; apply N; symmetry; exact K4|split; assumption].
      + split; [right; exact K3|exact K4]. }
  rewrite B, A. split.
  - intros [[K1 K2] K3]. split; [exact K1|]. split.
    + intros [n [N1 [N2 N3]]]. apply K2. exists n. split; [apply in_ids; exact N2|]. split; [exact N1|exact N3].
    + intro R. pose proof R as R0. destruct R as [o [R1 R2]]. apply K3. exists o. split; [apply roots_root; rewrite <- R1; exact R0|exact R1].
  - intros [K1 [K2 K3]]. split; [split; [exact K1|]|].
    + intros [n [N1 [N2 N3]]]. apply K2. exists n. split; [exact N2|]. split; [apply in_ids in N1; exact N1|exact N3].
    + intros [o [N1 N2]]. apply K3. subst s. apply roots_root, N1.
Qed.

Theorem mark_accessible_at : forall m, exists m', mark_accessible g m = Done m' /\
  forall s, m' s = true <-> m s = true /\ ~ builtin g s /\ ~ root g s /\ ~ meta g s.
Proof.
  intro m. unfold mark_accessible.
  destruct (walk_met g (fun _ => false) (meta_next g) meta_light meta_none (rev (map SField (g_meta g)))) as [r [E H]].
  rewrite E. cbn [obind]. eexists. split; [reflexivity|]. intro s. cbv beta.
  rewrite andb_true_iff, negb_true_iff, mark_builtins_at. rewrite <- met_meta, <- (H s).
  destruct (r s); split.
  - intros [_ K]; discriminate.
  - intros [_ [_ [_ K]]]. exfalso; apply K; reflexivity.
  - intros [[K1 [K2 K3]] _]. split; [exact K1|]. split; [exact K2|]. split; [exact K3|discriminate].
  - intros [K1 [K2 [K3 _]]]. split; [split; [exact K1|split; assumption]|reflexivity].
Qed.

(** Reachable types. *)
Section Hide.
Variable m : marks.
Lemma field_types_in : forall f s, In s (field_types g m f) <-> m (SField f) = false /\
  (s = SType (f_ty (field_of g f)) \/ exists v, In v (f_args (field_of g f)) /\ m (SValue v) = false /\ s = SType (v_ty (value_of g v))).
Proof.
  intros f s. unfold field_types. destruct (m (SField f)); [split; [intros []|intros [K _]; discriminate]|]. split.
  - intros [H|H]; (split; [reflexivity|]); [left; congruence|right]. apply in_flat_map in H. destruct H as [v [H1 H2]]. exists v.
    destruct (m (SValue v)) eqn:E; [destruct H2|]. destruct H2 as [<-|[]]. split; [exact H1|]. split; reflexivity.
  - intros [_ [->|[v [H1 [H2 ->]]]]]; [left; reflexivity|right]. apply in_flat_map. exists v. split; [exact H1|]. rewrite H2. left; reflexivity.
Qed.
Lemma visible_light : forall s, is_type s = false -> weights g (visible_next g m s) < weight g s.
Proof. intros [t|f|v|x] H; [discriminate| | |]; unfold weights; simpl; lia. Qed.
Lemma visible_none : forall t, ~ in_range g t -> visible_next g m (SType t) = [].
Proof.
  intros [n|n|n|n|n|n] H; simpl in *; [reflexivity| | | |reflexivity|].
  - rewrite none_object by exact H. reflexivity.
  - rewrite none_interface by exact H. reflexivity.
  - rewrite none_union by exact H. reflexivity.
  - rewrite none_input by exact H. reflexivity.
Qed.
Lemma met_reachable : forall s, met m (visible_next g m) (rev (map object_site (roots g))) s <-> exists t, s = SType t /\ reachable g m t.
Proof.
  intro s. split.
  - intro M. induction M as [s H K|s x M IH H K].
    + apply in_rev in H. apply in_map_iff in H. destruct H as [o [<- H]]. exists (TObject o). split; [reflexivity|].
      apply R_root; [apply roots_root, H|exact K].
    + destruct IH as [t [-> R]].
      assert (Ent : forall e, reachable g m (entity_type e) -> In x (flat_map (field_types g m) (entity_fields g e)) -> exists t, x = SType t /\ reachable g m t).
      { intros e Re Hx. apply in_flat_map in Hx. destruct Hx as [f [Hf Hx]]. apply field_types_in in Hx. destruct Hx as [F1 [->|[v [F2 [F3 ->]]]]].
        - eexists. split; [reflexivity|]. eapply R_field; eassumption.
        - eexists. split; [reflexivity|]. eapply R_arg; eassumption. }
      destruct t as [n|n|n|n|n|n]; cbn [visible_next] in H; try (destruct H; fail).
      * apply in_app_iff in H. destruct H as [H|H]; [apply (Ent (EObject n) R H)|]. apply in_map_iff in H. destruct H as [i [<- H]].
        exists (TInterface i). split; [reflexivity|]. eapply R_interface; eassumption.
      * apply in_app_iff in H. destruct H as [H|H]; [apply (Ent (EInterface n) R H)|]. apply in_map_iff in H. destruct H as [i [<- H]].
        exists (TObject i). split; [reflexivity|]. eapply R_possible; eassumption.
      * apply in_map_iff in H. destruct H as [i [<- H]]. exists (TObject i). split; [reflexivity|]. eapply R_member; eassumption.
      * apply in_flat_map in H. destruct H as [v [H1 H2]]. destruct (m (SValue v)) eqn:E; [destruct H2|]. destruct H2 as [<-|[]].
        eexists. split; [reflexivity|]. eapply R_input; eassumption.
  - intros [t [-> R]].
    assert (Ent : forall e x, met m (visible_next g m) (rev (map object_site (roots g))) (SType (entity_type e)) ->
        In x (flat_map (field_types g m) (entity_fields g e)) -> m x = false -> met m (visible_next g m) (rev (map object_site (roots g))) x).
    { intros e x M Hx K. eapply Met_next; [exact M| |exact K]. destruct e; cbn [entity_type visible_next]; apply in_or_app; left; exact Hx. }
    induction R as [o H K|e f R IH H1 H2 H3|e f v R IH H1 H2 H3 H4 H5|o v R IH H1 H2 H3|o i R IH H K|i o R IH H K|u o R IH H K].
    + apply Met_start; [|exact K]. apply -> in_rev. apply (in_map object_site). apply roots_root, H.
    + apply (Ent e); [exact IH| |exact H3]. apply in_flat_map. exists f. split; [exact H1|]. apply field_types_in. split; [exact H2|left; reflexivity].
    + apply (Ent e); [exact IH| |exact H5]. apply in_flat_map. exists f. split; [exact H1|]. apply field_types_in. split; [exact H2|right].
      exists v. split; [exact H3|]. split; [exact H4|reflexivity].
    + eapply Met_next; [exact IH| |exact H3]. cbn [visible_next]. apply in_flat_map. exists v. split; [exact H1|]. rewrite H2. left; reflexivity.
    + eapply Met_next; [exact IH| |exact K]. cbn [visible_next]. apply in_or_app; right. apply (in_map (fun i => SType (TInterface i))), H.
    + eapply Met_next; [exact IH| |exact K]. cbn [visible_next]. apply in_or_app; right. apply (in_map object_site), H.
    + eapply Met_next; [exact IH| |exact K]. cbn [visible_next]. apply (in_map object_site), H.
Qed.

Theorem hide_unreachable_at : exists m', hide_unreachable g m = Done m' /\
  (forall t, m' (SType t) = true <-> m (SType t) = true \/ ~ reachable g m t) /\
  (forall s, is_type s = false -> m' s = m s).
Proof.
  unfold hide_unreachable.
  destruct (walk_met g m (visible_next g m) visible_light visible_none (rev (map object_site (roots g)))) as [r [E H]].
  rewrite E. cbn [obind]. eexists. split; [reflexivity|]. split.
  - intro t. cbv beta iota. rewrite orb_true_iff, negb_true_iff.
    assert (K : r (SType t) = true <-> reachable g m t).
    { rewrite H, met_reachable. split; [intros [x [X1 X2]]; injection X1 as <-; exact X2|intro X; exists t; split; [reflexivity|exact X]]. }
    destruct (r (SType t)); split; intros [A|A]; try (left; exact A); try discriminate.
    + exfalso; apply A, K; reflexivity.
    + right. intro X. apply K in X. discriminate.
    + right; reflexivity.
  - intros [t|f|v|x] T; [discriminate| | |]; reflexivity.
Qed.
End Hide.

Lemma reachable_visible : forall m t, reachable g m t -> m (SType t) = false.
Proof. intros m t R; destruct R; assumption. Qed.

(** Hiding what can't be reached doesn't change what can be reached. *)
Lemma reachable_mono : forall m m', (forall t, m' (SType t) = true <-> m (SType t) = true \/ ~ reachable g m t) ->
  (forall s, is_type s = false -> m' s = m s) -> forall t, reachable g m t <-> reachable g m' t.
Proof.
  intros m m' HT HS.
  assert (A : forall t, reachable g m t -> m' (SType t) = false).
  { intros t R. destruct (m' (SType t)) eqn:E; [|reflexivity]. apply HT in E. destruct E as [E|E]; [|contradiction].
    rewrite (reachable_visible m t R) in E. discriminate. }
  assert (A' : forall t, m' (SType t) = false -> m (SType t) = false).
  { intros t E. destruct (m (SType t)) eqn:K; [|reflexivity]. rewrite (proj2 (HT t) (or_introl K)) in E. discriminate. }
  assert (B : forall f, m' (SField f) = m (SField f)) by (intros; apply HS; reflexivity).
  assert (C : forall f, m' (SValue f) = m (SValue f)) by (intros; apply HS; reflexivity).
  intro t. split; intro R.
  - induction R as [o H K|e f R IH H1 H2 H3|e f v R IH H1 H2 H3 H4 H5|o v R IH H1 H2 H3|o i R IH H K|i o R IH H K|u o R IH H K].
    + apply R_root; [exact H|apply A, R_root; assumption].
    + eapply R_field; [exact IH|exact H1|rewrite B; exact H2|apply A; eapply R_field; eassumption].
    + eapply R_arg; [exact IH|exact H1|rewrite B; exact H2|exact H3|rewrite C; exact H4|apply A; eapply R_arg; eassumption].
    + eapply R_input; [exact IH|exact H1|rewrite C; exact H2|apply A; eapply R_input; eassumption].
    + eapply R_interface; [exact IH|exact H|apply A; eapply R_interface; eassumption].
    + eapply R_possible; [exact IH|exact H|apply A; eapply R_possible; eassumption].
    + eapply R_member; [exact IH|exact H|apply A; eapply R_member; eassumption].
  - induction R as [o H K|e f R IH H1 H2 H3|e f v R IH H1 H2 H3 H4 H5|o v R IH H1 H2 H3|o i R IH H K|i o R IH H K|u o R IH H K].
    + apply R_root; [exact H|apply A', K].
    + eapply R_field; [exact IH|exact H1|rewrite <- B; exact H2|apply A', H3].
    + eapply R_arg; [exact IH|exact H1|rewrite <- B; exact H2|exact H3|rewrite <- C; exact H4|apply A', H5].
    + eapply R_input; [exact IH|exact H1|rewrite <- C; exact H2|apply A', H3].
    + eapply R_interface; [exact IH|exact H|apply A', K].
    + eapply R_possible; [exact IH|exact H|apply A', K].
    + eapply R_member; [exact IH|exact H|apply A', K].
Qed.

(** ** The whole *)
Record stages (hide : bool) (m m1 m2 m' : marks) : Prop := MkStages {
  st_accessible : forall s, m1 s = true <-> m s = true /\ ~ builtin g s /\ ~ root g s /\ ~ meta g s;
  st_types : forall t, m2 (SType t) = true <-> m1 (SType t) = true \/ (hide = true /\ ~ reachable g m1 t);
  st_parts : forall s, is_type s = false -> m2 s = m1 s;
  st_final : finalize_inaccessible g m2 = Done m' }.
Theorem finalize_stages : forall hide m, exists m1 m2 m', finalize g hide m = Done m' /\ stages hide m m1 m2 m'.
Proof.
  intros hide m. unfold finalize. destruct (mark_accessible_at m) as [m1 [E1 A1]]. rewrite E1. cbn [obind].
  destruct hide.
  - destruct (hide_unreachable_at m1) as [m2 [E2 [A2 A3]]]. rewrite E2. cbn [obind].
    destruct (finalize_done g W WT m2) as [m' [E3 _]]. exists m1, m2, m'. split; [exact E3|].
    split; [exact A1| |exact A3|exact E3]. intro t. rewrite A2. split; intros [K|K]; try (left; exact K); right; [split; [reflexivity|exact K]|apply K].
  - cbn [obind]. destruct (finalize_done g W WT m1) as [m' [E3 _]]. exists m1, m1, m'. split; [exact E3|].
    split; [exact A1| |reflexivity|exact E3]. intro t. split; [intro K; left; exact K|intros [K|[K _]]; [exact K|discriminate]].
Qed.

(** Introspection stays visible. *)
Hypothesis WM : wf_meta g.
Section Kept.
Variables (hide : bool) (m m1 m2 m' : marks).
Hypothesis St : stages hide m m1 m2 m'.

Lemma meta_m1 : forall s, meta g s -> m1 s = false.
Proof.
  intros s H. destruct (m1 s) eqn:E; [|reflexivity]. apply (st_accessible _ _ _ _ _ St) in E. destruct E as [_ [_ [_ E]]]. contradiction.
Qed.
Lemma query_m1 : m1 (SType (TObject (g_query g))) = false.
Proof.
  destruct (m1 _) eqn:E; [|reflexivity]. apply (st_accessible _ _ _ _ _ St) in E. destruct E as [_ [_ [E _]]]. exfalso; apply E.
  exists (g_query g). split; [reflexivity|left; reflexivity].
Qed.
Lemma meta_reachable : forall s, meta g s ->
  match s with
  | SType t => reachable g m1 t
  | SField f => exists e, reachable g m1 (entity_type e) /\ In f (entity_fields g e)
  | SValue v => (exists e f, reachable g m1 (entity_type e) /\ In f (entity_fields g e) /\ m1 (SField f) = false /\ In v (f_args (field_of g f)))
      \/ exists o, reachable g m1 (TInput o) /\ In v (input_of g o)
  | SEnumValue _ => True
  end.
Proof.
  intros s M. induction M as [f H|f v M IH H|f M IH|v M IH|o f M IH H|o i M IH H|i f M IH H|i o M IH H|u o M IH H|e x M IH H|o v M IH H].
  - exists (EObject (g_query g)). split; [|apply (wt_meta g WT f H)].
    apply R_root; [exists (g_query g); split; [reflexivity|left; reflexivity]|exact query_m1].
  - destruct IH as [e [R F]]. left. exists e, f. split; [exact R|]. split; [exact F|]. split; [apply meta_m1, M|exact H].
  - destruct IH as [e [R F]]. eapply R_field; [exact R|exact F|apply meta_m1, M|apply meta_m1, M_type, M].
  - assert (K : m1 (SType (v_ty (value_of g v))) = false) by (apply meta_m1, M_value_type, M). pose proof (meta_m1 _ M) as K'.
    destruct IH as [[e [f [R [F [F1 F2]]]]]|[o [R F]]]; [eapply R_arg; eassumption|eapply R_input; eassumption].
  - exists (EObject o). split; assumption.
  - eapply R_interface; [exact IH|exact H|apply meta_m1; eapply M_object_interface; eassumption].
  - exists (EInterface i). split; assumption.
  - eapply R_possible; [exact IH|exact H|apply meta_m1; eapply M_interface_object; eassumption].
  - eapply R_member; [exact IH|exact H|apply meta_m1; eapply M_union; eassumption].
  - exact Logic.I.
  - right. exists o. split; assumption.
Qed.
Lemma meta_m2 : forall s, meta g s -> m2 s = false.
Proof.
  intros s M. destruct s as [t|f|v|x]; try (rewrite (st_parts _ _ _ _ _ St) by reflexivity; apply meta_m1, M).
  destruct (m2 (SType t)) eqn:E; [|reflexivity]. apply (st_types _ _ _ _ _ St) in E. destruct E as [E|[_ E]].
  - rewrite (meta_m1 _ M) in E. discriminate.
  - exfalso. apply E. exact (meta_reachable _ M).
Qed.
Lemma query_m2 : m2 (SType (TObject (g_query g))) = false.
Proof.
  destruct (m2 _) eqn:E; [|reflexivity]. apply (st_types _ _ _ _ _ St) in E. destruct E as [E|[_ E]].
  - rewrite query_m1 in E. discriminate.
  - exfalso. apply E. apply R_root; [exists (g_query g); split; [reflexivity|left; reflexivity]|exact query_m1].
Qed.

Lemma some_in : forall A (l : list A), l <> [] -> exists x, In x l.
Proof. intros A [|x l] H; [congruence|exists x; left; reflexivity]. Qed.

Lemma kept_hidden : forall s, hidden g m2 s -> meta g s \/ s = SType (TObject (g_query g)) -> False.
Proof.
  intros s H. induction H as [s H|v L H|v L H IH|v f L P R N H IH|v o L P R N H IH|f L H IH|o L H IH|i L H IH|u L H IH|e L H IH|o L H IH]; intros [M|Q]; try discriminate.
  - rewrite (meta_m2 _ M) in H. discriminate.
  - subst s. rewrite query_m2 in H. discriminate.
  - rewrite (wm_internal g WM v M) in H. discriminate.
  - apply IH. left. apply M_value_type, M.
  - apply IH. left. pose proof (wf_value_parent g W v L) as K. rewrite P in K. destruct K as [_ K]. eapply M_arg; eassumption.
  - apply IH. left. pose proof (wf_value_parent g W v L) as K. rewrite P in K. eapply M_input; eassumption.
  - apply IH. left. apply M_type, M.
  - destruct (some_in _ _ (wm_object g WM o M)) as [f Hf]. apply (IH f Hf). left. eapply M_object_field; eassumption.
  - injection Q as ->. destruct (some_in _ _ (wm_some g WM)) as [f Hf]. apply (IH f (wt_meta g WT f Hf)). left. apply M_field, Hf.
  - destruct (some_in _ _ (wm_interface g WM i M)) as [f Hf]. apply (IH f Hf). left. eapply M_interface_field; eassumption.
  - destruct (some_in _ _ (wm_union g WM u M)) as [f Hf]. apply (IH f Hf). left. eapply M_union; eassumption.
  - destruct (some_in _ _ (wm_enum g WM e M)) as [f Hf]. apply (IH f Hf). left. eapply M_enum; eassumption.
  - destruct (some_in _ _ (wm_input g WM o M)) as [f Hf]. apply (IH f Hf). left. eapply M_input; eassumption.
Qed.
Lemma kept : forall s, meta g s \/ s = SType (TObject (g_query g)) -> m' s = false.
Proof.
  intros s K. destruct (m' s) eqn:E; [|reflexivity]. exfalso. apply (kept_hidden s); [|exact K].
  exact (finalize_sound g W m2 m' (st_final _ _ _ _ _ St) s E).
Qed.
Lemma builtin_kept : forall s, builtin g s -> hide = false -> m' s = false.
Proof.
  intros s B Hh. destruct (m' s) eqn:E; [|reflexivity]. exfalso. pose proof (finalize_sound g W m2 m' (st_final _ _ _ _ _ St) s E) as H.
  destruct B as [n [-> [L I]]]. inversion H as [s0 K|v A B C|v A B C| | | | | | | | ]; subst.
  apply (st_types _ _ _ _ _ St) in K. destruct K as [K|[K _]]; [|congruence].
  apply (st_accessible _ _ _ _ _ St) in K. destruct K as [_ [K _]]. apply K. exists n. split; [reflexivity|split; assumption].
Qed.
Lemma stays_hidden : forall s, m s = true -> ~ builtin g s -> ~ root g s -> ~ meta g s -> m' s = true.
Proof.
  intros s A B C D. destruct (finalize_done g W WT m2) as [x [E F]]. pose proof (st_final _ _ _ _ _ St) as E'. rewrite E in E'. injection E' as ->.
  apply (fi_le _ _ _ F). assert (K : m1 s = true) by (apply (st_accessible _ _ _ _ _ St); tauto).
  destruct (is_type s) eqn:T; [|rewrite (st_parts _ _ _ _ _ St) by exact T; exact K].
  destruct s as [t| | |]; try discriminate. apply (st_types _ _ _ _ _ St). left; exact K.
Qed.
End Kept.
End Graph.
