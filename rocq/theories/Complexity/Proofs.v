From Coq Require Import ZArith NArith List String Bool Lia.
From Verif.Coercion Require Import Json.
From Verif.Complexity Require Import Model Spec.
Import ListNotations.
Local Open Scope Z_scope.

Lemma w64_idem z : w64 (w64 z) = w64 z.
Proof. unfold w64. apply Zmod_mod. Qed.
Lemma w64_add_l a b : w64 (w64 a + b) = w64 (a + b).
Proof. unfold w64. apply Zplus_mod_idemp_l. Qed.
Lemma w64_add_r a b : w64 (a + w64 b) = w64 (a + b).
Proof. unfold w64. apply Zplus_mod_idemp_r. Qed.
Lemma w64_mul_r a b : w64 (a * w64 b) = w64 (a * b).
Proof. unfold w64. apply Zmult_mod_idemp_r. Qed.

Lemma wadd_w a b : wadd (w64 a) (w64 b) = w64 (a + b).
Proof. unfold wadd. rewrite w64_add_l, w64_add_r. reflexivity. Qed.

Lemma sum_app a b : sum (a ++ b) = sum a + sum b.
Proof. induction a; cbn [sum fold_right app] in *; [reflexivity|]. fold (sum (a0 ++ b)). fold (sum a0). unfold sum in IHa |- *. lia. Qed.
Lemma sum_cons x l : sum (x :: l) = x + sum l.
Proof. reflexivity. Qed.
Lemma fold_wadd l : forall acc, fold_left wadd (map w64 l) (w64 acc) = w64 (acc + sum l).
Proof.
  induction l as [|x l IH]; intros acc.
  - cbn. rewrite Z.add_0_r. reflexivity.
  - cbn [map fold_left]. unfold wadd at 2. rewrite w64_add_l, w64_add_r, IH, sum_cons. f_equal. lia.
Qed.
Lemma wsum_map {A} (f g : A -> Z) l : (forall x, In x l -> f x = w64 (g x)) -> wsum (map f l) = w64 (sum (map g l)).
Proof.
  intros H. unfold wsum. replace (map f l) with (map w64 (map g l)).
  - change 0 with (w64 0) at 1. rewrite fold_wadd. reflexivity.
  - rewrite map_map. symmetry. apply map_ext_in. exact H.
Qed.

Lemma scalar_cost v : forall c, cost_for_input_scalar v (w64 c) = w64 (items v * c).
Proof.
  induction v using json_ind'; intros c; cbn [cost_for_input_scalar items]; try (f_equal; lia).
  rewrite (wsum_map _ (fun x => items x * c)).
  - f_equal. clear H. induction l as [|x l IH]; [reflexivity|]. cbn [map]. rewrite !sum_cons, IH. lia.
  - intros x Hx. rewrite Forall_forall in H. apply H, Hx.
Qed.
Lemma input_type_cost t o : or_else o (cost_for_input_type t) =
  match t with IScalarOrEnum c => or_else o (or_else c 0) | IObject c _ => or_else o (or_else c 1) end.
Proof. destruct t as [[]|[]]; reflexivity. Qed.

Lemma object_cost_ok sch v : forall id c, cost_for_object_value sch v id (w64 c) = w64 (object_cost sch v id c).
Proof.
  induction v using json_ind'; intros id c; try reflexivity.
  - cbn [cost_for_object_value object_cost]. apply wsum_map. intros x Hx. rewrite Forall_forall in H. apply H, Hx.
  - cbn [cost_for_object_value object_cost]. revert c. induction fs as [|[k v] fs IH]; intros c.
    + cbn. f_equal. lia.
    + inversion H as [|? ? Hv Hfs]; subst. cbn [fold_left map fst snd] in *. rewrite sum_cons.
      destruct (find_field k (sch id)) as [f|] eqn:E; cbv zeta.
      * rewrite input_type_cost. destruct (if_type f) as [c0|c0 id'] eqn:T.
        -- rewrite scalar_cost, wadd_w, (IH Hfs). f_equal. lia.
        -- rewrite Hv, wadd_w, (IH Hfs). f_equal. lia.
      * rewrite (IH Hfs). f_equal. 
Qed.
Lemma arg_cost_ok sch a : cost_for_argument sch a = w64 (arg_cost sch a).
Proof.
  unfold cost_for_argument, arg_cost. rewrite input_type_cost. cbv zeta.
  destruct (a_type a) as [c|c id]; destruct (a_value a) as [v|]; auto.
  - apply scalar_cost.
  - f_equal. lia.
  - apply object_cost_ok.
Qed.

Lemma fold_max l : forall x, fold_left Z.max l x = fold_right Z.max x l.
Proof.
  induction l as [|y l IH]; intros x; cbn [fold_left fold_right]; [reflexivity|].
  rewrite IH. clear IH. induction l as [|z l IH]; cbn [fold_right]; lia.
Qed.
Lemma filter_map_ext {A B} (f g : A -> option B) l : (forall x, f x = g x) -> filter_map f l = filter_map g l.
Proof. intros H. induction l; simpl; [reflexivity|]. rewrite H, IHl. reflexivity. Qed.

Lemma child_count_ok dflt f i : 0 <= dflt < 2 ^ 32 ->
  match calculate_child_count dflt f i with
  | None => slicing_rule i f = false
  | Some h => slicing_rule i f = true /\ this_field_count h = occurrences dflt i f /\
              forall n, preset_list_size (child_field_count h) n = fixes dflt i f n
  end.
Proof.
  intros Hd. unfold calculate_child_count, slicing_rule, occurrences, fixes.
  destruct i as [n|]; [cbn; auto|]. destruct (fd_list_size f) as [d|]; [|cbn; auto].
  cbv zeta. rewrite Z.mod_small by lia.
  assert (A : forall m, m = announced dflt f d ->
     let h := match sized_fields d with [] => ThisFieldIsTheList m | _ :: _ => ChildFieldsAreTheList m (sized_fields d) end in
     this_field_count h = match sized_fields d with [] => announced dflt f d | _ => 1 end /\
     forall n, preset_list_size (child_field_count h) n =
       (if existsb (N.eqb n) (sized_fields d) then Some (announced dflt f d) else None)).
  { intros m ->. destruct (sized_fields d); cbn; auto. }
  destruct (slicing_arguments d) as [|s0 sl] eqn:S.
  - specialize (A (match assumed_size d with Some n => n | None => dflt end)).
    assert (E : match assumed_size d with Some n => n | None => dflt end = announced dflt f d).
    { unfold announced. rewrite S. destruct (assumed_size d); reflexivity. }
    specialize (A E). destruct (sized_fields d); cbn in *; auto.
  - change (filter_map _ (s0 :: sl)) with (filter_map (slice_value f) (s0 :: sl)).
    replace (filter_map (slice_value f) (s0 :: sl)) with (slices f d) by (unfold slices; rewrite S; reflexivity).
    destruct (require_one_slicing_argument d) eqn:R; cbn [andb orb negb].
    + destruct (Nat.eqb (List.length (slices f d)) 1) eqn:L; cbn [negb]; [|reflexivity].
      specialize (A (match iter_max (slices f d) with Some n => n | None => dflt end)).
      assert (E : match iter_max (slices f d) with Some n => n | None => dflt end = announced dflt f d).
      { unfold announced. rewrite S. destruct (slices f d); cbn [iter_max]; [reflexivity|apply fold_max]. }
      specialize (A E). destruct (sized_fields d); cbn in *; auto.
    + specialize (A (match iter_max (slices f d) with Some n => n | None => dflt end)).
      assert (E : match iter_max (slices f d) with Some n => n | None => dflt end = announced dflt f d).
      { unfold announced. rewrite S. destruct (slices f d); cbn [iter_max]; [reflexivity|apply fold_max]. }
      specialize (A E). destruct (sized_fields d); cbn in *; auto.
Qed.

Section SelInd.
  Variable P : sel -> Prop.
  Hypothesis HT : P STypename.
  Hypothesis HD : forall f sub, Forall P sub -> P (SData f sub).
  Fixpoint sel_ind' (s : sel) : P s :=
    match s with
    | STypename => HT
    | SData f sub => HD f sub ((fix go l : Forall P l :=
        match l with [] => Forall_nil _ | x :: l' => Forall_cons _ (sel_ind' x) (go l') end) sub)
    end.
End SelInd.

Section Cost.
Variable sch : input_schema.
Variable dflt : Z.
Hypothesis Hd : 0 <= dflt < 2 ^ 32.

Lemma entries_ext s : forall k inh inh', (forall n, inh n = inh' n) -> entries sch dflt k inh s = entries sch dflt k inh' s.
Proof. intros k inh inh' H. destruct s; cbn; [reflexivity|]. rewrite H. reflexivity. Qed.
Lemma well_sliced_ext s inh inh' : (forall n, inh n = inh' n) -> well_sliced dflt inh s = well_sliced dflt inh' s.
Proof. intros H. destruct s; cbn; [reflexivity|]. rewrite H. reflexivity. Qed.
Lemma entries_scale s : forall k inh, sum (entries sch dflt k inh s) = k * sum (entries sch dflt 1 inh s).
Proof.
  induction s using sel_ind'; intros k inh; cbn [entries].
  - unfold sum; simpl; lia.
  - set (i := inh (fd_name f)). set (o := occurrences dflt i f). cbv zeta. rewrite !sum_cons.
    assert (E : forall k, sum (flat_map (entries sch dflt k (fixes dflt i f)) sub) =
                k * sum (flat_map (entries sch dflt 1 (fixes dflt i f)) sub)).
    { intros k0. induction sub as [|s sub IH]; [unfold sum; simpl; lia|].
      inversion H; subst. cbn [flat_map]. rewrite !sum_app, IH by assumption.
      rewrite (H2 k0). lia. }
    rewrite (E (k * o)), (E (1 * o)). lia.
Qed.
Lemma flat_scale l : forall k inh, sum (flat_map (entries sch dflt k inh) l) = k * sum (flat_map (entries sch dflt 1 inh) l).
Proof.
  induction l as [|s l IH]; intros k inh; cbn [flat_map]; [unfold sum; simpl; lia|].
  rewrite !sum_app, IH, entries_scale. lia.
Qed.
Lemma sum_flat {A} (f : A -> list Z) l : sum (flat_map f l) = sum (map (fun x => sum (f x)) l).
Proof. induction l; cbn [flat_map map]; [reflexivity|]. rewrite sum_app, sum_cons, IHl. reflexivity. Qed.

Lemma collect_ok {A} (c : A -> option Z) (ok : A -> bool) (g : A -> Z) l :
  (forall x, In x l -> c x = if ok x then Some (w64 (g x)) else None) ->
  match collect (map c l) with
  | None => forallb ok l = false
  | Some r => forallb ok l = true /\ r = map (fun x => w64 (g x)) l
  end.
Proof.
  induction l as [|x l IH]; intros H; cbn [map collect forallb]; [auto|].
  rewrite (H x) by (left; reflexivity). destruct (ok x); cbn [andb]; [|reflexivity].
  specialize (IH (fun y Hy => H y (or_intror Hy))).
  destruct (collect (map c l)); [|exact IH]. destruct IH as [-> ->]. auto.
Qed.

Lemma sel_ok s : forall mult, sel_complexity sch dflt mult s =
  if well_sliced dflt (preset_list_size mult) s
  then Some (w64 (sum (entries sch dflt 1 (preset_list_size mult) s))) else None.
Proof.
  induction s using sel_ind'; intros mult; cbn [sel_complexity well_sliced entries]; [reflexivity|].
  cbv zeta. set (i := preset_list_size mult (fd_name f)).
  pose proof (child_count_ok dflt f i Hd) as C.
  destruct (calculate_child_count dflt f i) as [h|]; [|rewrite C; reflexivity].
  destruct C as (C1 & C2 & C3). rewrite C1. cbn [andb].
  rewrite Forall_forall in H.
  assert (W : forall x, In x sub -> sel_complexity sch dflt (child_field_count h) x =
     if well_sliced dflt (fixes dflt i f) x then Some (w64 (sum (entries sch dflt 1 (fixes dflt i f) x))) else None).
  { intros x Hx. rewrite (H x Hx). rewrite (well_sliced_ext x _ _ C3), (entries_ext x 1 _ _ C3). reflexivity. }
  pose proof (collect_ok _ _ _ sub W) as K.
  destruct (collect _) as [r|]; [|rewrite K; reflexivity]. destruct K as [-> ->].
  f_equal. rewrite C2.
  rewrite (wsum_map (cost_for_argument sch) (arg_cost sch)) by (intros; apply arg_cost_ok).
  rewrite (wsum_map _ (fun x => sum (entries sch dflt 1 (fixes dflt i f) x)) sub) by reflexivity.
  rewrite <- sum_flat, !wadd_w. unfold wmul. rewrite w64_mul_r. f_equal.
  rewrite sum_cons, (flat_scale _ (1 * occurrences dflt i f)). unfold own_cost, cost_for_output_type.
  replace (match ty_cost f with Some c => c | None => if ty_composite f then 1 else 0 end)
    with (or_else (ty_cost f) (if ty_composite f then 1 else 0)) by (destruct (ty_cost f); reflexivity).
  lia.
Qed.

Lemma calculate_ok mutation ss : calculate_complexity sch dflt mutation ss =
  if sliced_ok dflt ss then Some (w64 (exact_cost sch dflt mutation ss)) else None.
Proof.
  unfold calculate_complexity, selection_set_complexity, sliced_ok, exact_cost.
  assert (W : forall x, In x ss -> sel_complexity sch dflt None x =
     if well_sliced dflt (fun _ => None) x then Some (w64 (sum (entries sch dflt 1 (fun _ => None) x))) else None).
  { intros x _. rewrite sel_ok. reflexivity. }
  pose proof (collect_ok _ _ _ ss W) as K.
  destruct (collect _) as [r|]; [|rewrite K; reflexivity]. destruct K as [-> ->].
  rewrite (wsum_map _ (fun x => sum (entries sch dflt 1 (fun _ => None) x)) ss) by reflexivity.
  rewrite <- sum_flat. unfold wadd. rewrite w64_add_r. reflexivity.
Qed.
End Cost.

(** Height. *)
Section HselInd.
  Variable P : hsel -> Prop.
  Hypothesis H : forall d sub, Forall P sub -> P (HSel d sub).
  Fixpoint hsel_ind' (s : hsel) : P s :=
    match s with HSel d sub => H d sub ((fix go l : Forall P l :=
        match l with [] => Forall_nil _ | x :: l' => Forall_cons _ (hsel_ind' x) (go l') end) sub) end.
End HselInd.

(** [grow seen new seen' k]: [seen'] is [seen] plus the elements of [new], [k] of which were not in it. *)
Definition grow (seen new seen' : list N) (k : Z) : Prop :=
  NoDup seen' /\ (forall x, In x seen' <-> In x seen \/ In x new) /\
  Z.of_nat (List.length seen') = Z.of_nat (List.length seen) + k.
Lemma grow_app s a s1 k1 b s2 k2 : grow s a s1 k1 -> grow s1 b s2 k2 -> grow s (a ++ b) s2 (k1 + k2).
Proof.
  intros (A & B & C) (D & E & F). split; [exact D|]. split; [|lia].
  intros x. rewrite E, B, in_app_iff. tauto.
Qed.
Lemma w16_add a b : w16 (w16 a + w16 b) = w16 (a + b).
Proof. unfold w16. symmetry. apply Zplus_mod. Qed.
Definition hstep (acc : list N * Z) (x : hsel) : list N * Z :=
  let '(sn, h) := height_sel (fst acc) x in (sn, w16 (snd acc + h)).
Definition hgood (s : hsel) : Prop := forall seen, NoDup seen ->
  exists seen' k, height_sel seen s = (seen', w16 k) /\ grow seen (definitions s) seen' k.
Lemma height_fold l : Forall hgood l -> forall sn k0, NoDup sn ->
  exists sn' k, fold_left hstep l (sn, w16 k0) = (sn', w16 (k0 + k)) /\ grow sn (flat_map definitions l) sn' k.
Proof.
  induction l as [|s l IH]; intros F sn k0 N.
  - exists sn, 0. cbn. rewrite Z.add_0_r. split; [reflexivity|]. split; [exact N|]. split; [simpl; tauto|lia].
  - inversion F as [|? ? F1 F2]; subst. destruct (F1 sn N) as (s1 & k1 & E1 & G1).
    destruct (IH F2 s1 (k0 + k1) (proj1 G1)) as (s2 & k2 & E2 & G2).
    exists s2, (k1 + k2). split; [|cbn [flat_map]; eapply grow_app; eauto].
    cbn [fold_left]. replace (hstep (sn, w16 k0) s) with (s1, w16 (k0 + k1)).
    + rewrite E2. f_equal. f_equal. lia.
    + unfold hstep. cbn [fst snd]. rewrite E1, w16_add. reflexivity.
Qed.
Lemma height_sel_ok s : hgood s.
Proof.
  induction s using hsel_ind'; intros seen N. destruct d as [id|]; cbn [height_sel definitions].
  2:{ exists seen, 0. split; [reflexivity|]. split; [exact N|]. split; [simpl; tauto|lia]. }
  fold hstep. destruct (existsb (N.eqb id) seen) eqn:E.
  - destruct (height_fold sub H seen 0 N) as (s2 & k2 & E2 & G2). change (w16 0) with 0 in E2.
    change (fold_left _ sub (seen, 0)) with (fold_left hstep sub (seen, 0)). rewrite E2.
    exists s2, k2. split.
    + f_equal. rewrite Z.add_0_l. unfold w16. rewrite Zmod_mod. reflexivity.
    + change (id :: flat_map definitions sub) with ([id] ++ flat_map definitions sub).
      change k2 with (0 + k2). eapply grow_app; [|exact G2].
      split; [exact N|]. split; [|lia]. intros x. apply existsb_exists in E. destruct E as (y & Y1 & Y2).
      apply N.eqb_eq in Y2. subst y. simpl. intuition congruence.
  - assert (Nid : ~ In id seen).
    { intros I. assert (existsb (N.eqb id) seen = true) by (apply existsb_exists; exists id; split; [exact I|apply N.eqb_refl]). congruence. }
    destruct (height_fold sub H (id :: seen) 0) as (s2 & k2 & E2 & G2); [constructor; auto|]. change (w16 0) with 0 in E2.
    change (fold_left _ sub (id :: seen, 0)) with (fold_left hstep sub (id :: seen, 0)). rewrite E2.
    exists s2, (1 + k2). split.
    + f_equal. change 1 with (w16 1) at 1. rewrite w16_add. reflexivity.
    + change (id :: flat_map definitions sub) with ([id] ++ flat_map definitions sub).
      eapply grow_app; [|exact G2]. split; [constructor; auto|]. split; [simpl; intuition|].
      cbn [List.length]. lia.
Qed.
Lemma height_ok ss : height ss = w16 (Z.of_nat (distinct ss)).
Proof.
  destruct (height_fold ss) with (sn := @nil N) (k0 := 0) as (sn & k & E & (N & I & L)).
  { apply Forall_forall. intros; apply height_sel_ok. } { constructor. }
  change (w16 0) with 0 in E. unfold height.
  change (fold_left _ ss ([], 0)) with (fold_left hstep ss ([], 0)). rewrite E. cbn [snd]. f_equal. cbn [List.length] in L.
  replace (0 + k) with (Z.of_nat (List.length sn)) by lia. f_equal. unfold distinct.
  apply Nat.le_antisymm; apply NoDup_incl_length; auto using NoDup_nodup.
  - intros x Hx. apply nodup_In. apply I in Hx. destruct Hx as [[]|Hx]; exact Hx.
  - intros x Hx. apply nodup_In in Hx. apply I. auto.
Qed.
