(** Facts about the variables of an operation and the places they are used at. *)
From Coq Require Import ZArith QArith String List Bool Lia Arith.
From Verif.Wrapping Require Import Spec Proofs.
From Verif.Coercion Require Import Json Model Binding Properties.
From Verif.Coercion Require Spec Proofs.
From Verif.Arguments Require Import Model Spec Facts AcceptProps UseFacts SentFacts.
Import ListNotations.
Local Open Scope list_scope.
Local Open Scope nat_scope.

Lemma recorded_wrapping p : variable_wrapping (p_ty p) (option_map (fun v => negb (l_is_null v)) (p_default p)) =
  if depth (recorded p) <=? 10 then Some (enc (recorded p)) else None.
Proof.
  unfold variable_wrapping, recorded. rewrite convert_type_enc. set (t := p_ty p).
  assert (K : match (if depth t <=? 10 then Some (enc t) else None) with
              | Some w => if W.is_list w then W.list_non_null w else Some (W.non_null W.new) | None => None end =
              let u := if listp t then ListOf t true else make_required t in
              if depth u <=? 10 then Some (enc u) else None).
  { cbn zeta. destruct (Nat.leb_spec (depth t) 10) as [D|D].
    - rewrite is_list_enc by auto. destruct t as [r|e r]; cbn [listp].
      + destruct r; reflexivity.
      + pose proof (g_step _ (Verif.Wrapping.Proofs.good_all (ListOf e r) D) W.OpListNonNull) as St. cbv zeta in St.
        change (sstep (ListOf e r) (sop_of W.OpListNonNull)) with (ListOf (ListOf e r) true) in St. exact St.
    - destruct t as [r|e r]; [cbn in D; lia|]. cbn [listp depth] in *. destruct (Nat.leb_spec (S (S (depth e))) 10); [lia|reflexivity]. }
  destruct (p_default p) as [v|]; cbn [option_map].
  - destruct v; cbn [l_is_null negb]; try exact K. destruct (depth t <=? 10); reflexivity.
  - destruct (depth t <=? 10); reflexivity.
Qed.

Section Ops.
Variable sch : gschema.
Hypothesis Hsch : schema_ok sch.

Definition bound_var (p : pvar) (v : vdef) : Prop :=
  v_name v = p_name p /\ p_type p = Some (v_type v) /\ depth (recorded p) <= 10 /\ v_wrapping v = enc (recorded p) /\
  match p_default p with
  | None => v_default v = None
  | Some l => exists q, v_default v = Some q /\ coerce_query_value sch [] true (v_type v) (v_wrapping v) l = Ok q
  end.
Lemma definitions_inv ps : forall seen vars, bind_variable_definitions sch ps seen = Ok (vars, false) ->
  Forall2 bound_var ps vars /\ NoDup (map p_name ps) /\ (forall p, In p ps -> ~ In (p_name p) seen).
Proof.
  induction ps as [|p ps IH]; intros seen vars; cbn [bind_variable_definitions].
  - intros H. injection H as <-. split; [constructor|]. split; [constructor|]. intros p [].
  - destruct (existsb (String.eqb (p_name p)) seen) eqn:Ex; [discriminate|].
    assert (Ns : ~ In (p_name p) seen).
    { intros Hin. assert (T : existsb (String.eqb (p_name p)) seen = true) by (apply existsb_exists; exists (p_name p); split; [auto|apply String.eqb_refl]). congruence. }
    assert (Fin : forall v vars', bound_var p v -> bind_variable_definitions sch ps (p_name p :: seen) = Ok (vars', false) ->
              Forall2 bound_var (p :: ps) (v :: vars') /\ NoDup (map p_name (p :: ps)) /\ (forall p0, In p0 (p :: ps) -> ~ In (p_name p0) seen)).
    { intros v vars' Bv H. destruct (IH _ _ H) as (A & B & C). split; [constructor; auto|]. split.
      - cbn [map]. constructor; [|auto]. intros Hin. apply in_map_iff in Hin as (p' & E & Hp'). apply (C p' Hp'). left; auto.
      - intros p0 [<-|Hp0]; [auto|]. intros Hin. apply (C p0 Hp0). right; auto. }
    destruct (p_type p) as [t|] eqn:Ty.
    + rewrite recorded_wrapping. destruct (Nat.leb_spec (depth (recorded p)) 10) as [D|D]; [|discriminate].
      destruct (p_default p) as [l|] eqn:Df.
      * destruct (coerce_query_value sch [] true t (enc (recorded p)) l) as [q| |] eqn:Q; [| |discriminate].
        -- intros H. apply Proofs.bind_ok in H as ([out err] & H & E). injection E as <- ->. apply Fin; [|auto].
           split; [reflexivity|]. split; [exact Ty|]. split; [exact D|]. split; [reflexivity|]. rewrite Df. exists q. auto.
        -- intros H. apply Proofs.bind_ok in H as ([out err] & H & E). discriminate.
      * intros H. apply Proofs.bind_ok in H as ([out err] & H & E). injection E as <- ->. apply Fin; [|auto].
        split; [reflexivity|]. split; [exact Ty|]. split; [exact D|]. split; [reflexivity|]. rewrite Df. reflexivity.
    + intros H. apply Proofs.bind_ok in H as ([out err] & H & E). discriminate.
Qed.
Lemma definitions_ok ps vars : Forall2 bound_var ps vars -> forall seen, NoDup (map p_name ps) ->
  (forall p, In p ps -> ~ In (p_name p) seen) -> bind_variable_definitions sch ps seen = Ok (vars, false).
Proof.
  induction 1 as [|p v ps vars (N1 & Ty & D & Wv & Df) F IH]; intros seen Nd Ns; [reflexivity|]. cbn [bind_variable_definitions].
  replace (existsb (String.eqb (p_name p)) seen) with false.
  2:{ symmetry. apply not_true_is_false. intros H. apply existsb_exists in H as (x & Hin & E). apply String.eqb_eq in E. subst x.
      apply (Ns p); [left|]; auto. }
  cbn [map] in Nd. inversion Nd as [|? ? Nin Nd']; subst.
  rewrite Ty, recorded_wrapping, (proj2 (Nat.leb_le _ _) D).
  assert (IH' : bind_variable_definitions sch ps (p_name p :: seen) = Ok (vars, false)).
  { apply IH; auto. intros p0 H0 [E|Hin]; [|apply (Ns p0); [right|]; auto]. apply Nin. rewrite E. apply in_map. auto. }
  rewrite IH'. destruct v as [n t w d]. cbn [v_name v_type v_wrapping v_default] in *. subst n w.
  destruct (p_default p) as [l|].
  - destruct Df as (q & -> & ->). reflexivity.
  - subst d. reflexivity.
Qed.

Lemma bound_names ps vars : Forall2 bound_var ps vars -> map v_name vars = map p_name ps.
Proof. induction 1 as [|p v ps vars (N1 & _) F IH]; [reflexivity|]. cbn [map]. congruence. Qed.
Lemma bound_denotes p v : bound_var p v -> denotes (v_wrapping v) (recorded p).
Proof. intros (_ & _ & D & -> & _). apply denotes_iff. auto. Qed.
Lemma bound_vars_ok ps vars : Forall2 bound_var ps vars -> NoDup (map p_name ps) -> vars_ok vars.
Proof.
  intros F Nd. split; [rewrite (bound_names _ _ F); auto|]. apply Forall_forall. intros v Hv.
  destruct (forall2_in_r _ _ _ _ F Hv) as (p & _ & B). exists (recorded p). apply bound_denotes. auto.
Qed.
Lemma declared_usable ps vars : Forall2 bound_var ps vars -> forall x t u, usable_var vars false x t u <-> declared ps x t u.
Proof.
  intros F x t u. split.
  - intros (_ & v & d & Hv & N1 & Ty & Dv & U). destruct (forall2_in_r _ _ _ _ F Hv) as (p & Hp & B).
    assert (d = recorded p) by (eapply denotes_fun; [eauto|apply bound_denotes; auto]). subst d.
    destruct B as (B1 & B2 & _). exists p. split; [auto|]. split; [congruence|]. split; [congruence|]. auto.
  - intros (p & Hp & N1 & Ty & U). split; [reflexivity|]. destruct (forall2_in_l _ _ _ _ F Hp) as (v & Hv & B).
    exists v, (recorded p). pose proof (bound_denotes _ _ B). destruct B as (B1 & B2 & _).
    split; [auto|]. split; [congruence|]. split; [congruence|]. auto.
Qed.
Lemma fits_in_iff U U' : (forall x t u, U x t u <-> U' x t u) -> forall f v, fits_in sch U f v <-> fits_in sch U' f v.
Proof. intros H f v. split; apply fits_mono; intros x t u; apply H. Qed.

(** The default of a variable. *)
Lemma default_iff p v t : type_ok sch t -> depth (recorded p) <= 10 ->
  ((exists q, coerce_query_value sch [] true t (enc (recorded p)) v = Ok q) <-> fits_at sch (fun _ _ _ => False) t (recorded p) v).
Proof.
  intros Ht D. pose (f := {| a_name := ""; a_inaccessible := false; a_type := t; a_wrapping := enc (recorded p); a_default := None |}).
  assert (Tf : type_of f (recorded p)) by (apply denotes_iff; auto).
  assert (Df : def_ok sch f) by (split; [auto|split; [eauto|discriminate]]).
  pose proof (C67_default_accepted_iff sch f v Hsch Df) as K. cbn [a_type a_wrapping f] in K. rewrite K. split.
  - intros F. exists f. auto.
  - intros (f' & Et & Tf' & F). inversion F as [f0 u v0 T0 F0|f0 u v0 T0 L N1 N2 N3 F0]; subst.
    + assert (u = recorded p) by (eapply denotes_fun; eauto). subst u. apply (ff_direct _ _ f (recorded p)); [exact Tf|exact F0].
    + assert (u = recorded p) by (eapply denotes_fun; eauto). subst u. apply (ff_single _ _ f (recorded p)); auto.
Qed.

Section Sites.
Variable vars : list vdef.
Variable boolean : nat.
Hypothesis Hvars : vars_ok vars.
Hypothesis Hbool : types sch boolean = DScalar SBoolean.
Notation U := (usable_var vars false).
Definition bdef : adef := {| a_name := ""; a_inaccessible := false; a_type := boolean; a_wrapping := enc (Named true); a_default := None |}.
Lemma bdef_type : type_of bdef (Named true). Proof. apply denotes_int. Qed.
Lemma bdef_ok : def_ok sch bdef.
Proof. split; [unfold type_ok; cbn [a_type bdef]; rewrite Hbool; exact Logic.I|]. split; [exists (Named true); exact bdef_type|discriminate]. Qed.
Lemma bdef_at v : fits_at sch U boolean (Named true) v <-> fits_in sch U bdef v.
Proof.
  split.
  - intros (f' & Et & Tf' & F). pose proof bdef_type as Tb. inversion F as [f0 u v0 T0 F0|f0 u v0 T0 L N1 N2 N3 F0]; subst.
    + assert (u = Named true) by (eapply denotes_fun; eauto). subst u. apply (ff_direct _ _ bdef (Named true)); [exact Tb|rewrite Et in F0; exact F0].
    + assert (u = Named true) by (eapply denotes_fun; eauto). subst u. discriminate.
  - intros F. exists bdef. split; [reflexivity|]. split; [exact bdef_type|auto].
Qed.

Definition bound_site (s : site) (b : bound) : Prop :=
  match s, b with
  | SField defs args, BField a => bind_arguments sch vars false defs args = Ok (a, false)
  | SCondition args, BCondition c => bind_condition sch vars false boolean args = Ok (c, false)
  | _, _ => False
  end.
Lemma sites_iff sites : forall out, bind_sites sch vars boolean sites = Ok (out, false) <-> Forall2 bound_site sites out.
Proof.
  induction sites as [|s sites IH]; intros out; cbn [bind_sites].
  - split; [intros H; injection H as <-; constructor|]. intros H. inversion H; reflexivity.
  - split.
    + destruct s as [defs args|args]; intros H; apply Proofs.bind_ok in H as ([a e] & Ha & H); apply Proofs.bind_ok in H as ([o e'] & Ho & H);
        injection H as <- E; apply orb_false_iff in E as [-> ->]; constructor; try exact Ha; apply IH; auto.
    + intros H. inversion H as [|? b ? out' Hb F]; subst. apply IH in F.
      destruct s as [defs args|args], b as [a|c]; cbn [bound_site] in Hb; try contradiction; rewrite Hb; cbn [bind]; rewrite F; reflexivity.
Qed.
Lemma condition_iff args c : bind_condition sch vars false boolean args = Ok (c, false) <->
  exists k v rest q, args = (k, v) :: rest /\ c = Some q /\ coerce_query_value sch vars false boolean (enc (Named true)) v = Ok q.
Proof.
  unfold bind_condition. change (W.non_null W.new) with (enc (Named true)). split.
  - destruct args as [|[k v] rest]; [discriminate|].
    destruct (coerce_query_value sch vars false boolean (enc (Named true)) v) as [q| |] eqn:E; try discriminate.
    intros H. injection H as <-. exists k, v, rest, q. auto.
  - intros (k & v & rest & q & -> & -> & ->). reflexivity.
Qed.
Lemma site_accepted s : (forall defs args, s = SField defs args -> defs_ok sch defs) ->
  ((exists b, bound_site s b) <->
   match s with
   | SField defs args => fields_fit (fits_in sch U) defs args
   | SCondition args => exists k v rest, args = (k, v) :: rest /\ fits_at sch U boolean (Named true) v
   end).
Proof.
  intros Hd. destruct s as [defs args|args].
  - rewrite <- (C67_arguments_accepted_iff sch vars defs args Hsch Hvars (Hd _ _ eq_refl)). split.
    + intros [[a|c] H]; [eauto|destruct H].
    + intros [a H]. exists (BField a). auto.
  - split.
    + intros [[a|c] H]; [destruct H|]. cbn [bound_site] in H. apply condition_iff in H as (k & v & rest & q & -> & _ & Q).
      exists k, v, rest. split; [auto|]. apply bdef_at. destruct Hvars as [Nv Wv].
      apply (cqv_iff sch vars false (fun _ => None) Hsch Nv Wv bdef v bdef_ok). exists q. exact Q.
    + intros (k & v & rest & -> & F). apply bdef_at in F. destruct Hvars as [Nv Wv].
      apply (cqv_iff sch vars false (fun _ => None) Hsch Nv Wv bdef v bdef_ok) in F as [q Q].
      exists (BCondition (Some q)). apply condition_iff. exists k, v, rest, q. auto.
Qed.
Lemma site_uses s b : (forall defs args, s = SField defs args -> defs_ok sch defs) -> bound_site s b ->
  forall id o, In (id, o) (bound_uses b) <-> exists x, refers vars x id /\ site_mentions sch boolean s x o.
Proof.
  intros Hd Hb id o. destruct s as [defs args|args], b as [a|c]; cbn [bound_site] in Hb; try contradiction; cbn [bound_uses site_mentions].
  - rewrite (arguments_used sch vars false Hsch Hvars defs args a (Hd _ _ eq_refl) Hb). split.
    + intros (f & v & x & ? & ? & ? & ? & ?). exists x. split; [auto|]. exists f, v. auto.
    + intros (x & ? & f & v & ? & ? & ? & ?). exists f, v, x. auto.
  - apply condition_iff in Hb as (k & v & rest & q & -> & -> & Q).
    assert (Ht : type_ok sch boolean) by (unfold type_ok; rewrite Hbool; exact Logic.I).
    rewrite (used_in sch vars false v _ _ _ (used_all sch vars false Hsch v) Ht Q id o). split.
    + intros (x & R & W). exists x. split; [auto|]. exists k, v, rest. auto.
    + intros (x & R & k' & v' & rest' & E & W). injection E as <- <- <-. eauto.
Qed.
Lemma sites_uses sites out : (forall defs args, In (SField defs args) sites -> defs_ok sch defs) -> Forall2 bound_site sites out ->
  forall id o, In (id, o) (flat_map bound_uses out) <-> exists x, refers vars x id /\ mentioned sch boolean sites x o.
Proof.
  intros Hd F id o. rewrite in_flat_map. split.
  - intros (b & Hb & Hu). destruct (forall2_in_r _ _ _ _ F Hb) as (s & Hs & B).
    assert (K : forall defs args, s = SField defs args -> defs_ok sch defs) by (intros defs args ->; eapply Hd; eauto).
    destruct (proj1 (site_uses s b K B id o) Hu) as (x & R & M). exists x. split; [auto|]. exists s. auto.
  - intros (x & R & s & Hs & M). destruct (forall2_in_l _ _ _ _ F Hs) as (b & Hb & B). exists b. split; [auto|].
    assert (K : forall defs args, s = SField defs args -> defs_ok sch defs) by (intros defs args ->; eapply Hd; eauto).
    apply (proj2 (site_uses s b K B id o)). eauto.
Qed.
End Sites.

Lemma position_nth vars : NoDup (map v_name vars) -> forall id v, nth_error vars id = Some v -> position (v_name v) vars 0 = Some (id, v).
Proof.
  intros Nd id v H. destruct (position_some (v_name v) vars v (nth_error_In _ _ H) eq_refl 0) as [[j v'] P]. rewrite P.
  apply position_spec in P as (N1 & _ & P). rewrite Nat.sub_0_r in P.
  assert (E : j = id) by (eapply (nodup_nth v_name vars); eauto). subst j. congruence.
Qed.
Lemma refers_nth vars : NoDup (map v_name vars) -> forall x id, refers vars x id <-> exists v, nth_error vars id = Some v /\ v_name v = x.
Proof.
  intros Nd x id. split.
  - intros [v P]. apply position_spec in P as (N1 & _ & P). rewrite Nat.sub_0_r in P. eauto.
  - intros (v & H & <-). exists v. apply position_nth; auto.
Qed.
End Ops.
