(** Property C69: what is sent for the arguments of a field is accepted by their types. *)
From Coq Require Import ZArith QArith String List Bool Lia Arith.
From Verif.Wrapping Require Import Spec Proofs.
From Verif.Coercion Require Import Json Model Binding Properties.
From Verif.Coercion Require Spec Proofs.
From Verif.Arguments Require Import Model Spec Facts AcceptProps UseFacts SentFacts OperationFacts OperationProps.
Import ListNotations.
Local Open Scope list_scope.
Local Open Scope nat_scope.

(** Variables written in a literal that fits may be used. *)
Lemma fits_written sch U : schema_ok sch -> forall v x o,
  (forall d, fits_named sch U d v -> written sch d v x o -> exists t u, U x t u) /\
  (forall t u, fits sch U t u v -> written sch (types sch t) v x o -> exists t u, U x t u) /\
  (forall f, fits_in sch U f v -> written sch (types sch (a_type f)) v x o -> exists t u, U x t u).
Proof.
  intros Hs v x o. induction v as [|z|m e|s|b|s|l IH|fs IH|y] using lit_ind'.
  1-6: split; [|split]; intros; match goal with W : written _ _ _ _ _ |- _ => inversion W end.
  - assert (A : forall d, fits_named sch U d (LList l) -> written sch d (LList l) x o -> exists t u, U x t u).
    { intros d F W. inversion F; subst. exfalso. eapply custom_written; eauto. }
    assert (B : forall t u, fits sch U t u (LList l) -> written sch (types sch t) (LList l) x o -> exists t u, U x t u).
    { intros t u F W. inversion F as [| |t0 e r l0 Fl|t0 r v N1 N2 Fn]; subst; [|eauto].
      inversion W as [|d l0 v x0 o0 Hin W'| |]; subst.
      destruct (proj1 (Forall_forall _ _) IH v Hin) as (_ & H2 & _). apply (H2 t e); [|exact W'].
      apply (proj1 (Forall_forall _ _) Fl v Hin). }
    split; [exact A|]. split; [exact B|]. intros f F W. inversion F; subst; eauto.
  - assert (A : forall d, fits_named sch U d (LObj fs) -> written sch d (LObj fs) x o -> exists t u, U x t u).
    { intros d F W. inversion F as [| | | | | |v0 P| |id defs f v Eo Hf Vf Fv|id defs fs0 Eo Ff]; subst.
      - exfalso. eapply custom_written; eauto.
      - destruct (Hs _ _ _ Eo) as [[_ Nd] _].
        assert (Hin' : forall f' v', In f' defs -> In (a_name f', v') [(a_name f, v)] -> f' = f /\ v' = v).
        { intros f' v' Hf' [E|[]]. injection E as En ->. split; [|auto]. eapply nodup_def; eauto. }
        inversion W as [| |id' defs' f' fs' x' Eo' Hf' Vf' Hin|id' one' defs' f' fs' v' x' o' Eo' Hf' Vf' Hin Nv' W']; subst;
          (assert (defs' = defs) by congruence; subst defs'; destruct (Hin' _ _ Hf' Hin) as [-> <-]).
        + inversion IH as [|? ? (_ & _ & Hv) _]; subst. cbn [snd] in Hv. inversion Fv as [f0 u v0 T0 F0|f0 u v0 T0 L0 N1 N2 N3 F0]; subst; [|congruence].
          inversion F0; subst; [eauto|congruence].
        + inversion IH as [|? ? (_ & _ & Hv) _]; subst. eapply Hv; eauto.
      - destruct (Hs _ _ _ Eo) as [[_ Nd] _].
        inversion W as [| |id' defs' f' fs' x' Eo' Hf' Vf' Hin|id' one' defs' f' fs' v' x' o' Eo' Hf' Vf' Hin Nv' W']; subst; [congruence|].
        assert (defs' = defs) by congruence; subst defs'. destruct Ff as (_ & Fit & _). destruct (Fit _ _ Hin) as (f & Hf & Vf & En & Fv).
        assert (f = f') by (eapply nodup_def; eauto). subst f'. eapply (proj1 (Forall_forall _ _) IH _ Hin); eauto. }
    assert (B : forall t u, fits sch U t u (LObj fs) -> written sch (types sch t) (LObj fs) x o -> exists t u, U x t u).
    { intros t u F W. inversion F; subst. eauto. }
    split; [exact A|]. split; [exact B|]. intros f F W. inversion F; subst; eauto.
  - assert (B : forall t u, fits sch U t u (LVar y) -> written sch (types sch t) (LVar y) x o -> exists t u, U x t u).
    { intros t u F W. inversion W; subst. inversion F; subst; [eauto|congruence]. }
    split; [intros d F W; inversion W; subst; inversion F; subst; exfalso; inversion H; fail|]. split; [exact B|].
    intros f F W. inversion F; subst; [eauto|congruence].
Qed.

(** No variable whose type is a custom scalar (and not a list) is given an array. *)
Definition no_custom_arrays (sch : gschema) (ps : list pvar) (request : list (string * json)) : Prop :=
  forall p t, In p ps -> p_type p = Some t -> types sch t = DScalar SUnknown -> listp (p_ty p) = false ->
    (forall l, lookup (p_name p) request <> Some (JArr l)) /\ (forall l, p_default p <> Some (LList l)).
Definition field_defs (sites : list site) : list (list adef) :=
  flat_map (fun s => match s with SField defs _ => [defs] | SCondition _ => [] end) sites.

Section Sent.
Variable sch : gschema.
Variable boolean : nat.
Variable ps : list pvar.
Variable sites : list site.
Variable request : list (string * json).
Variable vars : list vdef.
Variable out : list bound.
Variable vs : list vvalue.
Hypothesis Hop : operation_ok sch boolean ps sites.
Hypothesis Hreq : request_ok request.
Hypothesis Harr : no_custom_arrays sch ps request.
Hypothesis Hbind : bind_operation sch boolean ps sites = Ok (vars, out).
Hypothesis Hvs : bind_variables sch vars out request = Ok vs.
Notation env := (environment sch vars vs).
Notation value := (value_of vars env).

Lemma recorded_listp p : listp (recorded p) = false -> listp (p_ty p) = false.
Proof.
  unfold recorded. destruct (p_default p) as [[]|]; auto; destruct (p_ty p); auto.
Qed.
Lemma sent_setup : exists F : Forall2 (bound_var sch) ps vars, NoDup (map p_name ps) /\ vars_ok vars /\ Forall2 (bound_site sch vars boolean) sites out.
Proof.
  apply operation_inv in Hbind as (H1 & H2 & H3). apply (definitions_inv sch) in H1 as (F & Nd & _). exists F.
  split; [auto|]. split; [eapply bound_vars_ok; eauto|]. apply sites_iff. auto.
Qed.
Lemma default_value p v q : In p ps -> bound_var sch p v -> v_default v = Some q ->
  accepted sch (v_type v) (recorded p) (ser_q (fun _ => None) q) /\
  (types sch (v_type v) = DScalar SUnknown -> listp (recorded p) = false -> forall l, ser_q (fun _ => None) q <> JArr l).
Proof.
  destruct Hop as (Hs & Hb & Ht & Hd). intros Hp B Hq. pose proof (bound_denotes sch _ _ B) as Dv. destruct B as (N1 & Ty & D & Wv & Df).
  destruct (p_default p) as [l|] eqn:El; [|congruence]. destruct Df as (q' & E' & Q). assert (q' = q) by congruence. subst q'.
  pose (f := {| a_name := ""; a_inaccessible := false; a_type := v_type v; a_wrapping := v_wrapping v; a_default := None |}).
  assert (Df : def_ok sch f) by (split; [apply (Ht p); auto|split; [exists (recorded p); exact Dv|discriminate]]).
  assert (Fi : fits_in sch (usable_var [] true) f l).
  { apply (cqv_iff sch [] true (fun _ => None)); auto; [constructor|]. exists q. exact Q. }
  assert (St : stands_in sch (value_of [] (fun _ => None)) f l (ser_q (fun _ => None) q)).
  { apply (cqv_stands sch [] true); auto. constructor. }
  split.
  - assert (A : accepted_in sch f (ser_q (fun _ => None) q)).
    { eapply (fine_all sch (usable_var [] true) (value_of [] (fun _ => None))); eauto.
      - intros x t u [C _]. discriminate.
      - intros x W. exfalso. destruct (proj2 (proj2 (fits_written sch (usable_var [] true) Hs l x true)) f Fi W) as (t & u & C & _). discriminate. }
    inversion A as [f0 u j Tu Au]; subst. assert (u = recorded p) by (eapply denotes_fun; eauto). subst u. exact Au.
  - intros Cu Lp l'. apply recorded_listp in Lp as Lp'. destruct (Harr p (v_type v) Hp Ty Cu Lp') as [_ Nl].
    intros E. inversion St as [f0 u v0 j T0 S0|f0 u v0 j T0 L0 N2 N3 N4 S0]; subst.
    + assert (u = recorded p) by (eapply denotes_fun; eauto). subst u. destruct (recorded p) as [r|]; [|discriminate].
      rewrite E in S0. inversion S0 as [t1 u1 x1 j1 V1|t1 u1 x1 V1| | |t1 r1 v1 j1 N2 N3 S1]; subst; [discriminate V1|].
      cbn [a_type f] in S1. rewrite Cu in S1. inversion S1 as [| | | | | |v1 j1 S2| | |]; subst. inversion S2; subst. eapply Nl; eauto.
    + assert (u = recorded p) by (eapply denotes_fun; eauto). subst u. congruence.
Qed.
Lemma variable_value x t u : usable_var vars false x t u ->
  (forall j, value x = Some j -> accepted sch t u j) /\ (value x = None -> required u = false).
Proof.
  destruct sent_setup as (F & Nd & Vok & Fs). destruct Hop as (Hs & Hb & Ht & Hd).
  intros (_ & v & d & Hv & Nx & Tv & Dd & Us). apply In_nth_error in Hv as [id E].
  destruct (forall2_nth _ _ _ F _ _ E) as (p & Ep & B). apply nth_error_In in Ep as Hp.
  assert (d = recorded p) by (eapply denotes_fun; [eauto|eapply bound_denotes; eauto]). subst d.
  assert (V : value x = env id).
  { unfold value_of. rewrite <- Nx, (position_nth vars (proj1 Vok) id v E). reflexivity. }
  rewrite V. unfold environment. rewrite E. apply variables_inv in Hvs as [L Fv]. destruct (Fv id v E) as (y & Ey & By). rewrite Ey.
  pose proof B as (N1 & Ty & D & Wv & _). unfold bind_variable in By.
  destruct (lookup (v_name v) request) as [j|] eqn:Lk.
  - destruct (coerce_variable (erase sch) (types sch (v_type v)) (v_wrapping v) j) as [c| |] eqn:C; [| |discriminate]; [|discriminate].
    assert (Y : y = VProvided c) by (destruct (_ && is_null j); congruence). subst y. split; [|discriminate].
    intros j' Ej. injection Ej as <-. apply lookup_in in Lk as Lin. assert (Jo : CS.json_ok j) by (apply (proj1 (Forall_forall _ _) Hreq _ Lin)).
    subst t. eapply accepted_usable; eauto.
    + eapply variable_accepted; eauto.
    + intros Lp Cu l El. apply recorded_listp in Lp as Lp'. destruct (Harr p (v_type v) Hp Ty Cu Lp') as [Na _].
      rewrite Wv in C. apply (variable_coerces_iff sch (v_type v) (recorded p) j c Hs) in C as (f & Ef & Tf & Cf); eauto.
      inversion Cf as [f0 t0 v0 c0 T0 C0|f0 t0 v0 c0 T0 L0 N2 N3 C0]; subst;
        (assert (t0 = recorded p) by (eapply denotes_fun; eauto); subst t0); [|congruence].
      rewrite Ef, Cu in C0. destruct (recorded p) as [r|]; [|discriminate].
      inversion C0 as [d0 t0 R0| |d0 r0 v0 c0 N2 C1]; subst; [discriminate El|].
      inversion C1 as [| | | |v0 c0 C2| | |]; subst. inversion C2; subst; try discriminate El. eapply Na. rewrite <- N1. exact Lk.
  - destruct (v_default v) as [q|] eqn:Dq.
    + injection By as <-. split; [|discriminate]. intros j' Ej. injection Ej as <-. subst t.
      destruct (default_value p v q Hp B Dq) as [A1 A2]. eapply accepted_usable; eauto.
    + rewrite Wv, (denotes_is_non_null (enc (recorded p)) (recorded p)) in By by (apply denotes_iff; auto).
      destruct (required (recorded p)) eqn:R; [discriminate|]. destruct (one_of_use _ id); [discriminate|]. injection By as <-.
      split; [discriminate|]. intros _. eapply usable_null; eauto.
Qed.
Lemma one_of_value x : mentioned sch boolean sites x true -> (exists t u, usable_var vars false x t u) -> value x <> None.
Proof.
  destruct sent_setup as (F & Nd & Vok & Fs). destruct Hop as (Hs & Hb & Ht & Hd).
  intros M (t & u & _ & v & d & Hv & Nx & _). apply In_nth_error in Hv as [id E].
  assert (V : value x = env id).
  { unfold value_of. rewrite <- Nx, (position_nth vars (proj1 Vok) id v E). reflexivity. }
  rewrite V. unfold environment. rewrite E. apply variables_inv in Hvs as [L Fv]. destruct (Fv id v E) as (y & Ey & By). rewrite Ey.
  assert (O : one_of_use (flat_map bound_uses out) id = true).
  { apply one_of_use_iff. apply (sites_uses sch Hs vars boolean Vok Hb sites out Hd Fs). exists x. split; [|auto].
    apply (refers_nth vars (proj1 Vok)). eauto. }
  rewrite O in By. unfold bind_variable in By. destruct (lookup (v_name v) request) as [j|].
  - destruct (coerce_variable _ _ _ _); [|discriminate|discriminate]. destruct (true && is_null j); [discriminate|]. injection By as <-. discriminate.
  - destruct (v_default v); [injection By as <-; discriminate|]. destruct (W.is_non_null _); discriminate.
Qed.
Lemma sites_sent : Forall2 (fields_accepted (accepted_in sch)) (field_defs sites)
  (flat_map (fun b => match b with BField args => [ser_arguments env args] | BCondition _ => [] end) out).
Proof.
  destruct sent_setup as (F & Nd & Vok & Fs). destruct Hop as (Hs & Hb & Ht & Hd).
  assert (K : forall s, In s sites -> In s sites) by auto. revert K Fs. generalize sites at 1 3 4. generalize out.
  intros out' sites' K Fs. induction Fs as [|s b sites'' out'' Hsb Fs IH]; [constructor|].
  unfold field_defs. cbn [flat_map]. fold (field_defs sites'').
  specialize (IH (fun s Hs => K s (or_intror Hs))). specialize (K s (or_introl eq_refl)).
  destruct s as [defs args|args], b as [a|c]; cbn [bound_site] in Hsb; try contradiction; [|exact IH].
  constructor; [|exact IH]. assert (Dok : defs_ok sch defs) by (eapply Hd; eauto).
  pose proof (proj1 (C67_arguments_accepted_iff sch vars defs args Hs Vok Dok) (ex_intro _ a Hsb)) as Fit.
  pose proof (C68_arguments_meaning sch vars env defs args a Hs Vok Dok Hsb) as St.
  apply (fields_fine sch (usable_var vars false) value variable_value defs args (ser_arguments env a) Dok); auto.
  - intros k v _. apply fine_all; auto. exact variable_value.
  - intros f k v Hf Vf Hin En Nv x W. apply one_of_value.
    + exists (SField defs args). split; [auto|]. exists f, v. subst k. auto.
    + destruct Fit as (_ & Fit & _). destruct (Fit _ _ Hin) as (f' & Hf' & Vf' & En' & Fv).
      assert (f' = f) by (eapply nodup_def; [apply Dok|auto|auto|congruence]). subst f'.
      eapply (fits_written sch (usable_var vars false) Hs v x true); eauto.
Qed.
End Sent.

(** * C69 *)
(** Partial.  Once an operation and the request's variables are accepted, what every field is
    executed with is accepted by the types of its arguments, nested lists and input objects included
    (given that the schema's own defaults are) — as long as no variable whose type is a custom scalar
    is given an array. *)
Theorem C69_sent_accepted_partial : forall (sch : gschema) (boolean : nat) (ps : list pvar) (sites : list site)
    (request : list (string * json)) jss,
  operation_ok sch boolean ps sites -> request_ok request -> no_custom_arrays sch ps request ->
  arguments_sent sch boolean ps sites request = Ok jss ->
  Forall2 (fields_accepted (accepted_in sch)) (field_defs sites) jss.
Proof.
  intros sch boolean ps sites request jss Hop Hreq Harr H. unfold arguments_sent in H.
  apply Proofs.bind_ok in H as ([vars out] & Hb & H). apply Proofs.bind_ok in H as (vs & Hv & H). injection H as <-.
  eapply sites_sent; eauto.
Qed.
Print Assumptions C69_sent_accepted_partial.
(** The condition is needed: [query($x: JSON!) { f(l: $x) }] for [f(l: [JSON!]!)], with [[null]] for x. *)
Definition ex_json_defs : list adef := [ad "l" 6 (ListOf (Named true) true) None].
Theorem C69_custom_array_refuted : exists jss,
  let sites := [SField ex_json_defs [("l"%string, LVar "x")]] in
  let ps := [pv "x" 6 (Named true) None] in
  operation_ok ex_sch 5 ps sites /\ request_ok [("x"%string, JArr [JNull])] /\
  arguments_sent ex_sch 5 ps sites [("x"%string, JArr [JNull])] = Ok jss /\
  ~ Forall2 (fields_accepted (accepted_in ex_sch)) (field_defs sites) jss.
Proof.
  eexists. cbv zeta. split; [|split; [repeat constructor|split; [vm_compute; reflexivity|]]].
  - split; [exact ex_sch_ok|]. split; [reflexivity|]. split; [intros p t _ _; apply ex_types|].
    intros defs args [E|[]]. injection E as <- _. split; [|nodup]. constructor; [|constructor].
    apply ad_ok; [apply ex_types|cbn; lia|discriminate].
  - intros F. inversion F as [|? ? ? ? A _]; subst. destruct A as (_ & A & _).
    destruct (A "l"%string (JArr [JNull]) (or_introl eq_refl)) as (f & [<-|[]] & _ & B).
    inversion B as [f0 u j T0 A0]; subst. assert (u = ListOf (Named true) true).
    { eapply denotes_fun; [exact T0|]. apply denotes_iff. split; [cbn; lia|reflexivity]. }
    subst u. inversion A0 as [|t0 e r l Fl|t0 e r j N1 N2 A1|]; subst; [|exfalso; eapply N2; reflexivity].
    inversion Fl as [|? ? A1 _]; subst. inversion A1; subst; [discriminate|congruence].
Qed.
Print Assumptions C69_custom_array_refuted.
Example C69_example :
  arguments_sent ex_sch 5 ex_ps ex_sites [("y"%string, JObj [("a"%string, JNum (PosInt 1))])] =
    Ok [[("in"%string, JObj [("n"%string, jint 5)]); ("one"%string, JObj [("a"%string, jint 1)])]] /\
  no_custom_arrays ex_sch ex_ps [("y"%string, JObj [("a"%string, JNum (PosInt 1))])].
Proof.
  split; [vm_compute; reflexivity|]. intros p t [<-|[<-|[]]] E; cbn in E; injection E as <-; discriminate.
Qed.
