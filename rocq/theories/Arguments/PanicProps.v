(** Property C72: which operations crash the gateway while their values are bound. *)
From Coq Require Import ZArith QArith String List Bool Lia Arith.
From Verif.Wrapping Require Import Spec Proofs.
From Verif.Coercion Require Import Json Model Binding Properties.
From Verif.Coercion Require Spec Proofs.
From Verif.Arguments Require Import Model Spec Facts AcceptProps UseFacts SentFacts OperationFacts OperationProps SentProps.
Import ListNotations.
Local Open Scope list_scope.
Local Open Scope nat_scope.

(** A literal has, anywhere, a part of some kind. *)
Inductive part_of (P : lit -> Prop) : lit -> Prop :=
| pa_here v : P v -> part_of P v
| pa_item l v : In v l -> part_of P v -> part_of P (LList l)
| pa_field fs k v : In (k, v) fs -> part_of P v -> part_of P (LObj fs).
Definition a_variable (v : lit) : Prop := exists x, v = LVar x.
Definition an_enum (v : lit) : Prop := exists n, v = LEnum n.

(** A list or an object written for a custom scalar has a variable inside. *)
Inductive unreadable (sch : gschema) : tydef -> lit -> Prop :=
| un_here v : ~ a_variable v -> part_of a_variable v -> unreadable sch (DScalar SUnknown) v
| un_item d l v : In v l -> unreadable sch d v -> unreadable sch d (LList l)
| un_field id one_of defs f fs v : objects sch id = Some (one_of, defs) -> In f defs -> visible f -> In (a_name f, v) fs ->
    unreadable sch (types sch (a_type f)) v -> unreadable sch (DObj id) (LObj fs).
Definition site_unreadable (sch : gschema) (s : site) : Prop :=
  match s with
  | SField defs args => exists f v, In f defs /\ visible f /\ In (a_name f, v) args /\ unreadable sch (types sch (a_type f)) v
  | SCondition _ => False
  end.

Lemma bind_is_panic {A B} (r : result A) (f : A -> result B) :
  bind r f = Panic -> r = Panic \/ exists a, r = Ok a /\ f a = Panic.
Proof. destruct r; cbn [bind]; eauto; discriminate. Qed.
Lemma sequence_is_panic {A B} (g : A -> result B) l : sequence (map g l) = Panic -> exists x, In x l /\ g x = Panic.
Proof.
  induction l as [|x l IH]; cbn [map sequence]; [discriminate|]. intros H. apply bind_is_panic in H as [H|(a & _ & H)].
  - exists x. split; [left|]; auto.
  - apply bind_is_panic in H as [H|(a' & _ & H)]; [|discriminate]. destruct (IH H) as (y & Hy & E). exists y. split; [right|]; auto.
Qed.
Lemma sequence_is_err {A B} (g : A -> result B) l : sequence (map g l) = Err -> exists x, In x l /\ g x = Err.
Proof.
  induction l as [|x l IH]; cbn [map sequence]; [discriminate|]. destruct (g x) eqn:E; cbn [bind]; try discriminate.
  - destruct (sequence (map g l)); cbn [bind]; try discriminate. intros _. destruct (IH eq_refl) as (y & Hy & Ey). exists y. split; [right|]; auto.
  - intros _. exists x. split; [left|]; auto.
Qed.

Lemma custom_panic v : coerce_custom v = Panic -> part_of a_variable v.
Proof.
  induction v as [|z|m e|s|b|s|l IH|fs IH|x] using lit_ind'; cbn [coerce_custom]; intros H; try discriminate.
  - apply bind_is_panic in H as [H|(a & _ & H)]; [|discriminate]. apply sequence_is_panic in H as (v & Hv & E).
    eapply pa_item; [exact Hv|]. apply (proj1 (Forall_forall _ _) IH v Hv E).
  - apply bind_is_panic in H as [H|(a & _ & H)]; [|discriminate]. apply sequence_is_panic in H as ([k v] & Hv & E).
    apply bind_is_panic in E as [E|(a & _ & E)]; [|discriminate].
    eapply pa_field; [exact Hv|]. apply (proj1 (Forall_forall _ _) IH (k, v) Hv E).
  - apply pa_here. exists x. reflexivity.
Qed.
Lemma custom_err v : coerce_custom v = Err -> part_of an_enum v.
Proof.
  induction v as [|z|m e|s|b|s|l IH|fs IH|x] using lit_ind'; cbn [coerce_custom]; intros H; try discriminate.
  - apply pa_here. exists s. reflexivity.
  - destruct (sequence (map coerce_custom l)) eqn:E; cbn [bind] in H; try discriminate. apply sequence_is_err in E as (v & Hv & E).
    eapply pa_item; [exact Hv|]. apply (proj1 (Forall_forall _ _) IH v Hv E).
  - destruct (sequence (map _ fs)) eqn:E in H; cbn [bind] in H; try discriminate. apply sequence_is_err in E as ([k v] & Hv & E).
    cbn [fst snd] in E. destruct (coerce_custom v) eqn:Ev; cbn [bind] in E; try discriminate.
    eapply pa_field; [exact Hv|]. apply (proj1 (Forall_forall _ _) IH (k, v) Hv Ev).
Qed.
Lemma plain_parts v : plain v -> ~ part_of a_variable v.
Proof.
  induction v as [|z|m e|s|b|s|l IH|fs IH|x] using lit_ind'; intros P H; inversion H as [v0 [y E]|l0 v0 Hin Hv|fs0 k v0 Hin Hv]; subst; try discriminate.
  - inversion P as [| | | | |l0 F|]; subst. apply (proj1 (Forall_forall _ _) IH v0 Hin); auto. apply (proj1 (Forall_forall _ _) F v0 Hin).
  - inversion P as [| | | | | |fs0 F]; subst. apply (proj1 (Forall_forall _ _) IH (k, v0) Hin); auto. apply (proj1 (Forall_forall _ _) F (k, v0) Hin).
  - inversion P.
Qed.

Section Panic.
Variable sch : gschema.
Hypothesis Hsch : schema_ok sch.
Variable vars : list vdef.
Variable is_default : bool.
Notation coerce := (coerce sch vars is_default).
Notation cqv := (coerce_query_value sch vars is_default).
Notation gq := (fun v t w => cqv t w v).

Lemma reference_no_panic x t w o : variable_ref vars is_default x t w o <> Panic.
Proof. unfold variable_ref. destruct is_default; [discriminate|]. destruct (position x vars 0) as [[id v]|]; [|discriminate]. destruct (are_type_compatibles _ _ _ _); discriminate. Qed.

Definition panics (v : lit) : Prop :=
  (forall t, type_ok sch t -> ~ a_variable v -> fst (coerce v) t = Panic -> unreadable sch (types sch t) v) /\
  (forall t w u, type_ok sch t -> denotes w u -> snd (coerce v) t w = Panic -> unreadable sch (types sch t) v).

Lemma panics_in v t w u : panics v -> type_ok sch t -> denotes w u -> cqv t w v = Panic -> unreadable sch (types sch t) v.
Proof.
  intros [P1 P2] Ht Dw H. unfold coerce_query_value, input_value in H.
  destruct (W.is_list w && negb (l_is_list v) && negb (l_is_null v) && negb (l_is_var v))%bool eqn:C; [|eapply P2; eauto].
  apply bind_is_panic in H as [H|(a & _ & H)]; [|discriminate]. apply P1; auto.
  intros [x ->]. cbn in C. rewrite !andb_false_r in C. discriminate.
Qed.
Lemma consume_panic defs : Forall (def_ok sch) defs -> forall fs, (forall k v, In (k, v) fs -> panics v) ->
  consume defs (ents gq fs) = Panic ->
  exists f v, In f defs /\ visible f /\ In (a_name f, v) fs /\ unreadable sch (types sch (a_type f)) v.
Proof.
  induction 1 as [|f defs Df _ IH]; intros fs P H; cbn [consume] in H; [discriminate|].
  assert (K : forall fs', (forall k v, In (k, v) fs' -> In (k, v) fs) -> consume defs (ents gq fs') = Panic ->
      exists f0 v, In f0 (f :: defs) /\ visible f0 /\ In (a_name f0, v) fs /\ unreadable sch (types sch (a_type f0)) v).
  { intros fs' Hin H'. destruct (IH fs') as (f0 & v & Hf & Vf & Hv & Un); [eauto|auto|]. exists f0, v. split; [right; auto|]. auto. }
  destruct (a_inaccessible f) eqn:Vf; [eapply K; [|exact H]; auto|].
  destruct (take (a_name f) (ents gq fs)) as [[c fs']|] eqn:T.
  - apply take_some in T as (v & fs1 & fs2 & -> & -> & -> & _). apply bind_is_panic in H as [H|(q & _ & H)].
    + exists f, v. split; [left; auto|]. split; [auto|]. assert (Hin : In (a_name f, v) (fs1 ++ (a_name f, v) :: fs2)) by (apply in_elt).
      split; [auto|]. destruct Df as (Ht & [u Hu] & _). eapply panics_in; eauto.
    + apply bind_is_panic in H as [H|([buf rest] & _ & H)]; [|discriminate].
      eapply K; [|exact H]. intros k v' Hin. apply in_app_iff in Hin. apply in_app_iff. destruct Hin; [left|right; right]; auto.
  - destruct (a_default f) as [d|].
    + apply bind_is_panic in H as [H|([buf rest] & _ & H)]; [|discriminate]. eapply K; [|exact H]; auto.
    + destruct (W.is_non_null (a_wrapping f)); [discriminate|]. eapply K; [|exact H]; auto.
Qed.
Lemma object_panic id o ifs fs : objects sch id = Some (o, ifs) -> (forall k v, In (k, v) fs -> panics v) ->
  coerce_object vars is_default o ifs (ents gq fs) = Panic -> unreadable sch (DObj id) (LObj fs).
Proof.
  intros Eo P H. destruct (Hsch _ _ _ Eo) as [[Dok Nd] _]. unfold coerce_object in H. destruct o.
  - destruct fs as [|[k v] [|kv fs]]; cbn [ents map fst snd] in H; try discriminate.
    destruct (find_field k ifs) as [f|] eqn:Ff; [|discriminate]. apply find_field_spec in Ff as (Hf & Vf & <-).
    apply bind_is_panic in H as [H|(q & _ & H)]; [|discriminate].
    destruct (proj1 (Forall_forall _ _) Dok f Hf) as (Ht & [u Hu] & _).
    eapply un_field; eauto; [left; reflexivity|]. apply (panics_in v _ (a_wrapping f) u); auto; [eapply P; left; reflexivity|].
    destruct v; try exact H. exfalso. eapply reference_no_panic; eauto.
  - apply bind_is_panic in H as [H|([buf rest] & _ & H)]; [|destruct rest; discriminate].
    apply consume_panic in H as (f & v & Hf & Vf & Hin & Un); auto. eapply un_field; eauto.
Qed.
Lemma panics_named v t : (forall fs, v = LObj fs -> forall k w, In (k, w) fs -> panics w) ->
  type_ok sch t -> ~ a_variable v -> fst (coerce v) t = Panic -> unreadable sch (types sch t) v.
Proof.
  intros P Ht Nv H. rewrite fst_coerce in H. unfold type_ok in Ht. destruct (types sch t) as [s|vs|id].
  - assert (D : s = SUnknown \/ s <> SUnknown) by (destruct s; auto; right; discriminate). destruct D as [->|Ns].
    { apply un_here; [auto|]. apply custom_panic. exact H. }
    exfalso. destruct v as [|z|m e|x|b|x|l|fs|x]; try solve [destruct s; try congruence; try discriminate].
    + destruct s; cbn [coerce_scalar] in H; try congruence; try discriminate;
        try solve [destruct (i32_try_from z); discriminate]; try solve [destruct (f64_of_Z z); discriminate].
    + destruct s; cbn [coerce_scalar] in H; try congruence; try discriminate. destruct (can_coerce_to_int m e); discriminate.
    + apply Nv. exists x. reflexivity.
  - destruct v as [|z|m e|x|b|x|l|fs|x]; cbn [coerce_enum] in H; try discriminate; [|exfalso; apply Nv; exists x; reflexivity].
    destruct (find_value_by_name x vs 0) as [[i [|]]|]; discriminate.
  - destruct Ht as [[o ifs] Eo]. rewrite Eo in H. destruct v as [|z|m e|x|b|x|l|fs|x]; try discriminate.
    + eapply object_panic; eauto.
    + exfalso. apply Nv. exists x. reflexivity.
Qed.
Lemma panics_step v : (forall fs, v = LObj fs -> forall k w, In (k, w) fs -> panics w) -> (forall l, v = LList l -> forall w, In w l -> panics w) -> panics v.
Proof.
  intros Po Pl. split; [intros t Ht Nv H; apply panics_named; auto|]. intros t w u Ht Dw H.
    assert (Dv : ~ a_variable v \/ exists x, v = LVar x) by (destruct v; try (left; intros [y E]; discriminate); right; eauto).
    destruct Dv as [Nv|[x ->]]; [|exfalso; eapply reference_no_panic; exact H].
    rewrite snd_coerce in H by (intros x ->; apply Nv; exists x; reflexivity). pose proof (denotes_pop _ _ Dw) as Pop. destruct u as [r|e r].
    - rewrite Pop in H. destruct (l_is_null v); [destruct (W.is_non_null w); discriminate|]. apply panics_named; auto.
    - destruct Pop as (w' & Pop & Dw'). rewrite Pop in H. destruct v as [|z|m e0|s|b|s|l|fs|x]; try discriminate.
      + destruct (lw_of r); discriminate.
      + apply bind_is_panic in H as [H|(a & _ & H)]; [|discriminate]. apply sequence_is_panic in H as (v & Hv & E).
        eapply un_item; [exact Hv|]. destruct (Pl l eq_refl v Hv) as [_ P2]. eapply P2; eauto.
Qed.
Lemma panics_all v : panics v.
Proof.
  induction v as [|z|m e|s|b|s|l IH|fs IH|x] using lit_ind'; apply panics_step; intros ? E; try discriminate; injection E as <-.
  - intros w Hw. apply (proj1 (Forall_forall _ _) IH w Hw).
  - intros k w Hw. apply (proj1 (Forall_forall _ _) IH (k, w) Hw).
Qed.
End Panic.

Lemma arguments_panic sch vars defs args : schema_ok sch -> Forall (def_ok sch) defs ->
  bind_arguments sch vars false defs args = Panic ->
  exists f v, In f defs /\ visible f /\ In (a_name f, v) args /\ unreadable sch (types sch (a_type f)) v.
Proof.
  intros Hs F. revert args. induction F as [|f defs Df _ IH]; intros args H; cbn [bind_arguments] in H; [discriminate|].
  assert (K : forall args', (forall k v, In (k, v) args' -> In (k, v) args) -> bind_arguments sch vars false defs args' = Panic ->
      exists f0 v, In f0 (f :: defs) /\ visible f0 /\ In (a_name f0, v) args /\ unreadable sch (types sch (a_type f0)) v).
  { intros fs' Hin H'. destruct (IH fs' H') as (f0 & v & Hf & Vf & Hv & Un). exists f0, v. split; [right; auto|]. auto. }
  destruct (a_inaccessible f) eqn:Vf; [eapply K; [|exact H]; auto|].
  destruct (take_arg (a_name f) args) as [[v args']|] eqn:T.
  - assert (Hin : In (a_name f, v) args /\ forall k w, In (k, w) args' -> In (k, w) args).
    { clear - T. revert v args' T. induction args as [|[k w] args IH]; intros v args' T; cbn [take_arg] in T; [discriminate|].
      destruct (String.eqb_spec k (a_name f)) as [->|E].
      - injection T as <- <-. split; [left; auto|]. intros; right; auto.
      - destruct (take_arg (a_name f) args) as [[v' r]|]; [|discriminate]. injection T as <- <-.
        destruct (IH _ _ eq_refl) as [A B]. split; [right; auto|]. intros k' w' [Hw|Hw]; [left|right]; auto. }
    destruct Hin as [Hin Hsub]. destruct (coerce_query_value sch vars false (a_type f) (a_wrapping f) v) eqn:C.
    + apply bind_is_panic in H as [H|([? ?] & _ & H)]; [|discriminate]. eapply K; eauto.
    + apply bind_is_panic in H as [H|([? ?] & _ & H)]; [|discriminate]. eapply K; eauto.
    + exists f, v. split; [left; auto|]. split; [auto|]. split; [auto|]. destruct Df as (Ht & [u Hu] & _).
      eapply panics_in; eauto. apply panics_all; auto.
  - destruct (a_default f) as [d|].
    + apply bind_is_panic in H as [H|([? ?] & _ & H)]; [|discriminate]. eapply K; eauto.
    + destruct (W.is_non_null (a_wrapping f)); [|eapply K; eauto].
      apply bind_is_panic in H as [H|([? ?] & _ & H)]; [|discriminate]. eapply K; eauto.
Qed.
Lemma boolean_readable sch t v : types sch t = DScalar SBoolean -> ~ unreadable sch (types sch t) v.
Proof.
  intros E U. rewrite E in U. remember (DScalar SBoolean) as d eqn:Ed. induction U; try discriminate. auto.
Qed.
Lemma sites_panic sch vars boolean sites : schema_ok sch -> types sch boolean = DScalar SBoolean ->
  (forall defs args, In (SField defs args) sites -> defs_ok sch defs) ->
  bind_sites sch vars boolean sites = Panic -> exists s, In s sites /\ site_unreadable sch s.
Proof.
  intros Hs Hb. induction sites as [|s sites IH]; intros Hd H; cbn [bind_sites] in H; [discriminate|].
  assert (K : bind_sites sch vars boolean sites = Panic -> exists s0, In s0 (s :: sites) /\ site_unreadable sch s0).
  { intros H'. destruct IH as (s' & Hs' & U); [intros; eapply Hd; right; eauto|auto|]. exists s'. split; [right|]; auto. }
  destruct s as [defs args|args].
  - apply bind_is_panic in H as [H|([? ?] & _ & H)].
    + exists (SField defs args). split; [left; auto|]. cbn [site_unreadable]. eapply arguments_panic; eauto. eapply Hd. left. reflexivity.
    + apply bind_is_panic in H as [H|([? ?] & _ & H)]; [|discriminate]. auto.
  - apply bind_is_panic in H as [H|([? ?] & _ & H)].
    + exfalso. unfold bind_condition in H. destruct args as [|[k v] rest]; [discriminate|].
      destruct (coerce_query_value sch vars false boolean (W.non_null W.new) v) eqn:C; try discriminate.
      apply (boolean_readable sch boolean v Hb). eapply panics_in; eauto.
      * apply panics_all; auto.
      * unfold type_ok. rewrite Hb. exact Logic.I.
      * apply denotes_int.
    + apply bind_is_panic in H as [H|([? ?] & _ & H)]; [|discriminate]. auto.
Qed.
Lemma definitions_panic sch ps : schema_ok sch -> (forall p t, In p ps -> p_type p = Some t -> type_ok sch t) -> forall seen,
  bind_variable_definitions sch ps seen = Panic ->
  exists p t, In p ps /\ p_type p = Some t /\
    (10 < depth (recorded p) \/ exists v, p_default p = Some v /\ unreadable sch (types sch t) v).
Proof.
  intros Hs. induction ps as [|p ps IH]; intros Ht seen H; cbn [bind_variable_definitions] in H; [discriminate|].
  destruct (existsb (String.eqb (p_name p)) seen); [discriminate|].
  assert (K : bind_variable_definitions sch ps (p_name p :: seen) = Panic -> exists p0 t, In p0 (p :: ps) /\ p_type p0 = Some t /\
    (10 < depth (recorded p0) \/ exists v, p_default p0 = Some v /\ unreadable sch (types sch t) v)).
  { intros H'. destruct (IH (fun p t Hp => Ht p t (or_intror Hp)) _ H') as (p0 & t & Hp & R). exists p0, t. split; [right|]; auto. }
  destruct (p_type p) as [t|] eqn:Et.
  - rewrite recorded_wrapping in H. destruct (Nat.leb_spec (depth (recorded p)) 10) as [D|D].
    + destruct (p_default p) as [v|] eqn:Ed.
      * destruct (coerce_query_value sch [] true t (enc (recorded p)) v) eqn:C.
        -- apply bind_is_panic in H as [H|([? ?] & _ & H)]; [|discriminate]. auto.
        -- apply bind_is_panic in H as [H|([? ?] & _ & H)]; [|discriminate]. auto.
        -- exists p, t. split; [left; auto|]. split; [auto|]. right. exists v. split; [auto|].
           apply (panics_in sch [] true v t (enc (recorded p)) (recorded p)); auto;
             [apply panics_all; auto|apply (Ht p); [left|]; auto|apply denotes_iff; auto].
      * apply bind_is_panic in H as [H|([? ?] & _ & H)]; [|discriminate]. auto.
    + exists p, t. split; [left; auto|]. auto.
  - apply bind_is_panic in H as [H|([? ?] & _ & H)]; [|discriminate]. auto.
Qed.
Lemma variables_no_panic sch us vars request : schema_ok sch -> request_ok request ->
  Forall (fun v => type_ok sch (v_type v) /\ exists u, denotes (v_wrapping v) u) vars -> forall i,
  bind_each sch us i vars request <> Panic.
Proof.
  intros Hs Hr. induction 1 as [|v vars [Ht [u Hu]] _ IH]; intros i; cbn [bind_each]; [discriminate|].
  intros H. apply bind_is_panic in H as [H|(x & _ & H)].
  - unfold bind_variable in H. destruct (lookup (v_name v) request) as [j|] eqn:L; [|discriminate].
    destruct (coerce_variable _ _ _ _) eqn:C; try discriminate.
    pose (f := {| f_name := ""; f_inaccessible := false; f_def := types sch (v_type v); f_wrapping := v_wrapping v; f_has_default := false |}).
    apply (C05_coercion_never_panics (erase sch) f j (erase_ok sch Hs)); [|apply lookup_in in L; apply (proj1 (Forall_forall _ _) Hr _ L)|exact C].
    split; [apply erase_ok_def; auto|]. exists u. exact Hu.
  - apply bind_is_panic in H as [H|(xs & _ & H)]; [|discriminate]. eapply IH; eauto.
Qed.

(** * C72 *)
(** Binding values only crashes for a type of more than ten nested lists, or a variable inside a
    list or an object written for a custom scalar. *)
Theorem C72_panics_only : forall (sch : gschema) (boolean : nat) (ps : list pvar) (sites : list site) (request : list (string * json)),
  operation_ok sch boolean ps sites -> request_ok request -> arguments_sent sch boolean ps sites request = Panic ->
  (exists p t, In p ps /\ p_type p = Some t /\
     (10 < depth (recorded p) \/ exists v, p_default p = Some v /\ unreadable sch (types sch t) v)) \/
  (exists s, In s sites /\ site_unreadable sch s).
Proof.
  intros sch boolean ps sites request (Hs & Hb & Ht & Hd) Hr H. unfold arguments_sent in H.
  apply bind_is_panic in H as [H|([vars out] & Ho & H)].
  - unfold bind_operation in H. apply bind_is_panic in H as [H|([vars e1] & _ & H)].
    + left. eapply definitions_panic; eauto.
    + apply bind_is_panic in H as [H|([out e2] & _ & H)].
      * right. eapply sites_panic; eauto.
      * destruct (e1 || e2)%bool; [discriminate|]. destruct (forallb _ _); discriminate.
  - exfalso. apply bind_is_panic in H as [H|(vs & _ & H)]; [|discriminate]. unfold bind_variables in H.
    apply bind_is_panic in H as [H|(xs & _ & H)]; [|destruct (all_some xs); discriminate].
    revert H. apply variables_no_panic; auto. apply operation_inv in Ho as (H1 & _ & _). apply (definitions_inv sch) in H1 as (F & _).
    apply Forall_forall. intros v Hv. apply In_nth_error in Hv as [i E]. destruct (forall2_nth _ _ _ F _ _ E) as (p & Ep & B).
    apply nth_error_In in Ep. split; [|exists (recorded p); apply (bound_denotes sch); auto]. apply (Ht p); [auto|]. apply B.
Qed.
Print Assumptions C72_panics_only.
(** And it does: an argument whose type is a custom scalar, given a list or an object with a variable
    inside (and no enum value), crashes whatever the variables are. *)
Theorem C72_custom_variable_panics : forall (sch : gschema) (vars : list vdef) (f : adef) (v : lit) (defs : list adef) (args : list (string * lit)) r,
  types sch (a_type f) = DScalar SUnknown -> type_of f (Named r) -> visible f ->
  ~ a_variable v -> part_of a_variable v -> ~ part_of an_enum v ->
  bind_arguments sch vars false (f :: defs) ((a_name f, v) :: args) = Panic.
Proof.
  intros sch vars f v defs args r Ht Tf Vf Nv Hp He. cbn [bind_arguments]. rewrite Vf. cbn [take_arg]. rewrite String.eqb_refl.
  assert (C : coerce_custom v = Panic).
  { destruct (coerce_custom v) as [q| |] eqn:C; [| |reflexivity]; exfalso.
    - apply (plain_parts v); auto. apply custom_plain. eauto.
    - apply He. apply custom_err. exact C. }
  replace (coerce_query_value sch vars false (a_type f) (a_wrapping f) v) with (@Panic qval); [reflexivity|].
  unfold coerce_query_value, input_value. rewrite (denotes_is_list _ _ Tf). cbn [listp andb].
  rewrite snd_coerce by (intros x ->; apply Nv; exists x; reflexivity). rewrite (denotes_pop _ _ Tf).
  rewrite fst_coerce, Ht. cbn [coerce_scalar]. rewrite C. destruct v; auto; discriminate.
Qed.
Print Assumptions C72_custom_variable_panics.
(** [query($x: Int!) { f(j: [$x]) }] for [f(j: JSON!)]. *)
Theorem C72_no_panic_refuted :
  let sites := [SField [ad "j" 6 (Named true) None] [("j"%string, LList [LVar "x"])]] in
  let ps := [pv "x" 0 (Named true) None] in
  operation_ok ex_sch 5 ps sites /\ request_ok [("x"%string, JNum (PosInt 1))] /\
  arguments_sent ex_sch 5 ps sites [("x"%string, JNum (PosInt 1))] = Panic.
Proof.
  cbv zeta. split; [|split; [|vm_compute; reflexivity]].
  - split; [exact ex_sch_ok|]. split; [reflexivity|]. split; [intros p t _ _; apply ex_types|].
    intros defs args [E|[]]. injection E as <- _. split; [|nodup]. constructor; [|constructor].
    apply ad_ok; [apply ex_types|cbn; lia|discriminate].
  - constructor; [apply CS.jo_num|constructor].
Qed.
Print Assumptions C72_no_panic_refuted.
