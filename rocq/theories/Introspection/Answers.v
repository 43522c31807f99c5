(** The writer and the specification step by step. *)
From Coq Require Import String List Bool NArith Arith Lia.
From Verif Require Import Wrapping.Model Wrapping.Spec Wrapping.Proofs Introspection.Model Introspection.Spec.
Import ListNotations.
Local Open Scope string_scope.
Local Open Scope list_scope.

Lemma index_in {E} (l : list (string * E)) n e : index l n = Done e -> In (n, e) l.
Proof.
  induction l as [|[m f] l IH]; cbn [index]; [discriminate|].
  destruct (String.eqb_spec m n) as [->|Ne]; [intros [= ->]; left; reflexivity|].
  intros H. right. auto.
Qed.

Lemma obind_done {A B} (o : outcome A) (k : A -> outcome B) b :
  obind o k = Done b -> exists a, o = Done a /\ k a = Done b.
Proof. destruct o as [a|]; [intros H; exists a; auto|discriminate]. Qed.

(** ** Lists *)
Lemma keep_filter {A B} (hidden : A -> Prop) (p : A -> bool) (R : A -> B -> Prop) (q : B -> bool) l l' :
  (forall a, In a l -> hidden a -> p a = false) ->
  (forall a b, In a l -> ~ hidden a -> R a b -> p a = q b) ->
  keep hidden R l l' -> Forall2 R (filter p l) (filter q l').
Proof.
  intros Hh Hr K. induction K as [|a l l' H K IH|a b l l' Nh Rab K IH]; cbn [filter]; [constructor| |].
  - rewrite (Hh a (or_introl eq_refl) H). apply IH; intros; [apply Hh|apply Hr]; auto; right; auto.
  - assert (I : Forall2 R (filter p l) (filter q l'))
      by (apply IH; intros; [apply Hh|apply Hr]; auto; right; auto).
    rewrite (Hr a b (or_introl eq_refl) Nh Rab). destruct (q b); [constructor; auto|exact I].
Qed.
Lemma keep_with_in {A B} (hidden : A -> Prop) (R : A -> B -> Prop) l l' :
  keep hidden R l l' -> keep hidden (fun a b => In a l /\ R a b) l l'.
Proof.
  assert (G : forall l0 l l', (forall a, In a l -> In a l0) -> keep hidden R l l' ->
    keep hidden (fun a b => In a l0 /\ R a b) l l').
  { intros l0 m m' Sub K. induction K as [|a m m' H K IH|a b m m' Nh Rab K IH]; [constructor| |].
    - apply keep_hidden; auto. apply IH. intros x Ix. apply Sub. now right.
    - apply keep_shown; auto; [split; [apply Sub; now left|auto]|]. apply IH. intros x Ix. apply Sub. now right. }
  apply G. auto.
Qed.
Lemma filter_true {A} (l : list A) : filter (fun _ => true) l = l.
Proof. induction l as [|a l IH]; [reflexivity|cbn [filter]; now rewrite IH]. Qed.
Lemma Forall2_map_both {A B C D} (f : A -> C) (h : B -> D) (R : A -> B -> Prop) (T : C -> D -> Prop) l l' :
  (forall a b, R a b -> T (f a) (h b)) -> Forall2 R l l' -> Forall2 T (map f l) (map h l').
Proof. intros H F. induction F; cbn [map]; constructor; auto. Qed.

(** ** Deprecation *)
Lemma is_deprecated_spec dirs d : deprecated_as dirs d ->
  is_deprecated dirs = match d with Some _ => true | None => false end.
Proof. induction 1 as [|l d H IH|l r H IH]; cbn [is_deprecated existsb] in *; auto. Qed.
Lemma reason_none dirs : deprecated_as dirs None -> deprecation_reason dirs = None.
Proof.
  remember None as d eqn:E. induction 1 as [|l d H IH|l r H IH]; cbn [deprecation_reason]; auto. discriminate.
Qed.
Lemma reason_spec dirs d : deprecated_as dirs d ->
  deprecation_reason dirs = match d with Some r => r | None => None end.
Proof.
  induction 1 as [|l d H IH|l r H IH]; cbn [deprecation_reason]; auto.
  destruct r; [reflexivity|]. apply reason_none; auto.
Qed.

(** ** Wrappings *)
Lemma denotes_push w e : denotes w e -> depth e < 10 ->
  exists w', push_outermost_list_wrapping w LList = Some w' /\ denotes w' (ListOf e false).
Proof.
  intros (ops & S & R) D. cbn [push_outermost_list_wrapping].
  assert (Q : srun (Named false) (ops ++ [SList]) = Some (ListOf e false)).
  { rewrite srun_app, S. cbn [srun sstep depth]. destruct (Nat.leb_spec (Datatypes.S (depth e)) 10); [reflexivity|lia]. }
  change new with (enc (Named false)) in *.
  pose proof (run_refines (ops ++ [SList]) (Named false) ltac:(cbn; lia)) as E.
  rewrite Q in E. cbn [option_map] in E. rewrite map_app in E.
  assert (RA : forall a b w0, run w0 (a ++ b) = match run w0 a with Some w1 => run w1 b | None => None end).
  { induction a as [|o a IH]; intros b w0; cbn [run app]; [reflexivity|]. destruct (step w0 o); auto. }
  rewrite RA, R in E. cbn [map op_of run step] in E.
  destruct (list_ w) as [w'|] eqn:L; [|discriminate]. exists w'. split; [reflexivity|].
  exists (ops ++ [SList]). split; [exact Q|].
  rewrite map_app, RA. change new with (enc (Named false)). rewrite R. cbn [map op_of run step]. now rewrite L.
Qed.

Section about.
  Variable g : schema.
  Variable c : cschema.
  Variable vars : string -> vvalue.
  Hypothesis wf : well_formed g.
  Hypothesis sh : shows g c.

  Inductive about : target -> thing -> Prop :=
  | ab_schema : about TgSchema XSchema
  | ab_named id n : named g id n -> about (TgNamed id) (XType (CNamed n))
  | ab_required id n : named g id n -> about (TgRequired id) (XType (CNonNull (CNamed n)))
  | ab_list id w t : shows_type g (id, w) t -> about (TgList id w) (XType (CList t))
  | ab_list_required id w t : shows_type g (id, w) t -> about (TgListRequired id w) (XType (CNonNull t))
  | ab_field d f cf : In d (s_types g) -> In f (fields_of d) -> shows_field g f cf -> about (TgField f) (XField cf)
  | ab_input v cv : shows_input g v cv -> about (TgInput v) (XInput cv)
  | ab_directive d cd : shows_directive g d cd -> about (TgDirective d) (XDirective cd)
  | ab_value e cv : shows_value e cv -> about (TgEnumValue e) (XValue cv).

  Lemma type_target_about ty t : shows_type g ty t ->
    exists tg, type_target ty = Done tg /\ about tg (XType t).
  Proof.
    destruct ty as [id w]. intros (u & n & D & Nm & ->). cbn [fst snd] in *.
    pose proof (denotes_pop w u D) as P. unfold type_target. destruct u as [r|e r].
    - rewrite P. rewrite (denotes_is_non_null _ _ D). cbn [required]. destruct r; cbn [ctype_of];
        eexists; (split; [reflexivity|]); constructor; auto.
    - destruct P as (w' & P & D'). rewrite P. destruct r; cbn [lw_of ctype_of].
      + assert (De : depth e < 10).
        { apply denotes_iff in D. destruct D as [D _]. cbn [depth] in D. lia. }
        destruct (denotes_push w' e D' De) as (w'' & Q & D''). rewrite Q. cbn [unwrap obind].
        eexists. split; [reflexivity|]. constructor. exists (ListOf e false), n. auto.
      + eexists. split; [reflexivity|]. constructor. exists e, n. auto.
  Qed.

  (** ** Definitions by name *)
  Lemma keep_in {A B} (hidden : A -> Prop) (R : A -> B -> Prop) l l' a :
    keep hidden R l l' -> In a l -> ~ hidden a -> exists b, In b l' /\ R a b.
  Proof.
    induction 1 as [|x l l' H K IH|x y l l' Nh Rxy K IH]; cbn [In]; [easy| |].
    - intros [->|I] Na; [contradiction|]. destruct (IH I Na) as (b & Ib & Rb). eauto.
    - intros [->|I] Na; [exists y; auto|]. destruct (IH I Na) as (b & Ib & Rb). eauto.
  Qed.
  Lemma find_shown l l' n : NoDup (map t_name l) -> keep (fun d => t_hidden d = true) (shows_def g) l l' ->
    forall d, In d l -> t_hidden d = false -> t_name d = n ->
    exists cd, find (fun x => String.eqb (cd_name x) n) l' = Some cd /\ shows_def g d cd.
  Proof.
    intros Nd K. induction K as [|x l l' H K IH|x y l l' Nh Rxy K IH]; intros d I Hd E; [easy| |].
    - cbn [map] in Nd. inversion Nd as [|? ? Nx Nl]; subst. destruct I as [->|I]; [congruence|]. apply IH; auto.
    - cbn [map] in Nd. inversion Nd as [|? ? Nx Nl]; subst. cbn [find].
      rewrite (sd_name g x y Rxy). destruct I as [->|I].
      + rewrite String.eqb_refl. eauto.
      + destruct (String.eqb_spec (t_name x) (t_name d)) as [E|_].
        * exfalso. apply Nx. rewrite E. now apply in_map.
        * apply IH; auto.
  Qed.
  Lemma lookup_named id n : named g id n ->
    exists d cd, nth_error (s_types g) id = Some d /\ In d (s_types g) /\ t_name d = n /\ lookup c n = Some cd /\ shows_def g d cd.
  Proof.
    intros (d & Ed & Hd & En). pose proof (nth_error_In _ _ Ed) as I.
    destruct (find_shown _ _ n (wf_names g wf) (sh_types g c sh) d I Hd En) as (cd & F & S).
    exists d, cd. auto.
  Qed.

  (** ** Answers and replies *)
  Inductive same : answer -> reply -> Prop :=
  | same_value v : same (Value v) (RValue v)
  | same_one t x : about t x -> same (One t) (ROne x)
  | same_many ts xs : Forall2 about ts xs -> same (Many ts) (RMany xs).

  Lemma include_spec a b : include_deprecated vars a = Done b -> included vars a = b.
  Proof.
    destruct a as [| |b'|x]; cbn [include_deprecated included]; try congruence.
    destruct (vars x); congruence.
  Qed.
  Lemma shown_type_hidden id n : named g id n -> hidden_type g id = false.
  Proof. intros (d & E & H & _). unfold hidden_type. now rewrite E. Qed.
  Lemma visible_types_about ids names : shows_names g ids names ->
    Forall2 about (visible_types g ids) (map (fun n => XType (CNamed n)) names).
  Proof.
    intros K. unfold visible_types. apply (Forall2_map_both _ _ (named g)); [intros; now constructor|].
    rewrite <- (filter_true names). eapply keep_filter; [| |exact K].
    - intros id _ (d & E & H). cbn beta. unfold hidden_type. now rewrite E, H.
    - intros id n _ _ Nm. cbn beta. now rewrite (shown_type_hidden id n Nm).
  Qed.
  Lemma inputs_same a l cl r : shows_inputs g l cl -> input_values vars a l = Done r -> same r (inputs vars a cl).
  Proof.
    intros K H. unfold input_values in H. apply obind_done in H as (b & Hb & [= <-]).
    unfold inputs. constructor. apply (Forall2_map_both _ _ (shows_input g)); [intros; now constructor|].
    eapply keep_filter; [| |exact K]; cbn beta.
    - intros v _ ->. reflexivity.
    - intros v cv _ Nh S. apply not_true_is_false in Nh. rewrite Nh.
      rewrite (is_deprecated_spec _ _ (si_dep _ _ _ S)). unfold wanted. destruct (ci_dep cv); [|reflexivity].
      cbn [negb orb andb]. now rewrite (include_spec _ _ Hb).
  Qed.
  Lemma values_same a l cl r : shows_values l cl -> enum_values vars a l = Done r ->
    same r (RMany (map XValue (filter (fun v => wanted vars a (cv_dep v)) cl))).
  Proof.
    intros K H. unfold enum_values in H. apply obind_done in H as (b & Hb & [= <-]).
    constructor. apply (Forall2_map_both _ _ shows_value); [intros; now constructor|].
    eapply keep_filter; [| |exact K]; cbn beta.
    - intros v _ ->. reflexivity.
    - intros v cv _ Nh S. apply not_true_is_false in Nh. rewrite Nh.
      rewrite (is_deprecated_spec _ _ (sv_dep _ _ S)). unfold wanted. destruct (cv_dep cv); [|reflexivity].
      cbn [negb orb andb]. now rewrite (include_spec _ _ Hb).
  Qed.
  Lemma fields_same d a l cl r : In d (s_types g) -> fields_of d = l -> shows_fields g l cl -> type_fields g vars a l = Done r ->
    same r (RMany (map XField (filter (fun f => wanted vars a (cf_dep f)) cl))).
  Proof.
    intros Id El K H. unfold type_fields in H. apply obind_done in H as (b & Hb & [= <-]).
    constructor.
    apply (Forall2_map_both _ _ (fun f cf => In f l /\ shows_field g f cf));
      [intros f cf [If S]; apply (ab_field d); auto; now rewrite El|].
    assert (M : forall f, In f l -> meta_field g f = true <-> introspection_field f).
    { intros f If. rewrite <- El in If. destruct (wf_meta g wf d f Id If) as [M1 M2]. unfold introspection_field.
  unfold meta_field. cbn [existsb]. rewrite orb_false_r, orb_true_iff, !Nat.eqb_eq. tauto. }
    assert (K' : keep (fun f => f_hidden f = true \/ introspection_field f) (fun f cf => In f l /\ shows_field g f cf) l cl).
    { apply keep_with_in. exact K. }
    eapply keep_filter; [| |exact K']; cbn beta.
    - intros f If [->|Mf]; [reflexivity|]. apply (M f If) in Mf. rewrite Mf. cbn [negb]. now rewrite andb_false_r.
    - intros f cf If Nh [_ S]. destruct (f_hidden f) eqn:Hf; [exfalso; auto|].
      destruct (meta_field g f) eqn:Ex;
        [exfalso; apply Nh; right; now apply M|].
      rewrite (is_deprecated_spec _ _ (sf_dep _ _ _ S)). unfold wanted. destruct (cf_dep cf); cbn [negb orb andb]; [|reflexivity].
      rewrite andb_true_r. symmetry. now apply include_spec.
  Qed.
End about.
