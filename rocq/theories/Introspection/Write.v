(** The whole answer. *)
From Coq Require Import String List Bool NArith Arith Lia.
From Verif Require Import Wrapping.Model Wrapping.Spec Wrapping.Proofs Introspection.Model Introspection.Spec
  Introspection.Answers.
Import ListNotations.
Local Open Scope string_scope.
Local Open Scope list_scope.

Lemma shape_ind' (P : shape -> Prop)
  (H : forall fs tn, Forall (fun f => match snd f with Some s => P s | None => True end) fs -> P (Shape fs tn)) :
  forall s, P s.
Proof.
  fix IH 1. intros [fs tn]. apply H. revert fs. fix go 1. intros [|[i [s|]] fs]; constructor.
  - apply IH.
  - apply go.
  - exact Logic.I.
  - apply go.
Qed.

Section write.
  Variable g : schema.
  Variable c : cschema.
  Variable vars : string -> vvalue.
  Hypothesis wf : well_formed g.
  Hypothesis sh : shows g c.

  Ltac cases H := apply index_in in H; cbn [In __schema __type __field __input_value __directive __enum_value] in H;
    repeat (destruct H as [H|H]; [injection H as <- <-|]); [..|destruct H].

  Lemma keep_names l l' k : keep (fun d => t_hidden d = true) (shows_def g) l l' ->
    (forall n d, nth_error l n = Some d -> nth_error (s_types g) (k + n) = Some d) ->
    shows_names g (seq k (List.length l)) (map cd_name l').
  Proof.
    intros K. revert k. induction K as [|a l l' H K IH|a b l l' Nh Rab K IH]; intros k E; cbn [List.length seq map].
    - constructor.
    - pose proof (E 0 a eq_refl) as E0. rewrite Nat.add_0_r in E0. apply keep_hidden; [eauto|].
      apply (IH (S k)). intros n d Hn. rewrite Nat.add_succ_l, <- Nat.add_succ_r. now apply E.
    - pose proof (E 0 a eq_refl) as E0. rewrite Nat.add_0_r in E0. apply not_true_is_false in Nh. apply keep_shown.
      + intros (d & Ed & Hd). rewrite E0 in Ed. congruence.
      + exists a. split; [auto|split; [auto|]]. symmetry. apply Rab.
      + apply (IH (S k)). intros n d Hn. rewrite Nat.add_succ_l, <- Nat.add_succ_r. now apply E.
  Qed.
  Lemma all_names : shows_names g (seq 0 (List.length (s_types g))) (map cd_name (c_types c)).
  Proof. apply keep_names; [apply sh|]. intros n d H. exact H. Qed.
  Lemma root_same id n : shows_root g id n ->
    same g (match id with Some id => One (TgNamed id) | None => Value RNull end) (root n).
  Proof.
    destruct id as [id|], n as [n|]; cbn [shows_root root]; try contradiction; intros H; [|constructor].
    constructor. now constructor.
  Qed.
  Lemma Forall2_directives l cl : Forall2 (shows_directive g) l cl ->
    Forall2 (about g) (map TgDirective l) (map XDirective cl).
  Proof. apply Forall2_map_both. intros. now constructor. Qed.

  Ltac fin := eexists; split; [reflexivity|try (constructor; fail)].
  Ltac val := eexists; split; [reflexivity|constructor].

  Lemma answer_same t x i a : about g t x -> answer_of g vars t i = Done a ->
    exists r, reply_of c vars x (i_name i) (i_include i) = Some r /\ same g a r.
  Proof.
    intros Ab H. destruct i as [k n ar]. destruct Ab as [|id m Nm|id m Nm|id w u S|id w u S|d f cf Id If S|v cv S|d cd S|e cv S];
      cbn [answer_of i_name i_include reply_of] in *.
    - apply obind_done in H as (tag & Ht & H). cases Ht; cbn [schema_answer] in H; injection H as <-;
        (eexists; split; [reflexivity|]).
      + rewrite <- (sh_desc g c sh). constructor.
      + constructor. apply visible_types_about. apply all_names.
      + apply (root_same (Some (s_query g)) (Some (c_query c))). apply sh.
      + apply root_same, sh.
      + apply root_same, sh.
      + constructor. apply Forall2_directives, sh.
    - destruct (lookup_named g c wf sh id m Nm) as (d & cd & Ed & Id & En & L & Sd).
      rewrite Ed in H. cbn [unwrap obind] in H. apply obind_done in H as (tag & Ht & H).
      destruct Sd as [Sn Sde Sb]. unfold named_answer in H. remember (t_body d) as bo eqn:Eb.
      remember (cd_body cd) as cb eqn:Ecb.
      assert (Fo : forall fs, match bo with Object fs _ | Interface fs _ _ => fs | _ => [] end = fs -> fields_of d = fs)
        by (intros fs; unfold fields_of; now rewrite <- Eb).
      destruct Sb as [url|fs is cfs cis Sf Si|fs is ps cfs cis cps Sf Si Sp|ps cps Sp|vs cvs Sv|o fs cfs Sf].
      all: cases Ht; unfold reply_type; cbn [existsb String.eqb Ascii.eqb Bool.eqb orb]; rewrite L;
        rewrite <- ?Ecb; cbn [String.eqb Ascii.eqb Bool.eqb]; (eexists; split; [reflexivity|]).
      all: try (injection H as <-; rewrite ?En, <- ?Sde; constructor; fail).
      all: try (injection H as <-; rewrite ?En; try rewrite Sde; constructor; fail).
      all: try (injection H as <-; constructor; apply visible_types_about; assumption).
      all: try (eapply (fields_same g vars wf d); [exact Id|apply Fo; reflexivity|eassumption|exact H]).
      all: try (eapply values_same; eassumption).
      all: try (eapply inputs_same; eassumption).
    - apply obind_done in H as (tag & Ht & H). cases Ht; cbn [required_answer] in H; injection H as <-;
        (eexists; split; [reflexivity|]); constructor. now constructor.
    - apply obind_done in H as (tag & Ht & H). cases Ht; cbn [list_answer] in H;
        try (injection H as <-; eexists; split; [reflexivity|constructor]; fail).
      destruct (type_target_about g _ _ S) as (tg & Tg & Ab). rewrite Tg in H. cbn [obind] in H. injection H as <-.
      eexists; split; [reflexivity|]. now constructor.
    - apply obind_done in H as (tag & Ht & H). cases Ht; cbn [list_required_answer] in H;
        try (injection H as <-; eexists; split; [reflexivity|constructor]; fail).
      destruct (type_target_about g _ _ S) as (tg & Tg & Ab). rewrite Tg in H. cbn [obind] in H. injection H as <-.
      eexists; split; [reflexivity|]. now constructor.
    - destruct S as [Sn Sd Sa St Sp]. apply obind_done in H as (tag & Ht & H).
      cases Ht; cbn [field_answer] in H; (eexists; split; [reflexivity|]).
      + injection H as <-. rewrite Sn. constructor.
      + injection H as <-. rewrite Sd. constructor.
      + eapply inputs_same; eassumption.
      + injection H as <-. rewrite (is_deprecated_spec _ _ Sp). constructor.
      + injection H as <-. rewrite (reason_spec _ _ Sp). destruct (cf_dep cf) as [[r|]|]; constructor.
      + destruct (type_target_about g _ _ St) as (tg & Tg & Ab). rewrite Tg in H. cbn [obind] in H. injection H as <-.
        now constructor.
    - destruct S as [Sn Sd St Sde Sp]. apply obind_done in H as (tag & Ht & H).
      cases Ht; cbn [input_value_answer] in H; (eexists; split; [reflexivity|]).
      + injection H as <-. rewrite Sn. constructor.
      + injection H as <-. rewrite Sd. constructor.
      + injection H as <-. rewrite Sde. constructor.
      + destruct (type_target_about g _ _ St) as (tg & Tg & Ab). rewrite Tg in H. cbn [obind] in H. injection H as <-.
        now constructor.
      + injection H as <-. rewrite (is_deprecated_spec _ _ Sp). constructor.
      + injection H as <-. rewrite (reason_spec _ _ Sp). destruct (ci_dep cv) as [[r|]|]; constructor.
    - destruct S as [Sn Sd Sl Sa Sr]. apply obind_done in H as (tag & Ht & H).
      cases Ht; cbn [directive_answer] in H; (eexists; split; [reflexivity|]).
      + injection H as <-. rewrite Sn. constructor.
      + injection H as <-. rewrite Sd. constructor.
      + injection H as <-. rewrite Sl. constructor.
      + eapply inputs_same; eassumption.
      + injection H as <-. rewrite Sr. constructor.
    - destruct S as [Sn Sd Sp]. apply obind_done in H as (tag & Ht & H).
      cases Ht; cbn [enum_value_answer] in H; injection H as <-; (eexists; split; [reflexivity|]).
      + rewrite Sn. constructor.
      + rewrite Sd. constructor.
      + rewrite (is_deprecated_spec _ _ Sp). constructor.
      + rewrite (reason_spec _ _ Sp). destruct (cv_dep cv) as [[r|]|]; constructor.
  Qed.

  Lemma about_name t x : about g t x -> object_name t = typename x.
  Proof. intros Ab. destruct Ab; reflexivity. Qed.

  Lemma object_answers : forall s t x v, about g t x -> object g vars s t = Done v -> answers c vars s x v.
  Proof.
    induction s as [fs tn IH] using shape_ind'. intros t x v Ab H. cbn [object] in H.
    apply obind_done in H as (l & H & [= <-]). rewrite (about_name t x Ab). constructor.
    revert l H. induction fs as [|[i o] fs IHf]; intros l H; cbn [each] in H.
    - injection H as <-. constructor.
    - inversion IH as [|? ? IH1 IH2]; subst. specialize (IHf IH2). clear IH IH2.
      apply obind_done in H as (p & Hp & H). apply obind_done in H as (r & Hr & [= <-]).
      specialize (IHf r Hr). clear Hr.
      apply obind_done in Hp as (a & Ha & Hp). apply obind_done in Hp as (w & Hw & [= <-]).
      cbn [fst snd] in *. destruct (answer_same t x i a Ab Ha) as (rep & Er & Sm).
      destruct Sm as [w'|t' x' Ab'|ts xs F].
      + injection Hw as ->. now apply af_value.
      + destruct o as [s|]; [|discriminate]. eapply af_one; [exact Er|eapply IH1; eassumption|exact IHf].
      + destruct o as [s|]; [|discriminate]. apply obind_done in Hw as (vs & Hv & [= <-]).
        eapply af_many; [exact Er| |exact IHf]. clear Er Ha.
        revert vs Hv. induction F as [|t' x' ts xs Ab' F IHF]; intros vs Hv; cbn [each] in Hv.
        * injection Hv as <-. constructor.
        * apply obind_done in Hv as (v1 & H1 & Hv). apply obind_done in Hv as (vs' & H2 & [= <-]).
          constructor; [eapply IH1; eassumption|now apply IHF].
  Qed.

  (** ** No panic *)
  Lemma include_done a : not_null vars a -> exists b, include_deprecated vars a = Done b.
  Proof.
    destruct a as [| |b|x]; cbn [not_null include_deprecated]; try (eauto; fail); [easy|].
    destruct (vars x); intros Nn; eauto; congruence.
  Qed.
  Definition led (o : option string) (a : answer) : Prop :=
    match a with
    | Value _ => True
    | One t => o = Some (object_name t)
    | Many ts => exists n, o = Some n /\ Forall (fun t => object_name t = n) ts
    end.
  Lemma named_led ids : led (Some "__Type") (Many (visible_types g ids)).
  Proof.
    exists "__Type". split; [reflexivity|]. unfold visible_types. apply Forall_forall. intros t I.
    apply in_map_iff in I as (id & <- & _). reflexivity.
  Qed.
  Lemma type_led t x : about g t (XType x) -> led (Some "__Type") (One t).
  Proof. intros Ab. cbn [led]. now rewrite (about_name _ _ Ab). Qed.
  Lemma map_led {A} (f : A -> target) n l : (forall a, object_name (f a) = n) -> led (Some n) (Many (map f l)).
  Proof.
    intros E. exists n. split; [reflexivity|]. apply Forall_forall. intros t I. apply in_map_iff in I as (a & <- & _). apply E.
  Qed.

  Ltac pick H := cbn [members typename String.eqb Ascii.eqb Bool.eqb In] in H;
    repeat (destruct H as [H|H]; [injection H as <- <-|]); [..|destruct H].
  Ltac done := eexists; split; [reflexivity|];
    first [exact Logic.I | reflexivity | apply named_led | apply map_led; reflexivity | eapply type_led; eassumption].
  Lemma answer_total t x i o : about g t x -> In (i_name i, o) (members (typename x)) -> not_null vars (i_include i) ->
    exists a, answer_of g vars t i = Done a /\ led o a.
  Proof.
    intros Ab In_ Nn. destruct i as [k n ar]. cbn [i_name i_include] in *.
    destruct (include_done ar Nn) as (b & Hb).
    destruct Ab as [|id m Nm|id m Nm|id w u S|id w u S|d f cf Id If S|v cv S|d cd S|e cv S];
      cbn [answer_of i_name i_include].
    - pick In_; cbn [index __schema String.eqb Ascii.eqb Bool.eqb obind schema_answer]; try done.
      + destruct (s_mutation g); done.
      + destruct (s_subscription g); done.
    - destruct Nm as (d & Ed & _). rewrite Ed. cbn [unwrap obind].
      pick In_; cbn [index __type String.eqb Ascii.eqb Bool.eqb obind]; unfold named_answer, type_fields, enum_values, input_values;
        destruct (t_body d); rewrite ?Hb; cbn [obind]; done.
    - pick In_; cbn [index __type String.eqb Ascii.eqb Bool.eqb obind required_answer]; done.
    - destruct (type_target_about g _ _ S) as (tg & Tg & Ab).
      pick In_; cbn [index __type String.eqb Ascii.eqb Bool.eqb obind list_answer]; rewrite ?Tg; cbn [obind]; done.
    - destruct (type_target_about g _ _ S) as (tg & Tg & Ab).
      pick In_; cbn [index __type String.eqb Ascii.eqb Bool.eqb obind list_required_answer]; rewrite ?Tg; cbn [obind]; done.
    - destruct (type_target_about g _ _ (sf_ty _ _ _ S)) as (tg & Tg & Ab).
      pick In_; cbn [index __field String.eqb Ascii.eqb Bool.eqb obind field_answer]; unfold input_values; rewrite ?Tg, ?Hb; cbn [obind]; done.
    - destruct (type_target_about g _ _ (si_ty _ _ _ S)) as (tg & Tg & Ab).
      pick In_; cbn [index __input_value String.eqb Ascii.eqb Bool.eqb obind input_value_answer]; rewrite ?Tg; cbn [obind]; done.
    - pick In_; cbn [index __directive String.eqb Ascii.eqb Bool.eqb obind directive_answer]; unfold input_values; rewrite ?Hb; cbn [obind]; done.
    - pick In_; cbn [index __enum_value String.eqb Ascii.eqb Bool.eqb obind enum_value_answer]; done.
  Qed.

  Lemma object_total : forall s t x, about g t x -> valid vars (typename x) s -> exists v, object g vars s t = Done v.
  Proof.
    induction s as [fs tn IH] using shape_ind'. intros t x Ab V. cbn [object].
    inversion V as [? ? ? Vf]; subst. clear V.
    assert (E : exists l, each (fun f => obind (answer_of g vars t (fst f)) (fun a =>
          obind (match a with
                 | Value v => Done v
                 | One t => match snd f with Some s => object g vars s t | None => Panic end
                 | Many ts => match snd f with
                              | Some s => obind (each (object g vars s) ts) (fun l => Done (RList l))
                              | None => Panic
                              end
                 end) (fun v => Done (i_key (fst f), v)))) fs = Done l).
    { induction fs as [|[i o] fs IHf]; cbn [each]; [eauto|].
      inversion IH as [|? ? IH1 IH2]; subst. cbn [fst snd] in *.
      assert (Sub : forall a sub, led sub a -> same g a (RValue RNull) \/ True) by (right; exact Logic.I). clear Sub.
      inversion Vf as [|? ? ? ? Hin Nn Vr|? ? s sub ? Hin Nn Vs Vr]; subst.
      - destruct (answer_total t x i None Ab Hin Nn) as (a & Ha & L). destruct (IHf IH2 Vr) as (l & El). rewrite El.
        rewrite Ha. destruct a as [v|t'|ts]; cbn [led] in L; [cbn [obind]; eauto|discriminate|].
        destruct L as (? & ? & _). discriminate.
      - destruct (answer_total t x i (Some sub) Ab Hin Nn) as (a & Ha & L). destruct (IHf IH2 Vr) as (l & El). rewrite El.
        destruct (answer_same t x i a Ab Ha) as (rep & _ & Sm).
        rewrite Ha. cbn [obind]. destruct Sm as [v|t' x' Ab'|ts xs F]; cbn [led] in L; [cbn [obind]; eauto| |].
        + injection L as ->. rewrite (about_name _ _ Ab') in Vs. destruct (IH1 t' x' Ab' Vs) as (v & Ev). rewrite Ev. cbn [obind]. eauto.
        + destruct L as (m & [= ->] & Fm).
          assert (Q : exists vs, each (object g vars s) ts = Done vs).
          { clear Ha. induction F as [|t' x' ts xs Ab' F IHF]; cbn [each]; [eauto|].
            inversion Fm as [|? ? E1 Fm']; subst. destruct (IHF Fm') as (vs & ->).
            rewrite (about_name _ _ Ab') in Vs. destruct (IH1 t' x' Ab' Vs) as (v & ->). cbn [obind]. eauto. }
          destruct Q as (vs & ->). cbn [obind]. eauto. }
    destruct E as (l & E). rewrite E. cbn [obind]. eauto.
  Qed.

  (** ** The root *)
  Lemma position_some n types k id : position n types k = Some id ->
    exists d, nth_error types (id - k) = Some d /\ t_name d = n /\ k <= id.
  Proof.
    revert k. induction types as [|d types IH]; intros k; cbn [position]; [discriminate|].
    destruct (String.eqb_spec (t_name d) n) as [E|Ne].
    - intros [= <-]. exists d. rewrite Nat.sub_diag. split; [reflexivity|split; [auto|lia]].
    - intros H. destruct (IH (S k) H) as (d' & E & En & L). exists d'. split; [|split; [auto|lia]].
      replace (id - k) with (S (id - S k)) by lia. exact E.
  Qed.
  Lemma position_none n types k : position n types k = None -> forall d, In d types -> t_name d <> n.
  Proof.
    revert k. induction types as [|d types IH]; intros k H d' I; [easy|]. cbn [position] in H.
    destruct (String.eqb_spec (t_name d) n) as [E|Ne]; [discriminate|]. destruct I as [<-|I]; [auto|eapply IH; eauto].
  Qed.
  Lemma keep_back {A B} (hidden : A -> Prop) (R : A -> B -> Prop) l l' b :
    keep hidden R l l' -> In b l' -> exists a, In a l /\ ~ hidden a /\ R a b.
  Proof.
    induction 1 as [|a l l' H K IH|a b' l l' Nh Rab K IH]; [easy| |].
    - intros I. destruct (IH I) as (x & Ix & Q). exists x. split; [now right|auto].
    - intros [->|I]; [exists a; split; [now left|auto]|]. destruct (IH I) as (x & Ix & Q). exists x. split; [now right|auto].
  Qed.
  Lemma by_name_none n : type_definition_by_name g n = None -> lookup c n = None.
  Proof.
    intros H. unfold lookup. destruct (find _ (c_types c)) as [cd|] eqn:F; [|reflexivity]. exfalso.
    apply find_some in F as [I E]. apply String.eqb_eq in E.
    destruct (keep_back _ _ _ _ cd (sh_types g c sh) I) as (d & Id & _ & S).
    apply (position_none _ _ _ H d Id). rewrite <- (sd_name _ _ _ S). exact E.
  Qed.
  Lemma by_name_some n id : type_definition_by_name g n = Some id ->
    (hidden_type g id = false -> named g id n) /\ (hidden_type g id = true -> lookup c n = None).
  Proof.
    intros H. destruct (position_some _ _ _ _ H) as (d & E & En & _). rewrite Nat.sub_0_r in E.
    unfold hidden_type. rewrite E. split; intros Hd.
    - exists d. auto.
    - unfold lookup. destruct (find _ (c_types c)) as [cd|] eqn:F; [|reflexivity]. exfalso.
      apply find_some in F as [I Eq]. apply String.eqb_eq in Eq.
      destruct (keep_back _ _ _ _ cd (sh_types g c sh) I) as (d' & Id & Nh & S).
      assert (N2 : t_name d' = t_name d) by (rewrite <- (sd_name _ _ _ S), Eq; auto).
      assert (d' = d); [|subst d'; contradiction].
      pose proof (nth_error_In _ _ E) as Id0.
      destruct (In_nth_error _ _ Id) as (a & Ea).
      pose proof (wf_names g wf) as Nd. rewrite NoDup_nth_error in Nd.
      assert (a = id).
      { apply Nd; [rewrite map_length; apply nth_error_Some; congruence|].
        rewrite !nth_error_map, Ea, E. cbn [option_map]. now rewrite N2. }
      subst a. congruence.
  Qed.
End write.
