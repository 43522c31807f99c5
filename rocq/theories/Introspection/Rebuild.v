(** A client builds the visible schema from the answer. *)
From Coq Require Import String List Bool Arith Lia.
From Verif Require Import Introspection.Model Introspection.Spec Introspection.Client.
Import ListNotations.
Local Open Scope string_scope.
Local Open Scope list_scope.

Section rebuild.
  Variable c : cschema.
  Variable vars : string -> vvalue.

  Lemma answers_inv fs x v : answers c vars (Shape fs []) x v -> exists l, v = RObj l /\ answers_fields c vars fs x l.
  Proof. intros H. inversion H as [? ? ? l F]; subst. exists l. cbn [map]. rewrite app_nil_r. auto. Qed.
  Lemma leaf_inv n fs x l : answers_fields c vars (leaf n :: fs) x l ->
    exists v l', l = (n, v) :: l' /\ reply_of c vars x n ADefault = Some (RValue v) /\ answers_fields c vars fs x l'.
  Proof. intros H. inversion H; subst; cbn [i_key i_name i_include] in *; eauto. Qed.
  (** A selection on a field leads to one thing, to many or to null. *)
  Definition leads (r : option reply) (s : shape) (v : value) : Prop :=
    match r with
    | Some (RValue w) => v = w
    | Some (ROne y) => answers c vars s y v
    | Some (RMany ys) => exists vs, v = RList vs /\ answers_each c vars s ys vs
    | None => False
    end.
  Lemma node_inv n s fs x l : answers_fields c vars (node n s :: fs) x l ->
    exists v l', l = (n, v) :: l' /\ leads (reply_of c vars x n ADefault) s v /\ answers_fields c vars fs x l'.
  Proof.
    intros H. inversion H as [|? ? ? ? v l' E F|? ? ? ? y v l' E A F|? ? ? ? ys vs l' E A F]; subst;
      cbn [i_key i_name i_include] in *; eexists; eexists; (split; [reflexivity|]); (split; [|exact F]);
      unfold leads; rewrite E; eauto.
  Qed.
  Lemma node_all_inv n s fs x l : answers_fields c vars (node_all n s :: fs) x l ->
    exists v l', l = (n, v) :: l' /\ leads (reply_of c vars x n (ABool true)) s v /\ answers_fields c vars fs x l'.
  Proof.
    intros H. inversion H as [|? ? ? ? v l' E F|? ? ? ? y v l' E A F|? ? ? ? ys vs l' E A F]; subst;
      cbn [i_key i_name i_include] in *; eexists; eexists; (split; [reflexivity|]); (split; [|exact F]);
      unfold leads; rewrite E; eauto.
  Qed.
  Lemma nil_inv x l : answers_fields c vars [] x l -> l = [].
  Proof. intros H. inversion H; reflexivity. Qed.

  Ltac open := repeat match goal with
    | H : answers _ _ _ _ ?v |- _ => is_var v; apply answers_inv in H; destruct H as (? & -> & H)
    | H : answers_fields _ _ (leaf _ :: _) _ _ |- _ => apply leaf_inv in H; destruct H as (? & ? & -> & ? & H)
    | H : answers_fields _ _ (node _ _ :: _) _ _ |- _ => apply node_inv in H; destruct H as (? & ? & -> & ? & H)
    | H : answers_fields _ _ (node_all _ _ :: _) _ _ |- _ => apply node_all_inv in H; destruct H as (? & ? & -> & ? & H)
    | H : answers_fields _ _ [] _ _ |- _ => apply nil_inv in H; subst
    end.

  Lemma read_each {A} s (rd : value -> option A) (h : thing -> A) xs vs : answers_each c vars s xs vs ->
    (forall x v, In x xs -> answers c vars s x v -> rd v = Some (h x)) -> collect rd vs = Some (map h xs).
  Proof.
    induction 1 as [s|s x v xs vs Ax E IH]; intros H; [reflexivity|]. cbn [collect map].
    rewrite (H x v (or_introl eq_refl) Ax). cbn [obind]. rewrite IH; [reflexivity|].
    intros y w I. apply H. now right.
  Qed.

  Lemma kind_other b : kind b <> "NON_NULL" /\ kind b <> "LIST".
  Proof. destruct b; split; discriminate. Qed.

  Lemma lookup_name n cd : lookup c n = Some cd -> cd_name cd = n.
  Proof. intros H. apply find_some in H as [_ H]. now apply String.eqb_eq in H. Qed.

  Lemma read_type_ok : forall t d v, wraps t <= d -> answers c vars (type_ref d) (XType t) v -> read_type d v = Some t.
  Proof.
    induction t as [n|t IH|t IH]; intros d v W H; cbn [wraps] in W.
    - assert (R : exists cd l, v = RObj (("kind", RStr (kind (cd_body cd))) :: ("name", RStr n) :: l)).
      { unfold type_ref in H. destruct d; fold type_ref in H; open;
          cbn in *; destruct (lookup c n) as [cd|] eqn:L; try discriminate; exists cd; eexists;
          repeat match goal with E : Some _ = Some _ |- _ => injection E as <- end; reflexivity. }
      destruct R as (cd & l & ->). destruct (kind_other (cd_body cd)) as [K1 K2].
      destruct d; cbn [read_type]; unfold get_str, get; cbn [find fst String.eqb Ascii.eqb Bool.eqb obind];
        rewrite (proj2 (String.eqb_neq _ _) K1), (proj2 (String.eqb_neq _ _) K2); reflexivity.
    - destruct d as [|d]; [lia|]. cbn [type_ref] in H. open. cbn in *.
      repeat match goal with E : Some _ = Some _ |- _ => injection E as <- end. subst.
      unfold get_str, get. cbn. rewrite (IH d); [reflexivity|lia|assumption].
    - destruct d as [|d]; [lia|]. cbn [type_ref] in H. open. cbn in *.
      repeat match goal with E : Some _ = Some _ |- _ => injection E as <- end. subst.
      unfold get_str, get. cbn. rewrite (IH d); [reflexivity|lia|assumption].
  Qed.

  Section depth.
    Variable d : nat.

    Definition the_input (x : thing) : cinput :=
      match x with XInput v => v | _ => {| ci_name := ""; ci_desc := None; ci_ty := CNamed ""; ci_default := None; ci_dep := None |} end.
    Ltac values := repeat match goal with
      | E : Some (RValue _) = Some (RValue _) |- _ => injection E as E; subst
      end.
    Lemma flag_reason (dp : deprecation) :
      (let b := match dp with Some _ => true | None => false end in
       let r := match dp with Some (Some r) => Some r | _ => None end in
       if b then Some r else None) = dp.
    Proof. destruct dp as [[r|]|]; reflexivity. Qed.
    Lemma read_dep_ok dp v : get "isDeprecated" v = Some (RBool (match dp with Some _ => true | None => false end)) ->
      get "deprecationReason" v = Some (match dp with Some (Some r) => RStr r | _ => RNull end) -> read_dep v = Some dp.
    Proof.
      intros E1 E2. unfold read_dep, get_bool, get_opt. rewrite E1, E2. destruct dp as [[r|]|]; reflexivity.
    Qed.
    Lemma get_opt_ok k (o : option string) v : get k v = Some (match o with Some s => RStr s | None => RNull end) ->
      get_opt k v = Some o.
    Proof. intros E. unfold get_opt. rewrite E. destruct o; reflexivity. Qed.

    Ltac opt o := rewrite (get_opt_ok _ o) by reflexivity; cbn [obind].
    Lemma read_input_ok ci v : wraps (ci_ty ci) <= d -> answers c vars (input_shape d) (XInput ci) v ->
      read_input d v = Some ci.
    Proof.
      intros W H. unfold input_shape in H. open. cbn [reply_of one_of find fst String.eqb Ascii.eqb Bool.eqb] in *.
      unfold text, flag, reason in *. values. cbn [leads] in *.
      match goal with A : answers c vars (type_ref d) _ _ |- _ => apply (read_type_ok _ _ _ W) in A as T end.
      unfold read_input. cbn [get_str get find fst String.eqb Ascii.eqb Bool.eqb obind].
      opt (ci_desc ci). cbn [get find fst String.eqb Ascii.eqb Bool.eqb obind]. rewrite T. cbn [obind].
      opt (ci_default ci). rewrite (read_dep_ok (ci_dep ci)) by reflexivity. cbn [obind]. destruct ci; reflexivity.
    Qed.
    Lemma filter_wanted {A} (dep : A -> deprecation) l : filter (fun f => wanted vars (ABool true) (dep f)) l = l.
    Proof.
      induction l as [|a l IH]; [reflexivity|]. cbn [filter]. unfold wanted at 1.
      destruct (dep a); cbn [included]; now rewrite IH.
    Qed.
    Lemma read_inputs_ok l vs : shallow_inputs d l ->
      answers_each c vars (input_shape d) (map XInput (filter (fun v => wanted vars (ABool true) (ci_dep v)) l)) vs ->
      collect (read_input d) vs = Some l.
    Proof.
      intros Sl H. rewrite filter_wanted in H. rewrite (read_each _ _ the_input _ _ H).
      - rewrite map_map. f_equal. apply map_id.
      - intros x v I A. apply in_map_iff in I as (ci & <- & I). cbn [the_input]. apply read_input_ok; auto.
        unfold shallow_inputs in Sl. rewrite Forall_forall in Sl. auto.
    Qed.

    Definition the_field (x : thing) : cfield :=
      match x with XField v => v | _ => {| cf_name := ""; cf_desc := None; cf_args := []; cf_ty := CNamed ""; cf_dep := None |} end.
    Lemma read_field_ok cf v : wraps (cf_ty cf) <= d -> shallow_inputs d (cf_args cf) ->
      answers c vars (field_shape d) (XField cf) v -> read_field d v = Some cf.
    Proof.
      intros W Sl H. unfold field_shape in H. open. cbn [reply_of one_of find fst String.eqb Ascii.eqb Bool.eqb] in *.
      unfold text, flag, reason, inputs in *. values. cbn [leads] in *.
      match goal with A : exists vs, _ |- _ => destruct A as (vs & -> & A); pose proof (read_inputs_ok _ _ Sl A) as Q end.
      match goal with A : answers c vars (type_ref d) _ _ |- _ => apply (read_type_ok _ _ _ W) in A as T end.
      unfold read_field. cbn [get_str get find fst String.eqb Ascii.eqb Bool.eqb obind].
      opt (cf_desc cf). unfold get_list. cbn [get find fst String.eqb Ascii.eqb Bool.eqb obind]. rewrite Q. cbn [obind]. rewrite T. cbn [obind].
      rewrite (read_dep_ok (cf_dep cf)) by reflexivity. cbn [obind]. destruct cf; reflexivity.
    Qed.
    Lemma read_fields_ok l vs : shallow_fields d l ->
      answers_each c vars (field_shape d) (map XField (filter (fun v => wanted vars (ABool true) (cf_dep v)) l)) vs ->
      collect (read_field d) vs = Some l.
    Proof.
      intros Sl H. rewrite filter_wanted in H. rewrite (read_each _ _ the_field _ _ H).
      - rewrite map_map. f_equal. apply map_id.
      - intros x v I A. apply in_map_iff in I as (cf & <- & I). cbn [the_field].
        unfold shallow_fields in Sl. rewrite Forall_forall in Sl. destruct (Sl cf I). apply read_field_ok; auto.
    Qed.
    Definition the_value (x : thing) : cvalue :=
      match x with XValue v => v | _ => {| cv_name := ""; cv_desc := None; cv_dep := None |} end.
    Lemma read_value_ok cv v : answers c vars value_shape (XValue cv) v -> read_value v = Some cv.
    Proof.
      intros H. unfold value_shape in H. open. cbn [reply_of one_of find fst String.eqb Ascii.eqb Bool.eqb] in *.
      unfold text, flag, reason in *. values.
      unfold read_value. cbn [get_str get find fst String.eqb Ascii.eqb Bool.eqb obind].
      opt (cv_desc cv). rewrite (read_dep_ok (cv_dep cv)) by reflexivity. cbn [obind]. destruct cv; reflexivity.
    Qed.
    Lemma read_values_ok l vs :
      answers_each c vars value_shape (map XValue (filter (fun v => wanted vars (ABool true) (cv_dep v)) l)) vs ->
      collect read_value vs = Some l.
    Proof.
      intros H. rewrite filter_wanted in H. rewrite (read_each _ _ the_value _ _ H).
      - rewrite map_map. f_equal. apply map_id.
      - intros x v I A. apply in_map_iff in I as (cf & <- & I). cbn [the_value]. now apply read_value_ok.
    Qed.
    Definition the_name (x : thing) : string := match x with XType (CNamed n) => n | _ => "" end.
    Lemma read_names_ok l vs :
      answers_each c vars (type_ref d) (map (fun n => XType (CNamed n)) l) vs -> collect (read_name d) vs = Some l.
    Proof.
      intros H. rewrite (read_each _ _ the_name _ _ H).
      - rewrite map_map. f_equal. apply map_id.
      - intros x v I A. apply in_map_iff in I as (n & <- & I). cbn [the_name]. unfold read_name.
        rewrite (read_type_ok (CNamed n) d v); [reflexivity|cbn; lia|exact A].
    Qed.
    Lemma read_def_ok n cd v : lookup c n = Some cd -> shallow_def d cd ->
      answers c vars (type_shape d) (XType (CNamed n)) v -> read_def d v = Some cd.
    Proof.
      intros L Sl H. unfold type_shape in H. open.
      cbn [reply_of] in *. unfold reply_type in *. cbn [existsb String.eqb Ascii.eqb Bool.eqb orb] in *. rewrite L in *.
      pose proof (lookup_name _ _ L) as En. unfold shallow_def in Sl.
      destruct (cd_body cd) as [url|fs is|fs is ps|ps|vs|fs] eqn:Eb;
        cbn [String.eqb Ascii.eqb Bool.eqb kind] in *; unfold text, null, types, inputs in *; values; cbn [leads] in *;
        repeat match goal with A : exists vs, _ = _ /\ _ |- _ => destruct A as (? & -> & A) end; subst;
        repeat match goal with
        | A : answers_each c vars (field_shape d) _ _ |- _ => apply (read_fields_ok _ _ Sl) in A
        | A : answers_each c vars (input_shape d) _ _ |- _ => apply (read_inputs_ok _ _ Sl) in A
        | A : answers_each c vars value_shape _ _ |- _ => apply read_values_ok in A
        | A : answers_each c vars (type_ref d) _ _ |- _ => apply read_names_ok in A
        end;
        unfold read_def; cbn [get_str get find fst String.eqb Ascii.eqb Bool.eqb obind];
        opt (cd_desc cd); unfold read_body, get_list; cbn [get_str get find fst String.eqb Ascii.eqb Bool.eqb obind];
        repeat match goal with A : collect _ ?v = Some _ |- _ => rewrite A; clear A; cbn [obind option_map] end;
        cbn [option_map obind]; try (opt url; cbn [option_map obind]);
        destruct cd as [nm ds bd]; cbn [cd_name cd_desc cd_body] in *; subst bd; subst; reflexivity.
    Qed.
    Definition the_directive (x : thing) : cdirective :=
      match x with XDirective v => v
      | _ => {| cx_name := ""; cx_desc := None; cx_locations := []; cx_args := []; cx_repeatable := false |} end.
    Lemma read_directive_ok cx v : shallow_inputs d (cx_args cx) ->
      answers c vars (directive_shape d) (XDirective cx) v -> read_directive d v = Some cx.
    Proof.
      intros Sl H. unfold directive_shape in H. open. cbn [reply_of one_of find fst String.eqb Ascii.eqb Bool.eqb] in *.
      unfold text, inputs in *. values. cbn [leads] in *.
      match goal with A : exists vs, _ |- _ => destruct A as (vs & -> & A); pose proof (read_inputs_ok _ _ Sl A) as Q end.
      unfold read_directive. cbn [get_str get find fst String.eqb Ascii.eqb Bool.eqb obind].
      opt (cx_desc cx). unfold get_list. cbn [get find fst String.eqb Ascii.eqb Bool.eqb obind].
      assert (Lo : forall l, collect (fun v => match v with RStr s => Some s | _ => None end) (map RStr l) = Some l).
      { induction l as [|s l IH]; [reflexivity|]. cbn [map collect obind]. now rewrite IH. }
      rewrite Lo. cbn [obind]. rewrite Q. unfold get_bool. cbn [get find fst String.eqb Ascii.eqb Bool.eqb obind].
      destruct cx; reflexivity.
    Qed.
    Lemma read_root_ok k o v w : get k w = Some v -> leads (Some (root o)) (Shape [leaf "name"] []) v ->
      read_root k w = Some o.
    Proof.
      intros E H. unfold read_root. rewrite E. destruct o as [n|]; cbn [root leads null] in H.
      - open. cbn [reply_of] in *. unfold reply_type in *. cbn [existsb String.eqb Ascii.eqb Bool.eqb orb] in *.
        destruct (lookup c n); [|discriminate]. values. reflexivity.
      - subst v. reflexivity.
    Qed.

    Lemma read_schema_ok v : NoDup (map cd_name (c_types c)) -> shallow d c ->
      answers c vars (introspection_query d) XSchema v -> read_schema d v = Some c.
    Proof.
      intros Nd [Sl Sd] H. unfold introspection_query in H. open.
      cbn [reply_of one_of find fst String.eqb Ascii.eqb Bool.eqb] in *. unfold text, types in *. values.
      match goal with
      | A : leads (Some (root (c_mutation c))) _ ?v |- _ => rename A into Hm
      end.
      match goal with A : leads (Some (root (c_subscription c))) _ ?v |- _ => rename A into Hs end.
      match goal with A : leads (Some (root (Some (c_query c)))) _ ?v |- _ => rename A into Hq end.
      cbn [leads] in *.
      repeat match goal with A : exists vs, _ = RList _ /\ _ |- _ => destruct A as (? & -> & A) end.
      match goal with A : answers_each c vars (type_shape d) _ ?vs |- _ =>
        assert (Ht : collect (read_def d) vs = Some (c_types c)) end.
      { match goal with A : answers_each c vars (type_shape d) _ _ |- _ => rename A into At end.
        rewrite map_map in At.
        assert (Q : forall l vs, (forall cd, In cd l -> lookup c (cd_name cd) = Some cd /\ shallow_def d cd) ->
          answers_each c vars (type_shape d) (map (fun x => XType (CNamed (cd_name x))) l) vs ->
          collect (read_def d) vs = Some l).
        { induction l as [|cd l IH]; intros vs Hl A; inversion A as [|? ? w ? ws A1 A2]; subst; [reflexivity|].
          destruct (Hl cd (or_introl eq_refl)) as [L S1]. cbn [collect]. rewrite (read_def_ok _ _ _ L S1 A1). cbn [obind].
          rewrite (IH ws); [reflexivity| |exact A2]. intros cd2 Ix. apply Hl. now right. }
        apply Q in At; [exact At|]. intros cd I. split; [|rewrite Forall_forall in Sl; auto].
        unfold lookup. clear - Nd I. induction (c_types c) as [|a l IH]; [easy|]. cbn [find map] in *.
        inversion Nd as [|? ? Na Nl]; subst. destruct I as [->|I]; [now rewrite String.eqb_refl|].
        destruct (String.eqb_spec (cd_name a) (cd_name cd)) as [E|_]; [|auto].
        exfalso. apply Na. rewrite E. now apply in_map. }
      match goal with A : answers_each c vars (directive_shape d) _ ?vs |- _ =>
        assert (Hd : collect (read_directive d) vs = Some (c_directives c)) end.
      { match goal with A : answers_each c vars (directive_shape d) _ _ |- _ => rename A into Ad end.
        rewrite (read_each _ _ the_directive _ _ Ad); [rewrite map_map; f_equal; apply map_id|].
        intros y w I A. apply in_map_iff in I as (cx & <- & I). cbn [the_directive]. apply read_directive_ok; auto.
        rewrite Forall_forall in Sd. auto. }
      unfold read_schema. opt (c_desc c).
      cbn [root leads] in Hq. match type of Hq with answers _ _ _ _ ?q => assert (Eq : get_str "name" q = Some (c_query c)) end.
      { open. cbn [reply_of] in *. unfold reply_type in *. cbn [existsb String.eqb Ascii.eqb Bool.eqb orb] in *.
        destruct (lookup c (c_query c)); [|discriminate]. values. reflexivity. }
      unfold get_list. cbn [get find fst String.eqb Ascii.eqb Bool.eqb obind]. rewrite Eq. cbn [obind].
      erewrite (read_root_ok "mutationType" (c_mutation c)); [|reflexivity|exact Hm]. cbn [obind].
      erewrite (read_root_ok "subscriptionType" (c_subscription c)); [|reflexivity|exact Hs]. cbn [obind].
      cbn [get find fst String.eqb Ascii.eqb Bool.eqb obind]. rewrite Ht, Hd. cbn [obind]. destruct c; reflexivity.
    Qed.
  End depth.
End rebuild.
