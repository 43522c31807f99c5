(** Introspection (C100, C101). *)
From Coq Require Import String List Bool Arith Lia.
From Verif Require Import Wrapping.Model Wrapping.Spec Wrapping.Proofs.
From Verif Require Import Introspection.Model Introspection.Spec Introspection.Answers Introspection.Write
  Introspection.Client Introspection.Rebuild.
Import ListNotations.
Local Open Scope string_scope.
Local Open Scope list_scope.

(** ** C100: the answer is that of the visible schema *)
(** The answer of the client's schema for a field of Query; [None]: "__type" of a name that the
    client's schema doesn't have. *)
Definition root_answer (g : schema) (c : cschema) (vars : string -> vvalue) (f : rfield) (v : value) : Prop :=
  (r_id f = s_schema_field g -> exists s, r_shape f = Some s /\ answers c vars s XSchema v) /\
  (r_id f = s_type_field g ->
     match lookup c (r_name f) with
     | None => v = RNull
     | Some _ => exists s, r_shape f = Some s /\ answers c vars s (XType (CNamed (r_name f))) v
     end).
Lemma root_field_answer g c vars f k v : well_formed g -> shows g c -> s_type_field g <> s_schema_field g ->
  root_field g vars f = Done (k, v) -> k = r_key f /\ root_answer g c vars f v.
Proof.
  intros wf sh Ne H. unfold root_field in H. apply obind_done in H as (w & H & [= <- ->]). split; [reflexivity|].
  destruct (Nat.eqb_spec (r_id f) (s_type_field g)) as [E|Nt].
  - split; [intros E'; congruence|]. intros _.
    destruct (type_definition_by_name g (r_name f)) as [id|] eqn:B.
    + destruct (by_name_some g c wf sh _ _ B) as [B1 B2]. destruct (hidden_type g id) eqn:Hd.
      * injection H as <-. now rewrite (B2 eq_refl).
      * apply obind_done in H as (s & Hs & H). destruct (r_shape f) as [s'|]; [|discriminate]. injection Hs as ->.
        destruct (lookup_named g c wf sh id (r_name f) (B1 eq_refl)) as (d & cd & _ & _ & _ & L & _). rewrite L.
        exists s. split; [reflexivity|]. eapply object_answers; eauto. constructor. auto.
    + injection H as <-. now rewrite (by_name_none g c sh _ B).
  - split; [|congruence]. intros E. rewrite (proj2 (Nat.eqb_eq _ _) E) in H.
    apply obind_done in H as (s & Hs & H). destruct (r_shape f) as [s'|]; [|discriminate]. injection Hs as ->.
    exists s. split; [reflexivity|]. eapply object_answers; eauto. constructor.
Qed.

(** Whatever is asked: the answer is the one of the client's schema, where nothing inaccessible
    exists. *)
Theorem C100_answers g c vars fields typenames l : well_formed g -> shows g c -> s_type_field g <> s_schema_field g ->
  write g vars fields typenames = Done l ->
  exists vs, l = combine (map r_key fields) vs ++ map (fun k => (k, RStr (c_query c))) typenames /\
    Forall2 (root_answer g c vars) fields vs.
Proof.
  intros wf sh Ne H. unfold write in H. apply obind_done in H as (r & H & E).
  assert (Q : exists vs, r = combine (map r_key fields) vs /\ Forall2 (root_answer g c vars) fields vs).
  { clear E. revert r H. induction fields as [|f fields IH]; intros r H; cbn [each] in H.
    - injection H as <-. exists []. split; [reflexivity|constructor].
    - apply obind_done in H as ([k v] & Hf & H). apply obind_done in H as (r' & Hr & [= <-]).
      destruct (root_field_answer g c vars f k v wf sh Ne Hf) as [-> Ra].
      destruct (IH r' Hr) as (vs & -> & Fs). exists (v :: vs). split; [reflexivity|constructor; auto]. }
  destruct Q as (vs & -> & Fs). exists vs. split; [|exact Fs].
  destruct typenames as [|t ts]; [injection E as <-; cbn [map]; now rewrite app_nil_r|].
  apply obind_done in E as (q & Eq & [= <-]).
  destruct (sh_query g c sh) as (d & Ed & _ & En). rewrite Ed in Eq. injection Eq as <-. rewrite En. reflexivity.
Qed.

(** There is one answer. *)
Scheme answers_rect' := Induction for answers Sort Prop
  with answers_fields_rect' := Induction for answers_fields Sort Prop
  with answers_each_rect' := Induction for answers_each Sort Prop.
Lemma answers_unique c vars s x v : answers c vars s x v -> forall v', answers c vars s x v' -> v = v'.
Proof.
  revert s x v. apply (answers_rect' c vars
    (fun s x v _ => forall v', answers c vars s x v' -> v = v')
    (fun fs x l _ => forall l', answers_fields c vars fs x l' -> l = l')
    (fun s xs vs _ => forall vs', answers_each c vars s xs vs' -> vs = vs')).
  - intros fs tn x l A IH v' H. inversion H as [? ? ? l' A']; subst. now rewrite (IH l' A').
  - intros x l' H. inversion H. reflexivity.
  - intros i o fs x v l E A IH l' H. inversion H as [|? ? ? ? v' l'' E' A'|? ? ? ? ? ? ? E' _ _|? ? ? ? ? ? ? E' _ _]; subst; try congruence.
    rewrite E in E'. injection E' as <-. now rewrite (IH _ A').
  - intros i s fs x y v l E A IH B IHb l' H. inversion H as [|? ? ? ? ? ? E' ?|? ? ? ? y' v' ? E' A' B'|? ? ? ? ? ? ? E' _ _]; subst; try congruence.
    rewrite E in E'. injection E' as <-. now rewrite (IH _ A'), (IHb _ B').
  - intros i s fs x ys vs l E A IH B IHb l' H. inversion H as [|? ? ? ? ? ? E' ?|? ? ? ? ? ? ? E' ? ?|? ? ? ? ys' vs' ? E' A' B']; subst; try congruence.
    rewrite E in E'. injection E' as <-. now rewrite (IH _ A'), (IHb _ B').
  - intros s vs' H. inversion H. reflexivity.
  - intros s x v xs vs A IH B IHb vs' H. inversion H as [|? ? v' ? vs'' A' B']; subst. now rewrite (IH _ A'), (IHb _ B').
Qed.

(** What is inaccessible can't be found out: schemas that look the same to a client give the same
    answer to every query. *)
Theorem C100_hidden g1 g2 c vars s v : well_formed g1 -> well_formed g2 -> shows g1 c -> shows g2 c ->
  valid vars "__Schema" s ->
  object g1 vars s TgSchema = Done v <-> object g2 vars s TgSchema = Done v.
Proof.
  intros wf1 wf2 sh1 sh2 V.
  destruct (object_total g1 c vars wf1 sh1 s TgSchema XSchema (ab_schema g1) V) as (v1 & E1).
  destruct (object_total g2 c vars wf2 sh2 s TgSchema XSchema (ab_schema g2) V) as (v2 & E2).
  rewrite E1, E2.
  rewrite (answers_unique c vars s XSchema v1 (object_answers g1 c vars wf1 sh1 s _ _ _ (ab_schema g1) E1) v2
             (object_answers g2 c vars wf2 sh2 s _ _ _ (ab_schema g2) E2)). reflexivity.
Qed.

(** *** The client rebuilds its schema *)
Lemma type_ref_valid vars d : valid vars "__Type" (type_ref d).
Proof.
  induction d as [|d IH]; cbn [type_ref]; constructor; unfold leaf, node;
    (apply vf_leaf; [cbn; tauto|exact Logic.I|]); (apply vf_leaf; [cbn; tauto|exact Logic.I|]); [constructor|].
  apply vf_object with (sub := "__Type"); [cbn; tauto|exact Logic.I|exact IH|constructor].
Qed.
Ltac vl := apply vf_leaf; [cbn; tauto|exact Logic.I|].
Ltac vo t := apply vf_object with (sub := t); [cbn; tauto|exact Logic.I| |].
Lemma input_valid vars d : valid vars "__InputValue" (input_shape d).
Proof. constructor. unfold leaf, node. vl. vl. vo "__Type"; [apply type_ref_valid|]. vl. vl. vl. constructor. Qed.
Lemma field_valid vars d : valid vars "__Field" (field_shape d).
Proof.
  constructor. unfold leaf, node, node_all. vl. vl. vo "__InputValue"; [apply input_valid|].
  vo "__Type"; [apply type_ref_valid|]. vl. vl. constructor.
Qed.
Lemma value_valid vars : valid vars "__EnumValue" value_shape.
Proof. constructor. unfold leaf. vl. vl. vl. vl. constructor. Qed.
Lemma type_valid vars d : valid vars "__Type" (type_shape d).
Proof.
  constructor. unfold leaf, node, node_all. vl. vl. vl. vl. vo "__Field"; [apply field_valid|].
  vo "__InputValue"; [apply input_valid|]. vo "__Type"; [apply type_ref_valid|]. vo "__EnumValue"; [apply value_valid|].
  vo "__Type"; [apply type_ref_valid|]. constructor.
Qed.
Lemma query_valid vars d : valid vars "__Schema" (introspection_query d).
Proof.
  assert (Nm : valid vars "__Type" (Shape [leaf "name"] [])).
  { constructor. unfold leaf. vl. constructor. }
  constructor. unfold leaf, node, node_all in *. vl. vo "__Type"; [exact Nm|]. vo "__Type"; [exact Nm|]. vo "__Type"; [exact Nm|].
  vo "__Type"; [apply type_valid|]. vo "__Directive"; [|constructor].
  constructor. unfold leaf, node_all. vl. vl. vl. vl. vo "__InputValue"; [apply input_valid|]. constructor.
Qed.
Lemma keep_names_nodup g l cl : keep (fun d => t_hidden d = true) (shows_def g) l cl -> NoDup (map t_name l) ->
  NoDup (map cd_name cl).
Proof.
  intros K. induction K as [|a l cl H K IH|a b l cl Nh Sh K IH]; intros Nd; cbn [map] in *; [constructor| |].
  - inversion Nd; auto.
  - inversion Nd as [|? ? Ni Nd']; subst. constructor; [|auto]. intros I. apply Ni.
    apply in_map_iff in I as (cd & E & I). destruct (keep_back _ _ _ _ cd K I) as (d & Id & _ & Sd).
    rewrite <- (sd_name _ _ _ Sh), <- E, (sd_name _ _ _ Sd). now apply in_map.
Qed.
Theorem C100_rebuild g c vars d : well_formed g -> shows g c -> shallow d c ->
  exists v, object g vars (introspection_query d) TgSchema = Done v /\ read_schema d v = Some c.
Proof.
  intros wf sh Sl.
  destruct (object_total g c vars wf sh (introspection_query d) TgSchema XSchema (ab_schema g) (query_valid vars d)) as (v & E).
  exists v. split; [exact E|]. apply (read_schema_ok c vars d).
  - eapply keep_names_nodup; [apply (sh_types g c sh)|apply (wf_names g wf)].
  - exact Sl.
  - apply (object_answers g c vars wf sh _ _ _ _ (ab_schema g) E).
Qed.

(** Wrappings have at most ten lists, 21 levels are enough for every schema. *)
Lemma wraps_bound n t : wraps (ctype_of n t) <= 2 * depth t + 1.
Proof.
  induction t as [r|t IH r]; cbn [ctype_of depth]; destruct r; cbn [wraps]; lia.
Qed.
Lemma shows_type_bound g ty c : shows_type g ty c -> wraps c <= 21.
Proof.
  intros (t & n & D & _ & ->). apply denotes_iff in D. destruct D as [D _]. pose proof (wraps_bound n t). lia.
Qed.
Lemma shows_inputs_bound g l cl : shows_inputs g l cl -> shallow_inputs 21 cl.
Proof.
  intros K. apply Forall_forall. intros v I. destruct (keep_back _ _ _ _ v K I) as (a & _ & _ & Sa).
  exact (shows_type_bound g _ _ (si_ty _ _ _ Sa)).
Qed.
Lemma shows_fields_bound g l cl : shows_fields g l cl -> shallow_fields 21 cl.
Proof.
  intros K. apply Forall_forall. intros v I. destruct (keep_back _ _ _ _ v K I) as (a & _ & _ & Sa). split.
  - exact (shows_type_bound g _ _ (sf_ty _ _ _ Sa)).
  - exact (shows_inputs_bound g _ _ (sf_args _ _ _ Sa)).
Qed.
Theorem C100_rebuild_all g c vars : well_formed g -> shows g c ->
  exists v, object g vars (introspection_query 21) TgSchema = Done v /\ read_schema 21 v = Some c.
Proof.
  intros wf sh. apply C100_rebuild; auto. split.
  - apply Forall_forall. intros cd I. destruct (keep_back _ _ _ _ cd (sh_types g c sh) I) as (d & _ & _ & Sd).
    unfold shallow_def. destruct (sd_body _ _ _ Sd); auto; eauto using shows_fields_bound, shows_inputs_bound.
  - pose proof (sh_directives g c sh) as F. induction F as [|d cd l cl Sd F IH]; constructor; auto.
    exact (shows_inputs_bound g _ _ (sx_args _ _ _ Sd)).
Qed.

(** *** An example *)
Definition plain_ty (id : nat) : nat * wrapping := (id, new).
Definition string_field id n ty : field :=
  {| f_id := id; f_name := n; f_desc := None; f_args := []; f_ty := ty; f_dirs := []; f_hidden := false |}.
Definition scalar_def n : tdef := {| t_name := n; t_desc := None; t_hidden := false; t_body := Scalar None |}.
(** Query { users(first: Int = 10, secret: Int @inaccessible): [User!]!, old: Int @deprecated(reason: "gone") },
    User { name: String, audit: Audit @inaccessible }, Audit @inaccessible *)
Definition ex_schema (secret : string) : schema := {|
  s_desc := Some "shop";
  s_types := [
    {| t_name := secret; t_desc := None; t_hidden := true; t_body := Object [string_field 7 "key" (plain_ty 3)] [] |};
    scalar_def "Int";
    {| t_name := "Query"; t_desc := None; t_hidden := false; t_body := Object [
         string_field 0 "__type" (plain_ty 0); string_field 1 "__schema" (plain_ty 0);
         {| f_id := 2; f_name := "users"; f_desc := Some "all"; f_args := [
              {| v_name := "first"; v_desc := None; v_ty := plain_ty 1; v_default := Some "10"; v_dirs := []; v_hidden := false |};
              {| v_name := secret; v_desc := None; v_ty := plain_ty 1; v_default := None; v_dirs := []; v_hidden := true |}];
            f_ty := (4, enc (ListOf (Named true) true)); f_dirs := [OtherDirective]; f_hidden := false |};
         {| f_id := 3; f_name := "old"; f_desc := None; f_args := []; f_ty := plain_ty 1;
            f_dirs := [Deprecated (Some "gone")]; f_hidden := false |}] [] |};
    scalar_def "String";
    {| t_name := "User"; t_desc := None; t_hidden := false; t_body := Object [
         string_field 5 "name" (plain_ty 3);
         {| f_id := 6; f_name := secret; f_desc := None; f_args := []; f_ty := plain_ty 0; f_dirs := []; f_hidden := true |}] [] |}];
  s_query := 2; s_mutation := None; s_subscription := None; s_type_field := 0; s_schema_field := 1; s_directives := [] |}.
Definition ex_client : cschema := {|
  c_desc := Some "shop";
  c_types := [
    {| cd_name := "Int"; cd_desc := None; cd_body := CScalar None |};
    {| cd_name := "Query"; cd_desc := None; cd_body := CObject [
         {| cf_name := "users"; cf_desc := Some "all"; cf_args := [
              {| ci_name := "first"; ci_desc := None; ci_ty := CNamed "Int"; ci_default := Some "10"; ci_dep := None |}];
            cf_ty := CNonNull (CList (CNonNull (CNamed "User"))); cf_dep := None |};
         {| cf_name := "old"; cf_desc := None; cf_args := []; cf_ty := CNamed "Int"; cf_dep := Some (Some "gone") |}] [] |};
    {| cd_name := "String"; cd_desc := None; cd_body := CScalar None |};
    {| cd_name := "User"; cd_desc := None; cd_body := CObject [
         {| cf_name := "name"; cf_desc := None; cf_args := []; cf_ty := CNamed "String"; cf_dep := None |}] [] |}];
  c_query := "Query"; c_mutation := None; c_subscription := None; c_directives := [] |}.

Lemma ex_nodup secret : ~ In secret ["Int"; "Query"; "String"; "User"] -> NoDup (map t_name (s_types (ex_schema secret))).
Proof.
  intros H. cbn. constructor; [exact H|].
  repeat (constructor; [cbn; intuition discriminate|]). constructor.
Qed.
Lemma ex_well_formed secret : ~ In secret ["Int"; "Query"; "String"; "User"] -> secret <> "__type" -> secret <> "__schema" ->
  well_formed (ex_schema secret).
Proof.
  intros H N1 N2. split; [now apply ex_nodup|].
  intros d f I J. cbn in I. destruct I as [<-|[<-|[<-|[<-|[<-|[]]]]]]; cbn in J; try contradiction.
  - destruct J as [<-|[]]; cbn; split; split; discriminate.
  - destruct J as [<-|[<-|[<-|[<-|[]]]]]; cbn; split; split; try discriminate; reflexivity.
  - destruct J as [<-|[<-|[]]]; cbn; split; split; try discriminate; intros; congruence.
Qed.
Lemma ex_plain g id n : named g id n -> shows_type g (plain_ty id) (CNamed n).
Proof.
  intros H. exists (Named false), n. split; [|split; [exact H|reflexivity]]. exists []. split; reflexivity.
Qed.
Ltac ex_named := eexists; split; [reflexivity|split; reflexivity].
Ltac ex_dep := repeat constructor.
Lemma ex_shows secret : shows (ex_schema secret) ex_client.
Proof.
  split; try reflexivity; try constructor; try (ex_named; fail); cbn [s_types ex_schema c_types ex_client].
  - reflexivity.
  - apply keep_shown; [discriminate|split; try reflexivity; constructor|].
    apply keep_shown; [discriminate| |].
    { split; try reflexivity. constructor; [|constructor].
      apply keep_hidden; [right; right; reflexivity|]. apply keep_hidden; [right; left; reflexivity|].
      apply keep_shown; [intros [?|[?|?]]; discriminate| |].
      - split; try reflexivity; cbn.
        + apply keep_shown; [discriminate| |apply keep_hidden; [reflexivity|constructor]].
          split; try reflexivity; [|constructor]. apply ex_plain. ex_named.
        + exists (ListOf (Named true) true), "User". split; [|split; [ex_named|reflexivity]].
          apply denotes_iff. split; [cbn; lia|reflexivity].
        + repeat constructor.
      - apply keep_shown; [intros [?|[?|?]]; discriminate| |constructor].
        split; try reflexivity; cbn; [constructor| |repeat constructor]. apply ex_plain. ex_named. }
    apply keep_shown; [discriminate|split; try reflexivity; constructor|].
    apply keep_shown; [discriminate| |constructor].
    split; try reflexivity. constructor; [|constructor].
    apply keep_shown; [intros [?|[?|?]]; discriminate| |apply keep_hidden; [left; reflexivity|constructor]].
    split; try reflexivity; cbn; [constructor| |constructor]. apply ex_plain. ex_named.
Qed.
Definition no_vars : string -> vvalue := fun _ => Undefined.
(** Two schemas that differ in what is hidden; the client gets the same schema, the names of
    hidden things lead to null. *)
Example C100_ex :
  match object (ex_schema "Audit") no_vars (introspection_query 3) TgSchema with
  | Done v => read_schema 3 v = Some ex_client /\ object (ex_schema "Ledger") no_vars (introspection_query 3) TgSchema = Done v
  | Panic => False
  end /\
  write (ex_schema "Audit") no_vars
    [{| r_key := "a"; r_id := 0; r_name := "Audit"; r_shape := Some (Shape [leaf "name"] []) |};
     {| r_key := "b"; r_id := 0; r_name := "User"; r_shape := Some (Shape [leaf "kind"; node "fields" (Shape [leaf "name"] [])] ["t"]) |}] ["q"]
  = Done [("a", RNull);
          ("b", RObj [("kind", RStr "OBJECT"); ("fields", RList [RObj [("name", RStr "name")]]); ("t", RStr "__Type")]);
          ("q", RStr "Query")].
Proof. split; [vm_compute; split; reflexivity|reflexivity]. Qed.
Example C100_hyps : well_formed (ex_schema "Audit") /\ shows (ex_schema "Audit") ex_client /\ shallow 3 ex_client.
Proof.
  split; [|split].
  - apply ex_well_formed; cbn; intuition discriminate.
  - apply ex_shows.
  - split; repeat constructor; cbn; lia.
Qed.
(** With two levels of "ofType" the client can't read the type of users. *)
Example C100_depth_ex :
  match object (ex_schema "Audit") no_vars (introspection_query 2) TgSchema with
  | Done v => read_schema 2 v = None
  | Panic => False
  end.
Proof. reflexivity. Qed.

(** A root type whose fields are all inaccessible is itself inaccessible (mutable.rs:75-82); it is
    still the "mutationType" of the answer, which has no such type. *)
Definition root_schema : schema := {|
  s_desc := None;
  s_types := [scalar_def "Int";
    {| t_name := "Mutation"; t_desc := None; t_hidden := true; t_body := Object [
         {| f_id := 3; f_name := "drop"; f_desc := None; f_args := []; f_ty := plain_ty 0; f_dirs := []; f_hidden := true |}] [] |};
    {| t_name := "Query"; t_desc := None; t_hidden := false; t_body := Object [string_field 2 "a" (plain_ty 0)] [] |}];
  s_query := 2; s_mutation := Some 1; s_subscription := None; s_type_field := 0; s_schema_field := 1; s_directives := [] |}.
Theorem C100_root_refuted : exists g v c,
  well_formed g /\ object g no_vars (introspection_query 3) TgSchema = Done v /\ read_schema 3 v = Some c /\
  c_mutation c = Some "Mutation" /\ lookup c "Mutation" = None.
Proof.
  exists root_schema. eexists. eexists. split; [|split; [vm_compute; reflexivity|split; [vm_compute; reflexivity|split; reflexivity]]].
  split.
  - cbn. repeat (constructor; [cbn; intuition discriminate|]). constructor.
  - intros d f I J. cbn in I. destruct I as [<-|[<-|[<-|[]]]]; cbn in J; try contradiction;
      destruct J as [<-|[]]; cbn; split; split; discriminate.
Qed.

(** "@oneOf" is not shown: a client can't tell it from an input object whose fields are optional. *)
Definition one_of_schema (o : bool) : schema := {|
  s_desc := None;
  s_types := [scalar_def "Int";
    {| t_name := "Pick"; t_desc := None; t_hidden := false; t_body := Input o [
         {| v_name := "a"; v_desc := None; v_ty := plain_ty 0; v_default := None; v_dirs := []; v_hidden := false |};
         {| v_name := "b"; v_desc := None; v_ty := plain_ty 0; v_default := None; v_dirs := []; v_hidden := false |}] |};
    {| t_name := "Query"; t_desc := None; t_hidden := false; t_body := Object [string_field 2 "a" (plain_ty 0)] [] |}];
  s_query := 2; s_mutation := None; s_subscription := None; s_type_field := 0; s_schema_field := 1; s_directives := [] |}.
Theorem C100_one_of_refuted : exists g1 g2, g1 <> g2 /\
  (exists d1 d2 fs, nth_error (s_types g1) 1 = Some d1 /\ t_body d1 = Input true fs /\
                    nth_error (s_types g2) 1 = Some d2 /\ t_body d2 = Input false fs) /\
  forall vars s t, object g1 vars s (TgNamed t) = object g2 vars s (TgNamed t) /\ object g1 vars s TgSchema = object g2 vars s TgSchema.
Proof.
  exists (one_of_schema true), (one_of_schema false). split; [discriminate|]. split.
  { do 3 eexists. repeat (split; [reflexivity|]). reflexivity. }
  assert (A : forall vars t i, answer_of (one_of_schema true) vars t i = answer_of (one_of_schema false) vars t i).
  { intros vars t i. destruct t; try reflexivity. cbn [answer_of].
    destruct id as [|[|[|id]]]; try reflexivity. cbn. destruct id; reflexivity. }
  assert (O : forall vars s t, object (one_of_schema true) vars s t = object (one_of_schema false) vars s t).
  { intros vars. induction s as [fs tn IH] using shape_ind'. intros t. cbn [object]. f_equal.
    induction fs as [|[i o] fs IHf]; [reflexivity|]. inversion IH as [|? ? Io IH']; subst. cbn [each].
    rewrite (IHf IH'). f_equal. rewrite A. cbn [fst snd] in *.
    destruct (answer_of (one_of_schema false) vars t i) as [[v|t'|ts]|]; try reflexivity; cbn [Model.obind].
    - destruct o as [s|]; [|reflexivity]. now rewrite Io.
    - destruct o as [s|]; [|reflexivity]. f_equal. f_equal. clear -Io. induction ts as [|t' ts IHt]; [reflexivity|].
      cbn [each]. now rewrite Io, IHt. }
  intros vars s t. split; apply O.
Qed.

(** ** C101: answering doesn't panic *)
Theorem C101_total g c vars s x t : well_formed g -> shows g c -> valid vars "__Schema" s -> valid vars "__Type" t ->
  (exists v, object g vars s TgSchema = Done v) /\
  (forall id, named g id x -> exists v, object g vars t (TgNamed id) = Done v).
Proof.
  intros wf sh Vs Vt. split.
  - apply (object_total g c vars wf sh s TgSchema XSchema (ab_schema g) Vs).
  - intros id Nm. apply (object_total g c vars wf sh t (TgNamed id) (XType (CNamed x))); [now constructor|exact Vt].
Qed.
(** A field of Query with a selection that validation lets through. *)
Definition root_valid (g : schema) (vars : string -> vvalue) (f : rfield) : Prop :=
  exists s, r_shape f = Some s /\
    ((r_id f = s_schema_field g /\ valid vars "__Schema" s) \/ (r_id f = s_type_field g /\ valid vars "__Type" s)).
Theorem C101_write g c vars fields typenames : well_formed g -> shows g c -> s_type_field g <> s_schema_field g ->
  Forall (root_valid g vars) fields -> exists l, write g vars fields typenames = Done l.
Proof.
  intros wf sh Ne F. unfold write.
  assert (E : exists l, each (root_field g vars) fields = Done l).
  { induction F as [|f fields (s & Es & Vf) F (l & IH)]; [eexists; reflexivity|]. cbn [each]. rewrite IH.
    assert (Q : exists kv, root_field g vars f = Done kv).
    { unfold root_field. rewrite Es. cbn [unwrap Model.obind]. destruct Vf as [[-> V]|[-> V]].
      - rewrite (proj2 (Nat.eqb_neq _ _) (not_eq_sym Ne)), Nat.eqb_refl.
        destruct (object_total g c vars wf sh s TgSchema XSchema (ab_schema g) V) as (v & ->). eexists; reflexivity.
      - rewrite Nat.eqb_refl. destruct (type_definition_by_name g (r_name f)) as [id|] eqn:B; [|eexists; reflexivity].
        destruct (by_name_some g c wf sh _ _ B) as [B1 _]. destruct (hidden_type g id) eqn:Hd; [eexists; reflexivity|].
        destruct (object_total g c vars wf sh s (TgNamed id) (XType (CNamed (r_name f)))) as (v & ->);
          [constructor; auto|exact V|eexists; reflexivity]. }
    destruct Q as (kv & ->). eexists; reflexivity. }
  destruct E as (l & ->). cbn [Model.obind]. destruct typenames as [|k ks]; [eexists; reflexivity|].
  destruct (sh_query g c sh) as (d & -> & _ & _). eexists; reflexivity.
Qed.
(** Neither can the two fields of Query tell such schemas apart. *)
Theorem C100_hidden_write g1 g2 c vars fields typenames : well_formed g1 -> well_formed g2 -> shows g1 c -> shows g2 c ->
  s_type_field g1 = s_type_field g2 -> s_schema_field g1 = s_schema_field g2 -> s_type_field g1 <> s_schema_field g1 ->
  Forall (root_valid g1 vars) fields ->
  write g1 vars fields typenames = write g2 vars fields typenames.
Proof.
  intros wf1 wf2 sh1 sh2 Et Es Ne F.
  assert (F2 : Forall (root_valid g2 vars) fields).
  { revert F. apply Forall_impl. intros f (s & Hs & H). exists s. rewrite <- Et, <- Es. auto. }
  assert (Ne2 : s_type_field g2 <> s_schema_field g2) by congruence.
  destruct (C101_write g1 c vars fields typenames wf1 sh1 Ne F) as (l1 & E1).
  destruct (C101_write g2 c vars fields typenames wf2 sh2 Ne2 F2) as (l2 & E2).
  rewrite E1, E2. f_equal.
  destruct (C100_answers g1 c vars fields typenames l1 wf1 sh1 Ne E1) as (v1 & -> & A1).
  destruct (C100_answers g2 c vars fields typenames l2 wf2 sh2 Ne2 E2) as (v2 & -> & A2).
  f_equal. f_equal. clear E1 E2 F2. revert v1 v2 A1 A2.
  induction F as [|f fields (s & Hs & V) F IH]; intros v1 v2 A1 A2; inversion A1 as [|? a1 ? r1 R1 A1']; subst;
    inversion A2 as [|? a2 ? r2 R2 A2']; subst; [reflexivity|].
  f_equal; [|now apply IH]. destruct R1 as [S1 T1], R2 as [S2 T2]. destruct V as [[E _]|[E _]].
  - destruct (S1 E) as (s1 & H1 & B1). destruct (S2 (eq_trans E Es)) as (s2 & H2 & B2).
    assert (s1 = s2) by congruence. subst s2. eapply answers_unique; eauto.
  - specialize (T1 E). specialize (T2 (eq_trans E Et)). destruct (lookup c (r_name f)); [|congruence].
    destruct T1 as (s1 & H1 & B1), T2 as (s2 & H2 & B2).
    assert (s1 = s2) by congruence. subst s2. eapply answers_unique; eauto.
Qed.
Example C101_ex : root_valid (ex_schema "Audit") no_vars
  {| r_key := "s"; r_id := 1; r_name := ""; r_shape := Some (introspection_query 3) |}.
Proof. exists (introspection_query 3). split; [reflexivity|]. left. split; [reflexivity|apply query_valid]. Qed.
(** "includeDeprecated: null" is a valid argument of type Boolean; answering panics. *)
Theorem C101_null_refuted : exists g c s x, well_formed g /\ shows g c /\
  (forall vars, object g vars (s ANull) TgSchema = Panic) /\
  (exists vars, object g vars (s (AVar x)) TgSchema = Panic) /\
  (forall vars b, exists v, object g vars (s (ABool b)) TgSchema = Done v).
Proof.
  exists (ex_schema "Audit"), ex_client.
  exists (fun a => Shape [node "queryType" (Shape [({| i_key := "fields"; i_name := "fields"; i_include := a |}, Some (Shape [leaf "name"] []))] [])] []), "x".
  split; [apply C100_hyps|]. split; [apply ex_shows|]. split; [reflexivity|]. split.
  - exists (fun _ => VNull). reflexivity.
  - intros vars b. destruct b; eexists; reflexivity.
Qed.
