(* What each check of the validator reports, once the first pass is done. *)
From Coq Require Import Ascii String List Bool Arith Lia.
From Verif.SdlValidation Require Import Model Spec Facts.
Import ListNotations.
Local Open Scope string_scope.
Local Open Scope list_scope.

(* --------------------------------------------------- arguments by their name *)

Fixpoint last_index (args : list input_value) (a : name) : option nat :=
  match args with
  | nil => None
  | x :: rest =>
      match last_index rest a with
      | Some i => Some (S i)
      | None => if String.eqb (iv_name x) a then Some 0 else None
      end
  end.

Definition named_arg (a : name) (x : input_value) : Prop := iv_name x = a.

Lemma last_index_some : forall args a i,
  last_index args a = Some i ->
  exists x, nth_error args i = Some x /\ last_with (named_arg a) args x.
Proof.
  induction args as [|y args IH]; intros a i; cbn [last_index]; [discriminate|].
  destruct (last_index args a) as [j|] eqn:E.
  - intros H. injection H as <-. destruct (IH a j E) as (x & Hx & HL).
    exists x. split; [exact Hx|]. apply last_with_cons. now left.
  - destruct (String.eqb_spec (iv_name y) a) as [Hy|]; [|discriminate].
    intros H. injection H as <-. exists y. split; [reflexivity|].
    apply last_with_cons. right. split; [reflexivity|]. split; [exact Hy|].
    clear IH Hy. induction args as [|z args IH]; [constructor|]. cbn [last_index] in E.
    destruct (last_index args a); [discriminate|].
    destruct (String.eqb_spec (iv_name z) a) as [|D]; [discriminate|]. constructor; [exact D|auto].
Qed.

Lemma last_index_none : forall args a, last_index args a = None <-> ~ In a (map iv_name args).
Proof.
  induction args as [|x args IH]; intros a; cbn [last_index map In]; [tauto|].
  destruct (last_index args a) as [i|] eqn:E.
  - split; [discriminate|]. intros H. exfalso. apply H. right.
    destruct (in_dec string_dec a (map iv_name args)) as [|D]; [assumption|].
    apply IH in D. congruence.
  - assert (~ In a (map iv_name args)) by (now apply IH).
    destruct (String.eqb_spec (iv_name x) a) as [->|D].
    + split; [discriminate|]. intros H'. exfalso. apply H'. now left.
    + split; [|reflexivity]. intros _ [H'|H']; contradiction.
Qed.

Lemma last_with_index : forall args a x,
  last_with (named_arg a) args x -> exists i, last_index args a = Some i /\ nth_error args i = Some x.
Proof.
  intros args a x H. destruct (last_index args a) as [i|] eqn:E.
  - destruct (last_index_some _ _ _ E) as (y & Hy & HL).
    rewrite (last_with_unique _ _ _ _ H HL). eauto.
  - exfalso. apply last_index_none in E. apply E. apply last_with_in in H. destruct H as [H <-].
    now apply in_map.
Qed.

Lemma candidate_get : forall args idx m a,
  get a (candidate_indexes idx args m) =
  match last_index args a with
  | Some i => Some (Some (idx + i), None)
  | None => get a m
  end.
Proof.
  induction args as [|x args IH]; intros idx m a; cbn [candidate_indexes last_index]; [reflexivity|].
  rewrite IH. destruct (last_index args a) as [i|].
  - do 3 f_equal. lia.
  - rewrite get_insert. destruct (String.eqb (iv_name x) a); [|reflexivity]. do 3 f_equal. lia.
Qed.

Lemma interface_get : forall args idx m a,
  get a (interface_indexes idx args m) =
  match last_index args a with
  | Some i => Some (match get a m with Some p => fst p | None => None end, Some (idx + i))
  | None => get a m
  end.
Proof.
  induction args as [|x args IH]; intros idx m a; cbn [interface_indexes last_index]; [reflexivity|].
  rewrite IH. rewrite !get_insert. destruct (String.eqb_spec (iv_name x) a) as [->|D].
  - destruct (last_index args a) as [i|]; cbn [fst].
    + do 2 f_equal; [|f_equal; lia]. now destruct (get a m).
    + do 2 f_equal; [|f_equal; lia]. now destruct (get a m).
  - destruct (last_index args a) as [i|]; [|reflexivity]. do 3 f_equal. lia.
Qed.

Lemma candidate_nodup : forall args idx m, NoDup (map fst m) -> NoDup (map fst (candidate_indexes idx args m)).
Proof.
  induction args as [|x args IH]; intros idx m H; cbn [candidate_indexes]; [exact H|].
  apply IH. now apply insert_nodup.
Qed.
Lemma interface_nodup : forall args idx m, NoDup (map fst m) -> NoDup (map fst (interface_indexes idx args m)).
Proof.
  induction args as [|x args IH]; intros idx m H; cbn [interface_indexes]; [exact H|].
  apply IH. now apply insert_nodup.
Qed.

Lemma argument_entries : forall cargs iargs a p,
  In (a, p) (interface_indexes 0 iargs (candidate_indexes 0 cargs [])) <->
  p = (last_index cargs a, last_index iargs a) /\
  (In a (map iv_name cargs) \/ In a (map iv_name iargs)).
Proof.
  intros cargs iargs a p.
  assert (HND : NoDup (map fst (interface_indexes 0 iargs (candidate_indexes 0 cargs [])))).
  { apply interface_nodup, candidate_nodup. constructor. }
  assert (HG : get a (interface_indexes 0 iargs (candidate_indexes 0 cargs [])) =
               match last_index cargs a, last_index iargs a with
               | None, None => None
               | c, i => Some (c, i)
               end).
  { rewrite interface_get, candidate_get. cbn [get].
    destruct (last_index cargs a), (last_index iargs a); reflexivity. }
  assert (HIN : In (a, p) (interface_indexes 0 iargs (candidate_indexes 0 cargs [])) <->
                get a (interface_indexes 0 iargs (candidate_indexes 0 cargs [])) = Some p).
  { split; [now apply in_get|apply get_in]. }
  rewrite HIN, HG. pose proof (last_index_none cargs a) as HC. pose proof (last_index_none iargs a) as HI.
  assert (DC := in_dec string_dec a (map iv_name cargs)).
  assert (DI := in_dec string_dec a (map iv_name iargs)).
  destruct (last_index cargs a) as [c|], (last_index iargs a) as [i|].
  - split; [intros H; injection H as <-; split; [reflexivity|]|intros [-> _]; reflexivity].
    left. destruct DC as [|D]; [assumption|]. apply HC in D. discriminate.
  - split; [intros H; injection H as <-; split; [reflexivity|]|intros [-> _]; reflexivity].
    left. destruct DC as [|D]; [assumption|]. apply HC in D. discriminate.
  - split; [intros H; injection H as <-; split; [reflexivity|]|intros [-> _]; reflexivity].
    right. destruct DI as [|D]; [assumption|]. apply HI in D. discriminate.
  - split; [discriminate|]. intros [_ [H|H]]; exfalso; [apply HC in H|apply HI in H]; auto.
Qed.

Section Checks.
Variable opts : options.
Variable doc : document.
Let ctx := collected doc.

(* --------------------------------------------------------------- directives *)

Lemma index_ok : forall {A} (l : list A) i f,
  i < length l -> (forall x, In x l -> f x <> None) -> index l i f <> None.
Proof.
  intros A l i f Hi H. unfold index. destruct (nth_error l i) as [x|] eqn:E.
  - apply H. eapply nth_error_In; eauto.
  - apply nth_error_None in E. lia.
Qed.

Lemma nth_error_lt : forall {A} (l : list A) i x, nth_error l i = Some x -> i < length l.
Proof. intros A l i x H. apply nth_error_Some. congruence. Qed.

Lemma validate_directives_ok : forall dirs l, validate_directives ctx dirs l <> None.
Proof.
  intros dirs l. unfold validate_directives. apply andthen_ok. split.
  - apply find_duplicates_ok. intros i j n Hi _ _. apply index_ok; [eapply nth_error_lt; eauto|].
    intros d _. destruct (match get d (directive_names ctx) with Some def => d_repeatable def | None => true end);
      discriminate.
  - apply for_each_ok. intros d _. destruct (get d (directive_names ctx)); [apply when_ok|discriminate].
Qed.

Definition directive_error (dirs : list name) (l : location) (e : error) : Prop :=
  (exists d def, twice dirs d /\ directive_defined doc d def /\ d_repeatable def = false /\
                 e = NotRepeatable d) \/
  (exists d def, In d dirs /\ directive_defined doc d def /\ ~ In l (d_locations def) /\
                 e = BadLocation d l).

Lemma existsb_location : forall l locs,
  negb (existsb (fun x => location_eqb x l) locs) = true <-> ~ In l locs.
Proof.
  intros l locs. rewrite negb_true_iff, <- not_true_iff_false, existsb_exists.
  split; intros H H'; apply H.
  - exists l. split; [exact H'|now apply location_eqb_eq].
  - destruct H' as (x & Hx & E). apply location_eqb_eq in E. now subst.
Qed.

Lemma emits_directives : forall dirs l e,
  emits (validate_directives ctx dirs l) e <-> directive_error dirs l e.
Proof.
  intros dirs l e. pose proof (validate_directives_ok dirs l) as Hok.
  unfold validate_directives in *. rewrite emits_andthen by exact Hok.
  apply andthen_ok in Hok. destruct Hok as [H1 H2].
  rewrite (emits_find_duplicates _ _ e
    (fun d e => exists def, directive_defined doc d def /\ d_repeatable def = false /\ e = NotRepeatable d) H1).
  2: { intros i j n Hi _ _ _. unfold index. rewrite Hi.
       destruct (get n (directive_names ctx)) as [def|] eqn:E.
       - destruct (d_repeatable def) eqn:R.
         + rewrite emits_no_error. split; [tauto|]. intros (def' & Hd & R' & _).
           apply directive_names_iff in Hd. fold ctx in Hd. congruence.
         + rewrite emits_push_error. apply directive_names_iff in E. split.
           * intros <-. exists def. auto.
           * intros (_ & _ & _ & ->). reflexivity.
       - rewrite emits_no_error. split; [tauto|]. intros (def' & Hd & _).
         apply directive_names_iff in Hd. fold ctx in Hd. congruence. }
  rewrite emits_for_each by exact H2. unfold directive_error. apply or_iff_compat.
  - split.
    + intros (d & Ht & def & Hd & R & E). exists d, def. auto.
    + intros (d & def & Ht & Hd & R & E). exists d. split; [exact Ht|]. exists def. auto.
  - split.
    + intros (d & Hin & He). destruct (get d (directive_names ctx)) as [def|] eqn:E; [|destruct He].
      rewrite emits_when, existsb_location in He. destruct He as [Hl <-].
      exists d, def. apply directive_names_iff in E. auto.
    + intros (d & def & Hin & Hd & Hl & ->). exists d. split; [exact Hin|].
      apply directive_names_iff in Hd. fold ctx in Hd. rewrite Hd.
      rewrite emits_when, existsb_location. auto.
Qed.

(* --------------------------------------------------- input and output types *)

Lemma check_input_ok : forall t p, check_input ctx t p <> None.
Proof. intros t p. unfold check_input. destruct (validate_input_type ctx (type_name t)); discriminate. Qed.

Definition not_input (k : kind) : Prop :=
  k <> KScalar /\ (forall vs, k <> KEnum vs) /\ (forall fs, k <> KInput fs).

Definition input_error (t : ty) (p : place) (e : error) : Prop :=
  ~ specified_scalar (type_name t) /\
  ((undefined doc (type_name t) /\ e = UnknownType (type_name t) p) \/
   (exists u, defined doc (type_name t) u /\ not_input (t_kind u) /\ e = OutputInInput (type_name t) p)).

Lemma emits_input : forall t p e, emits (check_input ctx t p) e <-> input_error t p e.
Proof.
  intros t p e. unfold check_input, validate_input_type, input_error.
  destruct (is_builtin_scalar (type_name t)) eqn:B.
  - rewrite emits_no_error. apply builtin_iff in B. tauto.
  - apply builtin_false_iff in B. destruct (definition_of ctx (type_name t)) as [u|] eqn:E.
    + apply definition_of_iff in E.
      assert (HU : ~ undefined doc (type_name t)) by (intros H; now apply (H u)).
      assert (HK : (exists u0, defined doc (type_name t) u0 /\ not_input (t_kind u0) /\
                               e = OutputInInput (type_name t) p) <->
                   not_input (t_kind u) /\ e = OutputInInput (type_name t) p).
      { split; [intros (u0 & H1 & H2 & H3); rewrite (defined_unique _ _ _ _ E H1); auto|].
        intros [H1 H2]. exists u. auto. }
      rewrite HK. unfold not_input.
      destruct (t_kind u) as [|is fs|is fs|ms|vs|fs];
        rewrite ?emits_no_error, ?emits_push_error; split; intros H; try exact (False_ind _ H).
      * destruct H as (_ & [[H _]|[[H _] _]]); [contradiction|]. now apply H.
      * split; [exact B|]. right. split; [split; [discriminate|split; discriminate]|now symmetry].
      * destruct H as (_ & [[H _]|[_ H]]); [contradiction|now symmetry].
      * split; [exact B|]. right. split; [split; [discriminate|split; discriminate]|now symmetry].
      * destruct H as (_ & [[H _]|[_ H]]); [contradiction|now symmetry].
      * split; [exact B|]. right. split; [split; [discriminate|split; discriminate]|now symmetry].
      * destruct H as (_ & [[H _]|[_ H]]); [contradiction|now symmetry].
      * destruct H as (_ & [[H _]|[[_ [H _]] _]]); [contradiction|]. now apply (H vs).
      * destruct H as (_ & [[H _]|[[_ [_ H]] _]]); [contradiction|]. now apply (H fs).
    + apply definition_of_none in E. rewrite emits_push_error. split.
      * intros <-. auto.
      * intros (_ & [[_ ->]|(u & Hu & _)]); [reflexivity|]. exfalso. now apply (E u).
Qed.

Lemma check_output_ok : forall t p, check_output opts ctx t p <> None.
Proof. intros t p. unfold check_output. destruct (validate_output_type opts ctx (type_name t)); discriminate. Qed.

(* the lookup with the extensions that output types and interfaces share *)
Definition lookup_resolved (n : name) : option typedef :=
  match definition_of ctx n with
  | Some def => Some def
  | None => if forbid_unknown opts then None
            else hd_error (get_all n (extension_names ctx))
  end.

Lemma lookup_resolved_iff : forall n t, lookup_resolved n = Some t <-> resolves opts doc n t.
Proof.
  intros n t. unfold lookup_resolved, resolves.
  destruct (definition_of ctx n) as [u|] eqn:E.
  - apply definition_of_iff in E. split.
    + intros H. injection H as ->. now left.
    + intros [H|[H _]]; [now rewrite (defined_unique _ _ _ _ E H)|]. exfalso. now apply (H u).
  - apply definition_of_none in E. destruct (forbid_unknown opts).
    + split; [discriminate|]. intros [H|(_ & H & _)]; [|discriminate]. exfalso. now apply (E t).
    + unfold ctx. rewrite extension_names_iff. split; [intros H; right; auto|].
      intros [H|(_ & _ & H)]; [|exact H]. exfalso. now apply (E t).
Qed.

Lemma lookup_resolved_none : forall n, lookup_resolved n = None <-> forall t, ~ resolves opts doc n t.
Proof.
  intros n. split.
  - intros H t Ht. apply lookup_resolved_iff in Ht. congruence.
  - intros H. destruct (lookup_resolved n) as [t|] eqn:E; [|reflexivity].
    exfalso. apply (H t). now apply lookup_resolved_iff.
Qed.

Lemma resolves_unique : forall n t u, resolves opts doc n t -> resolves opts doc n u -> t = u.
Proof.
  intros n t u H H'. apply lookup_resolved_iff in H, H'. congruence.
Qed.

Lemma resolves_name : forall n t, resolves opts doc n t -> t_name t = n.
Proof.
  intros n t [H|(_ & _ & H)]; [now apply defined_name in H|now apply extended_name in H].
Qed.

Lemma not_resolved_iff : forall n,
  (forall t, ~ resolves opts doc n t) <->
  undefined doc n /\ (forbid_unknown opts = false -> forall u, ~ extended doc n u).
Proof.
  intros n. split.
  - intros H. assert (HU : undefined doc n) by (intros t Ht; apply (H t); now left).
    split; [exact HU|]. intros F u Hu. apply (H u). right. auto.
  - intros [H1 H2] t [H|(_ & F & H)]; [now apply (H1 t)|now apply (H2 F t)].
Qed.

Definition output_error (t : ty) (p : place) (e : error) : Prop :=
  ~ specified_scalar (type_name t) /\
  (((forall u, ~ resolves opts doc (type_name t) u) /\ e = UnknownType (type_name t) p) \/
   (exists u fs, resolves opts doc (type_name t) u /\ t_kind u = KInput fs /\
                 e = InputInOutput (type_name t) p)).

Lemma emits_output : forall t p e, emits (check_output opts ctx t p) e <-> output_error t p e.
Proof.
  intros t p e. unfold check_output, validate_output_type, output_error.
  destruct (is_builtin_scalar (type_name t)) eqn:B.
  - rewrite emits_no_error. apply builtin_iff in B. tauto.
  - apply builtin_false_iff in B.
    assert (HR : forall T (f : option typedef -> T),
      f match definition_of ctx (type_name t) with
        | Some def => Some def
        | None => if forbid_unknown opts then None
                  else match get (type_name t) (extension_names ctx) with
                       | Some l => hd_error l | None => None end
        end = f (lookup_resolved (type_name t))).
    { intros T f. f_equal. unfold lookup_resolved, get_all.
      destruct (definition_of ctx (type_name t)); [reflexivity|].
      destruct (forbid_unknown opts); [reflexivity|].
      destruct (get (type_name t) (extension_names ctx)); reflexivity. }
    match goal with |- emits (match (match ?X with Some _ => _ | None => _ end) with _ => _ end) _ <-> _ =>
      replace X with (lookup_resolved (type_name t))
        by (symmetry; apply (HR _ (fun x => x))) end.
    destruct (lookup_resolved (type_name t)) as [u|] eqn:E.
    + apply lookup_resolved_iff in E.
      assert (HU : ~ forall u, ~ resolves opts doc (type_name t) u) by (intros H; now apply (H u)).
      assert (HK : (exists u0 fs, resolves opts doc (type_name t) u0 /\ t_kind u0 = KInput fs /\
                               e = InputInOutput (type_name t) p) <->
                   exists fs, t_kind u = KInput fs /\ e = InputInOutput (type_name t) p).
      { split; [intros (u0 & fs & H1 & H2 & H3); exists fs; rewrite (resolves_unique _ _ _ E H1); auto|].
        intros (fs & H1 & H2). exists u, fs. auto. }
      rewrite HK.
      destruct (t_kind u) as [|is fs|is fs|ms|vs|fs];
        rewrite ?emits_no_error, ?emits_push_error; split; intros H; try exact (False_ind _ H);
        try (destruct H as (_ & [[H _]|(fs' & H & _)]); [contradiction|discriminate]).
      * split; [exact B|]. right. exists fs. auto.
      * destruct H as (_ & [[H _]|(fs' & _ & H)]); [contradiction|now symmetry].
    + pose proof (proj1 (lookup_resolved_none _) E) as HN. rewrite emits_push_error. split.
      * intros <-. auto.
      * intros (_ & [[_ ->]|(u & fs & Hu & _)]); [reflexivity|]. exfalso. now apply (HN u).
Qed.

(* ---------------------------------------------------------------- arguments *)

Lemma validate_argument_ok : forall parent f a, validate_argument opts ctx parent f a <> None.
Proof.
  intros parent f a. unfold validate_argument. split_then.
  - apply when_ok.
  - apply check_input_ok.
  - destruct (draft opts); [apply when_ok|discriminate].
  - apply validate_directives_ok.
Qed.

Definition argument_error (parent f : name) (a : input_value) (e : error) : Prop :=
  (reserved (iv_name a) /\ e = ArgumentName) \/
  input_error (iv_type a) (AtArgument parent f (iv_name a)) e \/
  (draft opts = true /\ nullable (iv_type a) = false /\ has_default a = false /\
   In "deprecated" (iv_dirs a) /\ e = RequiredDeprecated parent f (iv_name a)) \/
  directive_error (iv_dirs a) LArgumentDefinition e.

Lemma emits_argument : forall parent f a e,
  emits (validate_argument opts ctx parent f a) e <-> argument_error parent f a e.
Proof.
  intros parent f a e. pose proof (validate_argument_ok parent f a) as Hok.
  unfold validate_argument in *. rewrite emits_andthen by exact Hok.
  apply andthen_ok in Hok. destruct Hok as [_ Hok]. rewrite emits_andthen by exact Hok.
  apply andthen_ok in Hok. destruct Hok as [_ Hok]. rewrite emits_andthen by exact Hok.
  rewrite emits_when, emits_input, emits_directives, starts_dunder_iff.
  unfold argument_error.
  assert (HD : emits (if draft opts
     then when (negb (nullable (iv_type a)) && negb (has_default a) &&
                existsb (String.eqb "deprecated") (iv_dirs a)) (RequiredDeprecated parent f (iv_name a))
     else no_error) e <->
     (draft opts = true /\ nullable (iv_type a) = false /\ has_default a = false /\
      In "deprecated" (iv_dirs a) /\ e = RequiredDeprecated parent f (iv_name a))).
  { destruct (draft opts).
    - rewrite emits_when, !andb_true_iff, !negb_true_iff, existsb_eqb.
      split; [intros (((H1 & H2) & H3) & <-); auto|intros (_ & H1 & H2 & H3 & ->); auto].
    - rewrite emits_no_error. split; [tauto|]. intros (H & _). discriminate. }
  rewrite HD. intuition congruence.
Qed.

Lemma validate_arguments_ok : forall parent f args, validate_arguments opts ctx parent f args <> None.
Proof.
  intros parent f args. unfold validate_arguments. apply andthen_ok. split.
  - apply find_duplicates_ok. intros i j n _ Hj _. apply index_ok.
    + apply nth_error_lt in Hj. now rewrite map_length in Hj.
    + intros a _. apply push_error_ok.
  - apply for_each_ok. intros a _. apply validate_argument_ok.
Qed.

Lemma emits_arguments : forall parent f args e,
  emits (validate_arguments opts ctx parent f args) e <->
  (exists a, twice (map iv_name args) a /\ e = DuplicateArgument parent f a) \/
  (exists a, In a args /\ argument_error parent f a e).
Proof.
  intros parent f args e. pose proof (validate_arguments_ok parent f args) as Hok.
  unfold validate_arguments in *. rewrite emits_andthen by exact Hok.
  apply andthen_ok in Hok. destruct Hok as [H1 H2].
  rewrite (emits_find_duplicates _ _ e (fun a e => e = DuplicateArgument parent f a) H1).
  2: { intros i j n _ Hj _ _. unfold index. rewrite nth_error_map in Hj.
       destruct (nth_error args j) as [x|]; [|discriminate]. injection Hj as <-.
       rewrite emits_push_error. split; congruence. }
  rewrite emits_for_each by exact H2. apply or_iff_compat; [reflexivity|].
  split; intros (a & Ha & He); exists a; (split; [exact Ha|now apply emits_argument]).
Qed.

(* ------------------------------------------------------------------- fields *)

Lemma validate_object_field_ok : forall parent f, validate_object_field opts ctx parent f <> None.
Proof.
  intros parent f. unfold validate_object_field. split_then.
  - apply validate_directives_ok.
  - apply when_ok.
  - apply validate_arguments_ok.
Qed.

Lemma validate_output_field_ok : forall parent f, validate_output_field opts ctx parent f <> None.
Proof.
  intros parent f. unfold validate_output_field. apply andthen_ok. split.
  - apply validate_object_field_ok.
  - apply check_output_ok.
Qed.

Definition field_error (parent : name) (f : field) (e : error) : Prop :=
  directive_error (f_dirs f) LFieldDefinition e \/
  (reserved (f_name f) /\ e = FieldName parent (f_name f)) \/
  (exists a, twice (map iv_name (f_args f)) a /\ e = DuplicateArgument parent (f_name f) a) \/
  (exists a, In a (f_args f) /\ argument_error parent (f_name f) a e) \/
  output_error (f_type f) (AtField parent (f_name f)) e.

Lemma emits_output_field : forall parent f e,
  emits (validate_output_field opts ctx parent f) e <-> field_error parent f e.
Proof.
  intros parent f e. pose proof (validate_output_field_ok parent f) as Hok.
  unfold validate_output_field in *. rewrite emits_andthen by exact Hok.
  pose proof (validate_object_field_ok parent f) as Hok'.
  unfold validate_object_field in *. rewrite emits_andthen by exact Hok'.
  apply andthen_ok in Hok'. destruct Hok' as [_ Hok']. rewrite emits_andthen by exact Hok'.
  rewrite emits_directives, emits_when, starts_dunder_iff, emits_arguments, emits_output.
  unfold field_error. intuition congruence.
Qed.

(* ----------------------------------------------------------- implementations *)

Lemma wrapper_types_iff : forall c i,
  wrapper_types_fit c i = true /\ named_subtype doc (type_name c) (type_name i) <->
  implementation_type doc c i.
Proof.
  assert (HS : forall c i, implementation_type doc c i ->
    wrapper_types_fit c i = true /\ named_subtype doc (type_name c) (type_name i)).
  { intros c i H. induction H as [a b N H IH|a b H IH|a b H].
    - destruct a as [n x|t x], b as [m y|u y]; cbn in N; subst x; cbn in IH |- *;
        destruct y; cbn in IH |- *; exact IH.
    - cbn. exact IH.
    - cbn. auto. }
  intros c i. split; [|apply HS]. revert i.
  induction c as [n x|t IH x]; intros [m y|u y]; cbn [wrapper_types_fit type_name nullable];
    intros [H HN]; destruct (negb y && x) eqn:E; try discriminate.
  - destruct x.
    + destruct y; [|discriminate]. now constructor.
    + apply impl_non_null; [reflexivity|]. cbn [as_nullable]. now constructor.
  - specialize (IH u (conj H HN)). destruct x.
    + destruct y; [|discriminate]. now constructor.
    + apply impl_non_null; [reflexivity|]. cbn [as_nullable]. now constructor.
Qed.

Lemma inner_type_iff : forall c i, inner_type_fits ctx c i = true <-> named_subtype doc c i.
Proof.
  intros c i. unfold inner_type_fits. destruct (String.eqb_spec c i) as [->|D].
  - split; [constructor|reflexivity].
  - split.
    + destruct (definition_of ctx i) as [t|] eqn:E; cbn [option_map]; [|discriminate].
      apply definition_of_iff in E. destruct (t_kind t) as [|is fs|is fs|ms|vs|fs] eqn:K; try discriminate.
      * destruct (definition_of ctx c) as [u|] eqn:E'; cbn [option_map]; [|discriminate].
        apply definition_of_iff in E'. destruct (t_kind u) as [|is' fs'|is' fs'|ms'|vs'|fs'] eqn:K'; try discriminate.
        -- rewrite existsb_eqb. intros H. eapply sub_object; eauto.
        -- rewrite existsb_eqb. intros H. eapply sub_interface; eauto.
      * rewrite existsb_eqb. intros H. eapply sub_union; eauto.
    + intros H. inversion H as [n|o u t ms Hu K Hin|o j t u is fs is' fs' Ht K Hu K' Hin|o j t u is fs is' fs' Ht K Hu K' Hin]; subst.
      * contradiction.
      * apply definition_of_iff in Hu. fold ctx in Hu. rewrite Hu. cbn [option_map]. rewrite K. now apply existsb_eqb.
      * apply definition_of_iff in Ht, Hu. fold ctx in Ht, Hu. rewrite Ht, Hu. cbn [option_map]. rewrite K, K'.
        now apply existsb_eqb.
      * apply definition_of_iff in Ht, Hu. fold ctx in Ht, Hu. rewrite Ht, Hu. cbn [option_map]. rewrite K, K'.
        now apply existsb_eqb.
Qed.

Lemma check_field_type_ok : forall i t c f, check_field_type ctx i t c f <> None.
Proof.
  intros i t c f. unfold check_field_type.
  destruct (wrapper_types_fit (f_type c) (f_type f) && inner_type_fits ctx (type_name (f_type c)) (type_name (f_type f)));
    discriminate.
Qed.

Lemma emits_field_type : forall i t c f e,
  emits (check_field_type ctx i t c f) e <->
  ~ implementation_type doc (f_type c) (f_type f) /\ e = BadFieldType t (f_name c) i.
Proof.
  intros i t c f e. unfold check_field_type.
  pose proof (wrapper_types_iff (f_type c) (f_type f)) as HW.
  rewrite <- inner_type_iff, <- andb_true_iff in HW.
  destruct (wrapper_types_fit (f_type c) (f_type f) && inner_type_fits ctx (type_name (f_type c)) (type_name (f_type f))).
  - rewrite emits_no_error. split; [tauto|]. intros [H _]. apply H. now apply HW.
  - rewrite emits_push_error. split.
    + intros <-. split; [|reflexivity]. intros H. apply HW in H. discriminate.
    + intros [_ ->]. reflexivity.
Qed.

Definition argument_pair_error (i t : name) (c f : field) (e : error) : Prop :=
  (exists a x y, last_with (named_arg a) (f_args c) x /\ last_with (named_arg a) (f_args f) y /\
     iv_type x <> iv_type y /\ e = ArgumentType t (f_name c) a i) \/
  (exists a x, last_with (named_arg a) (f_args c) x /\ ~ In a (map iv_name (f_args f)) /\
     nullable (iv_type x) = false /\ e = ArgumentRequired t (f_name c) a i) \/
  (exists a, In a (map iv_name (f_args f)) /\ ~ In a (map iv_name (f_args c)) /\
     e = ArgumentMissing t (f_name c) a i).

Lemma pair_ok : forall i t n x y, (x <> None \/ y <> None) -> check_argument_pair i t n x y <> None.
Proof.
  intros i t n [x|] [y|] H; cbn [check_argument_pair].
  - destruct (ty_eqb (iv_type x) (iv_type y)); discriminate.
  - destruct (nullable (iv_type x)); discriminate.
  - discriminate.
  - destruct H as [H|H]; contradiction.
Qed.

Lemma last_index_in : forall args a, In a (map iv_name args) -> exists k, last_index args a = Some k.
Proof.
  intros args a H. destruct (last_index args a) as [k|] eqn:E; [eauto|].
  apply last_index_none in E. contradiction.
Qed.

Lemma check_field_arguments_ok : forall i t c f, check_field_arguments i t c f <> None.
Proof.
  intros i t c f. unfold check_field_arguments. apply for_each_ok. intros [a p] Hin.
  apply argument_entries in Hin. destruct Hin as [-> Hor]. cbn [fst snd]. unfold arg_at, index.
  destruct (last_index (f_args c) a) as [ci|] eqn:EC.
  - destruct (last_index_some _ _ _ EC) as (x & Hx & _). rewrite Hx.
    destruct (last_index (f_args f) a) as [fi|] eqn:EF.
    + destruct (last_index_some _ _ _ EF) as (y & Hy & _). rewrite Hy. apply pair_ok. left. discriminate.
    + apply pair_ok. left. discriminate.
  - destruct (last_index (f_args f) a) as [fi|] eqn:EF.
    + destruct (last_index_some _ _ _ EF) as (y & Hy & _). rewrite Hy. apply pair_ok. right. discriminate.
    + exfalso. apply last_index_none in EC, EF. tauto.
Qed.

Lemma emits_field_arguments : forall i t c f e,
  emits (check_field_arguments i t c f) e <-> argument_pair_error i t c f e.
Proof.
  intros i t c f e. pose proof (check_field_arguments_ok i t c f) as Hok.
  unfold check_field_arguments in *. rewrite emits_for_each by exact Hok. clear Hok.
  unfold argument_pair_error. split.
  - intros ([a p] & Hin & He). apply argument_entries in Hin. destruct Hin as [-> Hor].
    cbn [fst snd] in He. unfold arg_at, index in He.
    destruct (last_index (f_args c) a) as [ci|] eqn:EC.
    + destruct (last_index_some _ _ _ EC) as (x & Hx & HLx). rewrite Hx in He.
      pose proof (proj2 (last_with_in _ _ _ HLx)) as Nx. unfold named_arg in Nx.
      destruct (last_index (f_args f) a) as [fi|] eqn:EF.
      * destruct (last_index_some _ _ _ EF) as (y & Hy & HLy). rewrite Hy in He.
        cbn [check_argument_pair] in He. destruct (ty_eqb (iv_type x) (iv_type y)) eqn:T; [destruct He|].
        rewrite emits_push_error in He. left. exists a, x, y. rewrite <- He, Nx.
        split; [exact HLx|]. split; [exact HLy|]. split; [|reflexivity].
        intros E. apply ty_eqb_eq in E. congruence.
      * cbn [check_argument_pair] in He. destruct (nullable (iv_type x)) eqn:T; [destruct He|].
        rewrite emits_push_error in He. right. left. exists a, x. rewrite <- He, Nx.
        apply last_index_none in EF. auto.
    + destruct (last_index (f_args f) a) as [fi|] eqn:EF.
      * destruct (last_index_some _ _ _ EF) as (y & Hy & HLy). rewrite Hy in He.
        cbn [check_argument_pair] in He. rewrite emits_push_error in He.
        destruct (last_with_in _ _ _ HLy) as [Iy Ny]. unfold named_arg in Ny.
        right. right. exists a. rewrite <- He, Ny. apply last_index_none in EC.
        split; [|auto]. rewrite <- Ny. now apply in_map.
      * destruct He.
  - intros [(a & x & y & HLx & HLy & HT & ->)|[(a & x & HLx & HNf & HT & ->)|(a & HIf & HNc & ->)]].
    + exists (a, (last_index (f_args c) a, last_index (f_args f) a)). split.
      * apply argument_entries. split; [reflexivity|]. left.
        destruct (last_with_in _ _ _ HLx) as [Ix Nx]. rewrite <- Nx. now apply in_map.
      * cbn [fst snd]. destruct (last_with_in _ _ _ HLx) as [_ Nx]. unfold named_arg in Nx.
        destruct (last_with_index _ _ _ HLx) as (ci & EC & Hx).
        destruct (last_with_index _ _ _ HLy) as (fi & EF & Hy).
        rewrite EC, EF. unfold arg_at, index. rewrite Hx, Hy. cbn [check_argument_pair].
        destruct (ty_eqb (iv_type x) (iv_type y)) eqn:T; [apply ty_eqb_eq in T; contradiction|].
        rewrite Nx. now left.
    + exists (a, (last_index (f_args c) a, last_index (f_args f) a)). split.
      * apply argument_entries. split; [reflexivity|]. left.
        destruct (last_with_in _ _ _ HLx) as [Ix Nx]. rewrite <- Nx. now apply in_map.
      * cbn [fst snd]. destruct (last_with_in _ _ _ HLx) as [_ Nx]. unfold named_arg in Nx.
        destruct (last_with_index _ _ _ HLx) as (ci & EC & Hx).
        apply last_index_none in HNf. rewrite EC, HNf. unfold arg_at, index. rewrite Hx.
        cbn [check_argument_pair]. rewrite HT, Nx. now left.
    + exists (a, (last_index (f_args c) a, last_index (f_args f) a)). split.
      * apply argument_entries. auto.
      * cbn [fst snd]. destruct (last_index_in _ _ HIf) as (fi & EF).
        destruct (last_index_some _ _ _ EF) as (y & Hy & HLy).
        destruct (last_with_in _ _ _ HLy) as [_ Ny]. unfold named_arg in Ny.
        apply last_index_none in HNc. rewrite EF, HNc. unfold arg_at, index. rewrite Hy.
        cbn [check_argument_pair]. rewrite Ny. now left.
Qed.

Lemma find_field_some : forall n l f, find_field n l = Some f <-> first_with (fun z => f_name z = n) l f.
Proof.
  intros n l f. unfold find_field. induction l as [|x l IH]; cbn [find].
  - rewrite first_with_nil. split; [discriminate|tauto].
  - rewrite first_with_cons, <- IH. destruct (String.eqb_spec (f_name x) n) as [E|D].
    + split; [intros H; injection H as ->; auto|]. intros [[-> _]|[H _]]; [reflexivity|contradiction].
    + split; [auto|]. intros [[-> H]|[_ H]]; [contradiction|exact H].
Qed.

Lemma find_field_none : forall n l, find_field n l = None <-> ~ In n (map f_name l).
Proof.
  intros n l. unfold find_field. induction l as [|x l IH]; cbn [find map In]; [tauto|].
  destruct (String.eqb_spec (f_name x) n) as [E|D].
  - split; [discriminate|]. intros H. exfalso. apply H. now left.
  - rewrite IH. tauto.
Qed.

Lemma fields_implement_ok : forall t fs i ifs,
  validate_fields_implement_interface ctx t fs i ifs <> None.
Proof.
  intros t fs i ifs. unfold validate_fields_implement_interface. apply andthen_ok.
  split; apply for_each_ok; intros f _;
    destruct (find_field (f_name f) (all_fields ctx t fs)); try discriminate.
  apply andthen_ok. split; [apply check_field_type_ok|apply check_field_arguments_ok].
Qed.

(* x is the field of the implementer for the field y of the interface *)
Definition fields_error (t i : name) (fs ifs : list field) (e : error) : Prop :=
  (exists x y, In y ifs /\ first_with (fun z => f_name z = f_name y) fs x /\
     ((~ implementation_type doc (f_type x) (f_type y) /\ e = BadFieldType t (f_name y) i) \/
      argument_pair_error i t x y e)) \/
  (exists f, In f (map f_name ifs) /\ ~ In f (map f_name fs) /\ e = MissingField t f i).

Lemma emits_fields_implement : forall t fs i ifs e,
  emits (validate_fields_implement_interface ctx t fs i ifs) e <->
  fields_error t i (fs ++ extension_parts fields_part doc t) ifs e.
Proof.
  intros t fs i ifs e. pose proof (fields_implement_ok t fs i ifs) as Hok.
  unfold validate_fields_implement_interface in *. rewrite emits_andthen by exact Hok.
  apply andthen_ok in Hok. destruct Hok as [H1 H2].
  rewrite (emits_for_each _ _ _ H1), (emits_for_each _ _ _ H2).
  rewrite (all_fields_eq doc t fs : all_fields ctx t fs = _) in *. unfold fields_error.
  apply or_iff_compat.
  - split.
    + intros (y & Hy & He).
      destruct (find_field (f_name y) (fs ++ extension_parts fields_part doc t)) as [x|] eqn:E; [|destruct He].
      exists x, y. split; [exact Hy|]. apply find_field_some in E. split; [exact E|].
      rewrite emits_andthen in He
        by (apply andthen_ok; split; [apply check_field_type_ok|apply check_field_arguments_ok]).
      rewrite emits_field_type, emits_field_arguments in He.
      apply first_with_in in E. destruct E as [_ E]. now rewrite E in He.
    + intros (x & y & Hy & E & He). exists y. split; [exact Hy|].
      pose proof (proj2 (find_field_some _ _ _) E) as E'. rewrite E'.
      rewrite emits_andthen
        by (apply andthen_ok; split; [apply check_field_type_ok|apply check_field_arguments_ok]).
      rewrite emits_field_type, emits_field_arguments.
      apply first_with_in in E. destruct E as [_ E]. now rewrite E.
  - split.
    + intros (y & Hy & He).
      destruct (find_field (f_name y) (fs ++ extension_parts fields_part doc t)) as [x|] eqn:E; [destruct He|].
      rewrite emits_push_error in He. apply find_field_none in E. exists (f_name y).
      split; [now apply in_map|]. auto.
    + intros (f & Hf & HN & ->). apply in_map_iff in Hf. destruct Hf as (y & <- & Hy).
      exists y. split; [exact Hy|]. apply find_field_none in HN. rewrite HN. now left.
Qed.

Lemma transitively_ok : forall p is i iis, validate_transitively p is i iis <> None.
Proof. intros. apply for_each_ok. intros x _. apply when_ok. Qed.

Lemma emits_transitively : forall p is i iis e,
  emits (validate_transitively p is i iis) e <->
  exists j, In j iis /\ ~ In j is /\ e = MissingTransitive p j i.
Proof.
  intros p is i iis e. unfold validate_transitively.
  rewrite emits_for_each by (apply for_each_ok; intros x _; apply when_ok).
  split.
  - intros (j & Hj & He). rewrite emits_when, negb_true_iff, <- not_true_iff_false, existsb_eqb' in He.
    destruct He as [HN <-]. exists j. auto.
  - intros (j & Hj & HN & ->). exists j. split; [exact Hj|].
    rewrite emits_when, negb_true_iff, <- not_true_iff_false, existsb_eqb'. auto.
Qed.

Lemma implements_lookup : forall n,
  match definition_of ctx n with
  | Some def => Some def
  | None => if forbid_unknown opts then None
            else match get n (extension_names ctx) with
                 | Some (def :: _) => Some def
                 | _ => None
                 end
  end = lookup_resolved n.
Proof.
  intros n. unfold lookup_resolved, get_all. destruct (definition_of ctx n); [reflexivity|].
  destruct (forbid_unknown opts); [reflexivity|].
  destruct (get n (extension_names ctx)) as [[|x l]|]; reflexivity.
Qed.

Lemma validate_implements_ok : forall p is fs i, validate_implements opts ctx p is fs i <> None.
Proof.
  intros p is fs i. unfold validate_implements. rewrite implements_lookup.
  destruct (lookup_resolved i) as [def|]; [|discriminate].
  destruct (t_kind def) as [|js gs|js gs|ms|vs|gs]; try discriminate.
  apply andthen_ok. split; [apply transitively_ok|apply fields_implement_ok].
Qed.

Definition implements_error (t : name) (is : list name) (fs : list field) (i : name) (e : error) : Prop :=
  ((forall u, ~ resolves opts doc i u) /\ e = UnknownInterface t i) \/
  (exists u, resolves opts doc i u /\ (forall is' fs', t_kind u <> KInterface is' fs') /\ e = NotAnInterface t i) \/
  (exists u is' fs', resolves opts doc i u /\ t_kind u = KInterface is' fs' /\
     ((exists j, In j is' /\ ~ In j is /\ e = MissingTransitive t j i) \/ fields_error t i fs fs' e)).

Lemma emits_implements : forall t is fs i e,
  emits (validate_implements opts ctx t is fs i) e <->
  implements_error t is (fs ++ extension_parts fields_part doc t) i e.
Proof.
  intros t is fs i e. unfold validate_implements, implements_error. rewrite implements_lookup.
  destruct (lookup_resolved i) as [def|] eqn:E.
  - apply lookup_resolved_iff in E. pose proof (resolves_name _ _ E) as HN.
    assert (HU : ~ forall u, ~ resolves opts doc i u) by (intros H; now apply (H def)).
    assert (HX : forall P : typedef -> Prop, (exists u, resolves opts doc i u /\ P u) <-> P def).
    { intros P. split; [intros (u & Hu & HP); now rewrite (resolves_unique _ _ _ E Hu)|].
      intros HP. exists def. auto. }
    rewrite (HX (fun u => (forall is' fs', t_kind u <> KInterface is' fs') /\ e = NotAnInterface t i)).
    assert (HY : forall P : list name -> list field -> Prop,
      (exists u is' fs', resolves opts doc i u /\ t_kind u = KInterface is' fs' /\ P is' fs') <->
      (exists is' fs', t_kind def = KInterface is' fs' /\ P is' fs')).
    { intros P. split.
      - intros (u & is' & fs' & Hu & HK & HP). exists is', fs'. now rewrite (resolves_unique _ _ _ E Hu).
      - intros (is' & fs' & HK & HP). exists def, is', fs'. auto. }
    rewrite HY.
    assert (HNI : (forall is' fs', t_kind def <> KInterface is' fs') ->
                  (emits (push_error (NotAnInterface t (t_name def))) e <->
      (forall u, ~ resolves opts doc i u) /\ e = UnknownInterface t i \/
      (forall is' fs', t_kind def <> KInterface is' fs') /\ e = NotAnInterface t i \/
      (exists is' fs', t_kind def = KInterface is' fs' /\
         ((exists j, In j is' /\ ~ In j is /\ e = MissingTransitive t j i) \/
          fields_error t i (fs ++ extension_parts fields_part doc t) fs' e)))).
    { intros HK. rewrite emits_push_error, HN. split.
      - intros <-. right. left. auto.
      - intros [[H _]|[[_ ->]|(is' & fs' & H & _)]]; [contradiction|reflexivity|].
        exfalso. now apply (HK is' fs'). }
    destruct (t_kind def) as [|js gs|js gs|ms|vs|gs] eqn:K; try (apply HNI; discriminate).
    rewrite emits_andthen by (apply andthen_ok; split; [apply transitively_ok|apply fields_implement_ok]).
    rewrite emits_transitively, emits_fields_implement, HN. split.
    + intros H. right. right. exists js, gs. auto.
    + intros [[H _]|[[H _]|(is' & fs' & H & HP)]]; [contradiction| |].
      * exfalso. now apply (H js gs).
      * injection H as <- <-. exact HP.
  - pose proof (proj1 (lookup_resolved_none _) E) as HN. rewrite emits_push_error. split.
    + intros <-. left. auto.
    + intros [[_ ->]|[(u & H & _)|(u & is' & fs' & H & _)]]; [reflexivity| |]; exfalso; now apply (HN u).
Qed.

Lemma implements_list_ok : forall t is fs, validate_implements_list opts ctx t is fs <> None.
Proof.
  intros t is fs. unfold validate_implements_list. apply andthen_ok. split.
  - apply find_duplicates_ok. intros i j n Hi _ _. apply index_ok; [eapply nth_error_lt; eauto|].
    intros x _. apply push_error_ok.
  - apply for_each_ok. intros i _. apply validate_implements_ok.
Qed.

Lemma emits_implements_list : forall t is fs e,
  emits (validate_implements_list opts ctx t is fs) e <->
  (exists i, twice is i /\ e = DuplicateImplements t i) \/
  (exists i, In i is /\ implements_error t is (fs ++ extension_parts fields_part doc t) i e).
Proof.
  intros t is fs e. pose proof (implements_list_ok t is fs) as Hok.
  unfold validate_implements_list in *. rewrite emits_andthen by exact Hok.
  apply andthen_ok in Hok. destruct Hok as [H1 H2].
  rewrite (emits_find_duplicates _ _ e (fun i e => e = DuplicateImplements t i) H1).
  2: { intros i j n Hi _ _ _. unfold index. rewrite Hi. rewrite emits_push_error. split; congruence. }
  rewrite emits_for_each by exact H2. apply or_iff_compat; [reflexivity|].
  split; intros (i & Hi & He); exists i; (split; [exact Hi|now apply emits_implements]).
Qed.

(* ---------------------------------------------------------------- the types *)

Definition all_of (n : name) (fs : list field) := fs ++ extension_parts fields_part doc n.
Definition all_impl (n : name) (is : list name) := is ++ extension_parts implements_part doc n.

Definition implementer_error (n : name) (is : list name) (fs : list field) (e : error) : Prop :=
  (exists i, twice (all_impl n is) i /\ e = DuplicateImplements n i) \/
  (exists i, In i (all_impl n is) /\ implements_error n (all_impl n is) (all_of n fs) i e).

Lemma validate_object_ok : forall n dirs is fs, validate_object opts ctx n dirs is fs <> None.
Proof.
  intros n dirs is fs. unfold validate_object. cbv zeta. split_then.
  - apply validate_directives_ok.
  - apply implements_list_ok.
  - apply when_ok.
  - apply for_each_ok. intros f _. apply validate_output_field_ok.
  - apply find_duplicates_ok. intros i j m _ Hj _. apply index_ok.
    + apply nth_error_lt in Hj. now rewrite map_length in Hj.
    + intros f _. apply push_error_ok.
Qed.

Lemma emits_object : forall n dirs is fs e,
  emits (validate_object opts ctx n dirs is fs) e <->
  directive_error dirs LObject e \/ implementer_error n is fs e \/
  (all_of n fs = [] /\ e = EmptyObject n) \/
  (exists f, In f (all_of n fs) /\ field_error n f e) \/
  (exists f, twice (map f_name (all_of n fs)) f /\ e = DuplicateField n f).
Proof.
  intros n dirs is fs e. pose proof (validate_object_ok n dirs is fs) as Hok.
  unfold validate_object in *. cbv zeta in *.
  assert (HF : all_fields ctx n fs = all_of n fs) by apply all_fields_eq.
  assert (HI : all_implements ctx n is = all_impl n is) by apply all_implements_eq.
  rewrite HF, HI in *.
  rewrite emits_andthen by exact Hok. apply andthen_ok in Hok. destruct Hok as [_ Hok].
  rewrite emits_andthen by exact Hok. apply andthen_ok in Hok. destruct Hok as [_ Hok].
  rewrite emits_andthen by exact Hok. apply andthen_ok in Hok. destruct Hok as [_ Hok].
  rewrite emits_andthen by exact Hok. apply andthen_ok in Hok. destruct Hok as [H1 H2].
  rewrite emits_directives, emits_implements_list, emits_when, (emits_for_each _ _ _ H1).
  rewrite (emits_find_duplicates _ _ e (fun f e => e = DuplicateField n f) H2).
  2: { intros i j m _ Hj _ _. unfold index. rewrite nth_error_map in Hj.
       destruct (nth_error (all_of n fs) j) as [x|]; [|discriminate]. injection Hj as <-.
       rewrite emits_push_error. split; congruence. }
  fold (all_of n fs). unfold implementer_error.
  apply or_iff_compat; [reflexivity|]. apply or_iff_compat; [reflexivity|].
  apply or_iff_compat; [|apply or_iff_compat; [|reflexivity]].
  - destruct (all_of n fs); split; intros [H E]; try discriminate; auto.
  - split; intros (f & Hf & He); exists f; (split; [exact Hf|now apply emits_output_field]).
Qed.

Lemma validate_interface_ok : forall n dirs is fs, validate_interface opts ctx n dirs is fs <> None.
Proof.
  intros n dirs is fs. unfold validate_interface. split_then.
  - apply validate_directives_ok.
  - apply implements_list_ok.
  - apply when_ok.
  - apply for_each_ok. intros f _. apply validate_output_field_ok.
Qed.

Lemma emits_interface : forall n dirs is fs e,
  emits (validate_interface opts ctx n dirs is fs) e <->
  directive_error dirs LInterface e \/ implementer_error n is fs e \/
  (fs = [] /\ e = EmptyInterface n) \/
  (exists f, In f fs /\ field_error n f e).
Proof.
  intros n dirs is fs e. pose proof (validate_interface_ok n dirs is fs) as Hok.
  unfold validate_interface in *.
  assert (HI : all_implements ctx n is = all_impl n is) by apply all_implements_eq.
  rewrite HI in *.
  rewrite emits_andthen by exact Hok. apply andthen_ok in Hok. destruct Hok as [_ Hok].
  rewrite emits_andthen by exact Hok. apply andthen_ok in Hok. destruct Hok as [_ Hok].
  rewrite emits_andthen by exact Hok. apply andthen_ok in Hok. destruct Hok as [_ H1].
  rewrite emits_directives, emits_implements_list, emits_when, (emits_for_each _ _ _ H1).
  fold (all_of n fs). unfold implementer_error.
  apply or_iff_compat; [reflexivity|]. apply or_iff_compat; [reflexivity|].
  apply or_iff_compat.
  - destruct fs; split; intros [H E]; try discriminate; auto.
  - split; intros (f & Hf & He); exists f; (split; [exact Hf|now apply emits_output_field]).
Qed.

Lemma validate_union_ok : forall u dirs ms, validate_union ctx u dirs ms <> None.
Proof.
  intros u dirs ms. unfold validate_union. cbv zeta. split_then.
  - apply validate_directives_ok.
  - apply for_each_ok. intros m _. destruct (definition_of ctx m) as [t|]; [|discriminate].
    destruct (t_kind t); discriminate.
  - apply find_duplicates_ok. intros i j m Hi _ _. apply index_ok; [eapply nth_error_lt; eauto|].
    intros x _. apply push_error_ok.
Qed.

Definition all_members (u : name) (ms : list name) := ms ++ extension_parts members_part doc u.

Lemma emits_union : forall u dirs ms e,
  emits (validate_union ctx u dirs ms) e <->
  directive_error dirs LUnion e \/
  (exists m, In m (all_members u ms) /\ undefined doc m /\ e = UnionUnknown u m) \/
  (exists m t, In m (all_members u ms) /\ defined doc m t /\ (forall is fs, t_kind t <> KObject is fs) /\
     e = UnionNotObject u m) \/
  (exists m, twice (all_members u ms) m /\ e = UnionDuplicate u m).
Proof.
  intros u dirs ms e. pose proof (validate_union_ok u dirs ms) as Hok.
  unfold validate_union in *. cbv zeta in *.
  assert (HM : all_union_members ctx u ms = all_members u ms) by apply all_union_members_eq.
  rewrite HM in *.
  rewrite emits_andthen by exact Hok. apply andthen_ok in Hok. destruct Hok as [_ Hok].
  rewrite emits_andthen by exact Hok. apply andthen_ok in Hok. destruct Hok as [H1 H2].
  rewrite emits_directives, (emits_for_each _ _ _ H1).
  rewrite (emits_find_duplicates _ _ e (fun m e => e = UnionDuplicate u m) H2).
  2: { intros i j m Hi _ _ _. unfold index. rewrite Hi. rewrite emits_push_error. split; congruence. }
  apply or_iff_compat; [reflexivity|]. rewrite <- or_assoc. apply or_iff_compat; [|reflexivity].
  split.
  - intros (m & Hm & He). destruct (definition_of ctx m) as [t|] eqn:E.
    + apply definition_of_iff in E. right. exists m, t.
      destruct (t_kind t) as [|js gs|js gs|ns|vs|gs] eqn:K; [|destruct He| | | |];
        rewrite emits_push_error in He; rewrite <- He;
        (split; [exact Hm|split; [exact E|split; [discriminate|reflexivity]]]).
    + apply definition_of_none in E. rewrite emits_push_error in He. left. exists m. auto.
  - intros [(m & Hm & HU & ->)|(m & t & Hm & HD & HK & ->)].
    + exists m. split; [exact Hm|]. apply definition_of_none in HU. fold ctx in HU. rewrite HU. now left.
    + exists m. split; [exact Hm|]. apply definition_of_iff in HD. fold ctx in HD. rewrite HD.
      destruct (t_kind t) as [|js gs|js gs|ns|vs|gs]; try now left. exfalso. now apply (HK js gs).
Qed.

Definition all_values (n : name) (vs : list (name * list name)) := vs ++ extension_parts values_part doc n.

Lemma emits_enum : forall n dirs vs e,
  validate_enum ctx n dirs vs <> None ->
  (emits (validate_enum ctx n dirs vs) e <->
   directive_error dirs LEnum e \/
   (exists v, twice (map fst (all_values n vs)) v /\ e = DuplicateEnumValue n v) \/
   (exists v, In v (all_values n vs) /\ directive_error (snd v) LEnumValue e)).
Proof.
  intros n dirs vs e Hok. unfold validate_enum in *. cbv zeta in *.
  assert (HV : all_enum_values ctx n vs = all_values n vs) by apply all_enum_values_eq.
  rewrite HV in *.
  rewrite emits_andthen by exact Hok. apply andthen_ok in Hok. destruct Hok as [_ Hok].
  rewrite emits_andthen by exact Hok. apply andthen_ok in Hok. destruct Hok as [H1 H2].
  rewrite emits_directives, (emits_for_each _ _ _ H2).
  rewrite (emits_find_duplicates _ _ e (fun v e => e = DuplicateEnumValue n v) H1).
  2: { intros i j m Hi _ _ Hne. unfold index in *.
       destruct (nth_error vs i) as [x|] eqn:E; [|contradiction].
       assert (HX : nth_error (map fst (all_values n vs)) i = Some (fst x)).
       { unfold all_values. rewrite map_app, nth_error_app1, nth_error_map, E; [reflexivity|].
         rewrite map_length. eapply nth_error_lt; eauto. }
       rewrite Hi in HX. injection HX as ->. rewrite emits_push_error. split; congruence. }
  apply or_iff_compat; [reflexivity|]. apply or_iff_compat; [reflexivity|].
  split; intros (v & Hv & He); exists v; (split; [exact Hv|now apply emits_directives]).
Qed.

(* An index of a repeated value, to be looked up among the values of the
   definition, that is one of an extension. *)
Lemma validate_enum_none : forall n dirs vs,
  validate_enum ctx n dirs vs = None <->
  exists i j v, i < j /\ nth_error (map fst (all_values n vs)) i = Some v /\
    nth_error (map fst (all_values n vs)) j = Some v /\ length vs <= i.
Proof.
  intros n dirs vs. unfold validate_enum. cbv zeta.
  assert (HV : all_enum_values ctx n vs = all_values n vs) by apply all_enum_values_eq.
  rewrite HV.
  assert (HE : validate_directives ctx dirs LEnum ;;
     find_duplicates (map fst (all_values n vs)) (fun idx _ =>
       index vs idx (fun v => push_error (DuplicateEnumValue n (fst v)))) ;;
     for_each (fun v => validate_directives ctx (snd v) LEnumValue) (all_values n vs) = None <->
     find_duplicates (map fst (all_values n vs)) (fun idx _ =>
       index vs idx (fun v => push_error (DuplicateEnumValue n (fst v)))) = None).
  { rewrite !andthen_none. pose proof (validate_directives_ok dirs LEnum).
    assert (for_each (fun v => validate_directives ctx (snd v) LEnumValue) (all_values n vs) <> None)
      by (apply for_each_ok; intros v _; apply validate_directives_ok).
    tauto. }
  rewrite HE. clear HE. unfold find_duplicates. split.
  - intros H.
    assert (HX : ~ forall p, In p (duplicates_from [] 0 (map fst (all_values n vs))) ->
               index vs (fst p) (fun v => push_error (DuplicateEnumValue n (fst v))) <> None).
    { intros HX. rewrite <- (for_each_ok (fun p => index vs (fst p) (fun v => push_error (DuplicateEnumValue n (fst v))))) in HX.
      contradiction. }
    assert (HY : exists p, In p (duplicates_from [] 0 (map fst (all_values n vs))) /\ length vs <= fst p).
    { destruct (existsb (fun p => Nat.leb (length vs) (fst p)) (duplicates_from [] 0 (map fst (all_values n vs)))) eqn:E.
      - apply existsb_exists in E. destruct E as (p & Hp & Hl). exists p. split; [exact Hp|]. now apply Nat.leb_le.
      - exfalso. apply HX. intros p Hp. apply index_ok; [|intros; apply push_error_ok].
        rewrite <- not_true_iff_false, existsb_exists in E.
        destruct (Nat.leb_spec (length vs) (fst p)) as [L|L]; [|exact L].
        exfalso. apply E. exists p. split; [exact Hp|]. now apply Nat.leb_le. }
    destruct HY as ([i j] & Hp & Hl). cbn [fst] in Hl.
    destruct (duplicates_from_sound _ [] [] i j buf_of_nil Hp) as (v & Hi & Hj & Hlt & _).
    cbn [app] in Hi, Hj. exists i, j, v. auto.
  - intros (i & j & v & Hlt & Hi & Hj & Hl).
    destruct (for_each (fun p => index vs (fst p) (fun w => push_error (DuplicateEnumValue n (fst w))))
                (duplicates_from [] 0 (map fst (all_values n vs)))) as [l|] eqn:E; [|reflexivity].
    exfalso.
    assert (Hok : for_each (fun p => index vs (fst p) (fun w => push_error (DuplicateEnumValue n (fst w))))
                (duplicates_from [] 0 (map fst (all_values n vs))) <> None) by congruence.
    rewrite for_each_ok in Hok. clear E.
    assert (HD : exists i' j', In (i', j') (duplicates_from [] 0 (map fst (all_values n vs))) /\ length vs <= i').
    { clear Hok. 
      assert (HG : forall names before buf i j v, buf_of before buf ->
        (forall m k, get m buf = Some k -> forall k', nth_error before k' = Some m -> k' <= k) ->
        i < j -> nth_error (before ++ names) i = Some v -> nth_error (before ++ names) j = Some v ->
        length before <= j ->
        exists i' j', In (i', j') (duplicates_from buf (length before) names) /\ i <= i').
      { clear. induction names as [|x names IH]; intros before buf i j v HB HM Hlt Hi Hj Hle.
        - rewrite app_nil_r in Hj. apply nth_error_lt in Hj. lia.
        - cbn [duplicates_from]. destruct (Nat.eq_dec j (length before)) as [->|D].
          + rewrite nth_error_app2, Nat.sub_diag in Hj by lia. injection Hj as ->.
            rewrite nth_error_app1 in Hi by lia.
            destruct (get v buf) as [p|] eqn:E.
            * exists p, (length before). split; [apply in_app_iff; left; now left|]. eapply HM; eauto.
            * exfalso. apply (proj2 HB v); [|exact E]. eapply nth_error_In; eauto.
          + destruct (IH (before ++ [x]) (insert x (length before) buf) i j v) as (i' & j' & Hin & Hi').
            * now apply buf_of_insert.
            * intros m k Hm k' Hk'. rewrite get_insert in Hm.
              destruct (String.eqb_spec x m) as [->|Dm].
              -- injection Hm as <-. apply nth_error_lt in Hk'. rewrite app_length in Hk'. cbn [length] in Hk'. lia.
              -- destruct (Nat.lt_ge_cases k' (length before)) as [L|L].
                 ++ rewrite nth_error_app1 in Hk' by exact L. eapply HM; eauto.
                 ++ rewrite nth_error_app2 in Hk' by exact L.
                    destruct (k' - length before) as [|[|q]]; cbn [nth_error] in Hk'; try discriminate.
                    injection Hk' as Hk'. contradiction.
            * exact Hlt.
            * now rewrite <- app_assoc.
            * now rewrite <- app_assoc.
            * rewrite app_length. cbn [length]. lia.
            * rewrite app_length, Nat.add_1_r in Hin. exists i', j'. split; [|exact Hi'].
              apply in_app_iff. now right. }
      destruct (HG (map fst (all_values n vs)) [] [] i j v buf_of_nil) as (i' & j' & Hin & Hle).
      - discriminate.
      - exact Hlt.
      - exact Hi.
      - exact Hj.
      - cbn [length]. lia.
      - exists i', j'. split; [exact Hin|]. lia. }
    destruct HD as (i' & j' & Hin & Hle). apply (Hok _ Hin). cbn [fst]. unfold index.
    destruct (nth_error vs i') as [y|] eqn:E; [|reflexivity]. apply nth_error_lt in E. lia.
Qed.

End Checks.
