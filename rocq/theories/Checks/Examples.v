(* Examples for the operation checks, and operations that they miss (C49). *)
From Coq Require Import String List Bool Arith NArith Lia.
Import ListNotations.
From Verif.SchemaDiff Require Import Ast Search Diff DocFacts DiffProps.
From Verif.Checks Require Import Model Spec Facts Usage Inputs Counts Decide Properties.
Local Open Scope string_scope.
Local Open Scope list_scope.

Ltac find_in := cbn; repeat (first [left; reflexivity | right]).

Ltac each H :=
  cbn in H;
  repeat match type of H with
         | _ \/ _ => destruct H as [H|H]
         | False => contradiction
         end;
  try (injection H as; subst).

(** An example in which something is reported and something is not. *)

Definition old_schema : doc :=
  [DType (TObject "Query" nil
            [mkfield "node" [mkinput "id" (TNonNull (TName "ID")) None; mkinput "order" (TName "Order") None] (TName "Node");
             mkfield "users" [mkinput "filter" (TName "Filter") None] (TList (TName "User"))]);
   DType (TInterface "Node" nil [mkfield "id" nil (TNonNull (TName "ID"))]);
   DType (TObject "User" ["Node"] [mkfield "id" nil (TNonNull (TName "ID")); mkfield "name" nil (TName "String"); mkfield "age" nil (TName "Int")]);
   DType (TObject "Post" ["Node"] [mkfield "id" nil (TNonNull (TName "ID"))]);
   DType (TEnum "Order" ["ASC"; "DESC"; "RANDOM"]);
   DType (TInput "Filter" [mkinput "name" (TName "String") None])].

(* A field that is not used, a value that is not used and an object that is not
   picked are gone, and a result became non-null. *)
Definition new_schema : doc :=
  [DType (TObject "Query" nil
            [mkfield "node" [mkinput "id" (TNonNull (TName "ID")) None; mkinput "order" (TName "Order") None] (TName "Node");
             mkfield "users" [mkinput "filter" (TName "Filter") None] (TNonNull (TList (TNonNull (TName "User"))))]);
   DType (TInterface "Node" nil [mkfield "id" nil (TNonNull (TName "ID"))]);
   DType (TObject "User" ["Node"] [mkfield "id" nil (TNonNull (TName "ID")); mkfield "name" nil (TName "String")]);
   DType (TObject "Post" nil [mkfield "id" nil (TNonNull (TName "ID"))]);
   DType (TEnum "Order" ["ASC"; "DESC"]);
   DType (TInput "Filter" [mkinput "name" (TName "String") None])].

(* { node(id: .., order: DESC) { __typename ... on User { ...F } } users { name } } *)
Definition request : operation :=
  mkop Query [("F", ("User", [SField "name" nil nil]))]
    [SField "node" [("id", None); ("order", Some "DESC")] [SField "__typename" nil nil; SInline (Some "User") [SSpread "F"]];
     SField "users" nil [SField "name" nil nil]]
    [("Order", "ASC")].

Definition usage_of (d : doc) (o : operation) : usage :=
  match aggregate_all 9 (schema_of d) [(3%N, o)] with Some u => u | None => no_usage end.

(* The counts are three, but those of type conditions. *)
Example C49_example_usage : aggregate_all 9 (schema_of old_schema) [(3%N, request)] =
  Some (mkusage 3 [(3, 3%N); (7, 6%N); (4, 3%N)] [(0, 3%N); (1, 3%N)] [(("Order", "ASC"), 3%N); (("Order", "DESC"), 3%N)] nil [(("Node", "User"), 1%N)]).
Proof. vm_compute. reflexivity. Qed.

Example C49_example_silent : check_docs old_schema new_schema (Used (usage_of old_schema request)) = Some nil.
Proof. vm_compute. reflexivity. Qed.

Example C49_example_all : check_docs old_schema new_schema AllUsed =
  Some [(mkchange (PField "Order" "RANDOM") RemoveEnumValue NoText, Error); (mkchange (PImpl "Post" "Node") RemoveInterfaceImplementation NoText, Error);
        (mkchange (PField "User" "age") RemoveField NoText, Error)].
Proof. vm_compute. reflexivity. Qed.

Lemma old_ok : doc_ok old_schema. Proof. ok_doc. Qed.
Lemma new_ok : doc_ok new_schema. Proof. ok_doc. Qed.

Lemma old_roots : roots_once old_schema.
Proof. intros t n m N M. apply (no_roots old_schema eq_refl) in N, M. congruence. Qed.

Lemma example_comparable : comparable old_schema new_schema.
Proof.
  constructor.
  - intros n j k J K. apply kinds_in in J, K. each J; each K; first [reflexivity|discriminate].
  - intros n f t k T K. apply fields_in in T. apply kinds_in in K.
    each T; cbn in K |- *; each K; try discriminate;
      eexists; apply kinds_in; find_in.
  - intros n v K V. apply kinds_in in K. each K; discriminate.
  - intros n f t k T K. apply fields_in in T. apply kinds_in in K.
    each T; cbn in K |- *; each K; try discriminate; eexists; apply kinds_in; find_in.
  - intros n f i k H K. apply kinds_in in K.
    destruct H as [im fs x i T X <- I0|im fs x i T X <- I0].
    + assert (AO : ArgOf old_schema n (f_name x) i) by (exists im, fs, x; auto).
      apply object_args_in in AO. clear T X I0. each AO; cbn in K |- *; each K; try discriminate; eexists; apply kinds_in; find_in.
    + rewrite (no_args old_schema eq_refl n im fs x T X) in I0. contradiction.
  - intros d n im fs x [-> | ->]; apply no_args; reflexivity.
  - intros t n H. apply (no_roots old_schema eq_refl) in H. apply (no_roots new_schema eq_refl). exact H.
  - left. intros n f x.
    assert (E : forall i, ArgOf old_schema n f i <-> ArgOf new_schema n f i) by (intros i; rewrite !object_args_in; reflexivity).
    split; intros (i & I0 & N); exists i; (split; [apply E; exact I0|exact N]).
  - intros n f x y X Y E _. left. apply object_args_in in X, Y. each X; each Y; try discriminate; apply covers_refl.
  - intros n f x y X Y E _ D. apply object_args_in in X, Y. each X; each Y; try discriminate; exact D.
Qed.

Lemma request_valid : ValidOpWith (plain old_schema) old_schema request.
Proof.
  assert (NAME : ValidSel old_schema (o_fragments request) (plain old_schema) "User" (SField "name" nil nil)).
  { eapply v_field with (t := TName "String").
    - left. apply kinds_in. find_in.
    - apply fields_in. find_in.
    - intros q v [].
    - intros i H. exfalso. destruct H as [im fs x i T X E I0|im fs x i T X E I0].
      + assert (AO : ArgOf old_schema "User" "name" i) by (exists im, fs, x; auto). apply object_args_in in AO. clear T. each AO; discriminate.
      + rewrite (no_args old_schema eq_refl _ _ _ _ T X) in I0. contradiction.
    - split; [congruence|]. intros [H|[H|H]]; apply kinds_in in H; cbn in H; intuition discriminate.
    - intros s []. }
  assert (REQ : forall f i, HasArg old_schema "Query" f i -> In ("Query", f, i) (object_args old_schema)).
  { intros f i H. destruct H as [im fs x i T X E I0|im fs x i T X E I0].
    - apply object_args_in. exists im, fs, x. auto.
    - rewrite (no_args old_schema eq_refl _ _ _ _ T X) in I0. contradiction. }
  exists "Query". split; [apply (no_roots old_schema eq_refl); reflexivity|]. split; [apply kinds_in; find_in|]. split.
  - intros s S. each S; subst s.
    + eapply v_field with (t := TName "Node").
      * left. apply kinds_in. find_in.
      * apply fields_in. find_in.
      * intros q v H. each H; subst.
        { exists (mkinput "id" (TNonNull (TName "ID")) None). split; [apply object_arg, object_args_in; find_in|].
          split; [reflexivity|]. intros e [=]. }
        { exists (mkinput "order" (TName "Order") None). split; [apply object_arg, object_args_in; find_in|].
          split; [reflexivity|]. intros e [= <-] _. apply values_in. find_in. }
      * intros i H R. apply REQ in H. each H; try discriminate; subst; cbn; auto.
      * split; [|discriminate]. intros _. right. left. apply kinds_in. find_in.
      * intros s S. each S; subst s.
        { apply v_typename. right. left. apply kinds_in. find_in. }
        { assert (PO : Possible old_schema "Node" "User").
          { apply po_interface; [apply kinds_in; find_in|apply kinds_in; find_in|]. apply impls_table. find_in. }
          apply v_inline.
          - left. apply kinds_in. find_in.
          - right. exists "User". split; [exact PO|]. apply po_object. apply kinds_in. find_in.
          - right. auto.
          - intros s S. each S; subst s. eapply v_spread.
            + cbn. left. reflexivity.
            + left. apply kinds_in. find_in.
            + left. reflexivity.
            + left. reflexivity.
            + intros s S. each S; subst s. exact NAME. }
    + eapply v_field with (t := TList (TName "User")).
      * left. apply kinds_in. find_in.
      * apply fields_in. find_in.
      * intros q v [].
      * intros i H [[z Z] _]. apply REQ in H. each H; try discriminate; subst; discriminate.
      * split; [|discriminate]. intros _. left. apply kinds_in. find_in.
      * intros s S. each S; subst s. exact NAME.
  - intros e v H _. each H; subst. apply values_in. find_in.
Qed.

(* So the operation is valid on the new schema. *)
Example C49_example : ValidOp new_schema request.
Proof.
  eapply (C49_sound_partial old_schema new_schema 9 [(3%N, request)]).
  - exact old_ok.
  - exact new_ok.
  - exact example_comparable.
  - exact old_roots.
  - intros n o [[= <- <-]|[]]. repeat constructor. intros [].
  - apply C49_example_usage.
  - exact C49_example_silent.
  - intros c [].
  - left. reflexivity.
  - exact request_valid.
  - exists "Query", "users". split; [apply (no_roots old_schema eq_refl); reflexivity|].
    eapply ot_sel; [apply (no_roots old_schema eq_refl); reflexivity|cbn; right; left; reflexivity|].
    eapply t_field. apply fields_in. find_in.
  - intros e v H. each H; subst. exists KEnum. apply kinds_in. find_in.
Qed.

(* And with the value that it uses gone as well, there is an error. *)
Example C49_example_error :
  check_docs old_schema
    (map (fun x => match x with DType (TEnum n _) => DType (TEnum n ["ASC"]) | _ => x end) new_schema)
    (Used (usage_of old_schema request)) =
  Some [(mkchange (PField "Order" "DESC") RemoveEnumValue NoText, Error)].
Proof. vm_compute. reflexivity. Qed.

(** Operations that break although no error is reported. *)

Definition Missed (a b : doc) (o : operation) : Prop :=
  doc_ok a /\ doc_ok b /\ op_ok o /\ ValidOp a o /\ ~ ValidOp b o /\
  exists u ds, aggregate_all 9 (schema_of a) [(1%N, o)] = Some u /\ check_docs a b (Used u) = Some ds /\ forall c, ~ In (c, Error) ds.

Ltac ok_op := repeat constructor; cbn; intuition discriminate.

Ltac missed a b o :=
  let A := fresh in let B := fresh in let O := fresh in
  assert (A : doc_ok a) by ok_doc; assert (B : doc_ok b) by ok_doc; assert (O : op_ok o) by ok_op;
  split; [exact A|]; split; [exact B|]; split; [exact O|];
  split; [exact (valid_op_spec 9 a o A O eq_refl)|]; split; [exact (valid_op_spec 9 b o B O eq_refl)|];
  eexists; eexists; split; [vm_compute; reflexivity|]; split; [vm_compute; reflexivity|]; cbn; intuition discriminate.

Definition query (fs : list field) : def := DType (TObject "Query" nil fs).
Definition int_ : ty := TName "Int".

(* The arguments of the fields of interfaces are not kept: one that is given is
   removed.  { node { id(raw: ..) } } *)
Theorem C49_interface_arguments_refuted : exists a b o, Missed a b o.
Proof.
  exists [query [mkfield "node" nil (TName "Node")]; DType (TInterface "Node" nil [mkfield "id" [mkinput "raw" int_ None] int_])],
         [query [mkfield "node" nil (TName "Node")]; DType (TInterface "Node" nil [mkfield "id" nil int_])],
         (mkop Query nil [SField "node" nil [SField "id" [("raw", None)] nil]] nil).
  match goal with |- Missed ?a ?b ?o => missed a b o end.
Qed.

(* The type conditions of named fragments are not counted: the object that one
   picks leaves the union.  { any { ...F } } fragment F on User { id } *)
Theorem C49_fragments_refuted : exists a b o, Missed a b o.
Proof.
  exists [query [mkfield "any" nil (TName "Any")]; DType (TUnion "Any" ["User"; "Post"]);
          DType (TObject "User" nil [mkfield "id" nil int_]); DType (TObject "Post" nil [mkfield "id" nil int_])],
         [query [mkfield "any" nil (TName "Any")]; DType (TUnion "Any" ["Post"]);
          DType (TObject "User" nil [mkfield "id" nil int_]); DType (TObject "Post" nil [mkfield "id" nil int_])],
         (mkop Query [("F", ("User", [SField "id" nil nil]))] [SField "any" nil [SSpread "F"]] nil).
  match goal with |- Missed ?a ?b ?o => missed a b o end.
Qed.

(* A condition on an interface within an object that no longer implements it.
   { me { ... on Node { id } } } *)
Theorem C49_wider_condition_refuted : exists a b o, Missed a b o.
Proof.
  exists [query [mkfield "me" nil (TName "User")]; DType (TInterface "Node" nil [mkfield "id" nil int_]);
          DType (TObject "User" ["Node"] [mkfield "id" nil int_])],
         [query [mkfield "me" nil (TName "User")]; DType (TInterface "Node" nil [mkfield "id" nil int_]);
          DType (TObject "User" nil [mkfield "id" nil int_])],
         (mkop Query nil [SField "me" nil [SInline (Some "Node") [SField "id" nil nil]]] nil).
  match goal with |- Missed ?a ?b ?o => missed a b o end.
Qed.

(* A scalar that becomes an object of the same name.  { now } *)
Theorem C49_kinds_refuted : exists a b o, Missed a b o.
Proof.
  exists [query [mkfield "now" nil (TName "Time")]; DType (TScalar "Time")],
         [query [mkfield "now" nil (TName "Time")]; DType (TObject "Time" nil [mkfield "seconds" nil int_])],
         (mkop Query nil [SField "now" nil nil] nil).
  match goal with |- Missed ?a ?b ?o => missed a b o end.
Qed.

(* An argument that is left out gets another type and has to be given.
   { users } with limit: Int that becomes limit: String! *)
Theorem C49_new_type_refuted : exists a b o, Missed a b o.
Proof.
  exists [query [mkfield "users" [mkinput "limit" int_ None] int_]],
         [query [mkfield "users" [mkinput "limit" (TNonNull (TName "String")) None] int_]],
         (mkop Query nil [SField "users" nil nil] nil).
  match goal with |- Missed ?a ?b ?o => missed a b o end.
Qed.

(* The same when the type is only wrapped otherwise: [Int!] becomes [Int]!. *)
Theorem C49_new_wrapping_refuted : exists a b o, Missed a b o.
Proof.
  exists [query [mkfield "users" [mkinput "ids" (TList (TNonNull int_)) None] int_]],
         [query [mkfield "users" [mkinput "ids" (TNonNull (TList int_)) None] int_]],
         (mkop Query nil [SField "users" nil nil] nil).
  match goal with |- Missed ?a ?b ?o => missed a b o end.
Qed.

(* The target of a changed argument is looked for at the place of the source: with
   an argument added before it, two others are compared.
   { users } with limit: Int that becomes limit: Int! *)
Theorem C49_argument_place_refuted : exists a b o, Missed a b o.
Proof.
  exists [query [mkfield "users" [mkinput "limit" int_ None] int_]],
         [query [mkfield "users" [mkinput "after" (TNonNull int_) (Some "0"); mkinput "limit" (TNonNull int_) None] int_]],
         (mkop Query nil [SField "users" nil nil] nil).
  match goal with |- Missed ?a ?b ?o => missed a b o end.
Qed.

(* The search for the arguments of a field may miss them: the default of one that
   is left out is removed.  { b } with `a` of another type having arguments. *)
Theorem C49_left_out_refuted : exists a b o, Missed a b o.
Proof.
  exists [DType (TObject "A" nil [mkfield "z" [mkinput "x" int_ None] int_]);
          query [mkfield "b" [mkinput "x" (TNonNull int_) (Some "0")] int_]],
         [DType (TObject "A" nil [mkfield "z" [mkinput "x" int_ None] int_]);
          query [mkfield "b" [mkinput "x" (TNonNull int_) None] int_]],
         (mkop Query nil [SField "b" nil nil] nil).
  match goal with |- Missed ?a ?b ?o => missed a b o end.
Qed.

(* A root type is removed of which only the name is asked. { __typename } *)
Theorem C49_root_refuted : exists a b o, Missed a b o.
Proof.
  exists [query [mkfield "a" nil int_]; DType (TScalar "X")], [DType (TScalar "X")],
         (mkop Query nil [SField "__typename" nil nil] nil).
  match goal with |- Missed ?a ?b ?o => missed a b o end.
Qed.

(* An interface argument that has to be given is added to a field that is used. *)
Theorem C49_panics_refuted : exists a b o u, doc_ok a /\ doc_ok b /\ ValidOp a o /\
  aggregate_all 9 (schema_of a) [(1%N, o)] = Some u /\ diff a b <> None /\ check_docs a b (Used u) = None.
Proof.
  exists [query [mkfield "node" nil (TName "Node")]; DType (TInterface "Node" nil [mkfield "id" nil int_])],
         [query [mkfield "node" nil (TName "Node")]; DType (TInterface "Node" nil [mkfield "id" [mkinput "raw" int_ None] int_])],
         (mkop Query nil [SField "node" nil [SField "id" nil nil]] nil).
  eexists. split; [ok_doc|]. split; [ok_doc|]. split; [|split; [vm_compute; reflexivity|split; [vm_compute; discriminate|vm_compute; reflexivity]]].
  match goal with |- ValidOp ?a ?o => assert (A : doc_ok a) by ok_doc; assert (O : op_ok o) by ok_op; exact (valid_op_spec 9 a o A O eq_refl) end.
Qed.

(* Fragments that use each other are followed for ever. *)
Theorem C49_cycles_refuted : exists d o, doc_ok d /\ op_ok o /\ forall fuel, aggregate_all fuel (schema_of d) [(1%N, o)] = None.
Proof.
  exists [query [mkfield "a" nil int_]], (mkop Query [("F", ("Query", [SSpread "F"]))] [SSpread "F"] nil).
  split; [ok_doc|]. split; [ok_op|].
  intros fuel. unfold aggregate_all. cbn [fold_option fst snd]. unfold aggregate. cbn [o_enums fold_left o_root o_fragments fold_option].
  match goal with |- context [aggregate_selection _ ?s ?fs ?n _ ?x] =>
    assert (H : forall fuel m u, aggregate_selection fuel s fs m u x = None) end.
  { clear fuel. induction fuel as [|fuel IH]; intros m u; [reflexivity|]. cbn [aggregate_selection]. unfold find_fragment.
    cbn [find fst snd String.eqb Ascii.eqb Bool.eqb]. cbn [fold_option]. rewrite IH. reflexivity. }
  rewrite H. reflexivity.
Qed.

(* A field of an input object that becomes required is only a warning. *)
Theorem C49_required_input_refuted : exists a b o u, doc_ok a /\ doc_ok b /\ ValidOp a o /\
  aggregate_all 9 (schema_of a) [(1%N, o)] = Some u /\
  check_docs a b (Used u) = Some [(mkchange (PField "Filter" "name") ChangeFieldType (TypeText (TNonNull int_)), Warning)] /\
  exists v leaf, Fits leaf a (TName "Filter") v /\ ~ Fits leaf b (TName "Filter") v.
Proof.
  exists [query [mkfield "users" [mkinput "filter" (TName "Filter") None] int_]; DType (TInput "Filter" [mkinput "name" int_ None])],
         [query [mkfield "users" [mkinput "filter" (TName "Filter") None] int_]; DType (TInput "Filter" [mkinput "name" (TNonNull int_) None])],
         (mkop Query nil [SField "users" [("filter", None)] nil] nil).
  eexists. split; [ok_doc|]. split; [ok_doc|]. split; [|split; [vm_compute; reflexivity|split; [vm_compute; reflexivity|]]].
  - match goal with |- ValidOp ?a ?o => assert (A : doc_ok a) by ok_doc; assert (O : op_ok o) by ok_op; exact (valid_op_spec 9 a o A O eq_refl) end.
  - exists (VObject nil), (fun _ _ => True). split.
    + apply fit_object; [apply kinds_in; find_in|intros x v []|]. intros i (fs & T & F) [[z Z] _].
      destruct T as [T|T]; cbn in T; destruct T as [T|[T|[]]]; try discriminate T. injection T as <-. each F. subst i. discriminate.
    + intros F. inversion F as [| | | | | |n fs K FS RE]; subst.
      apply (RE (mkinput "name" (TNonNull int_) None)).
      * exists [mkinput "name" (TNonNull int_) None]. split; [left; cbn; auto|cbn; auto].
      * split; [eexists; reflexivity|reflexivity].
Qed.

(* A new field with a default is reported though nothing has to change. *)
Theorem C49_default_reported : exists a b o u c, doc_ok a /\ doc_ok b /\ ValidOp a o /\ ValidOp b o /\
  aggregate_all 9 (schema_of a) [(1%N, o)] = Some u /\ check_docs a b (Used u) = Some [(c, Error)] /\
  c_path c = PField "Filter" "limit" /\
  forall x, InputField b "Filter" x -> i_name x = "limit" -> i_default x <> None.
Proof.
  exists [query [mkfield "users" [mkinput "filter" (TName "Filter") None] int_]; DType (TInput "Filter" [mkinput "name" int_ None])],
         [query [mkfield "users" [mkinput "filter" (TName "Filter") None] int_];
          DType (TInput "Filter" [mkinput "name" int_ None; mkinput "limit" (TNonNull int_) (Some "10")])],
         (mkop Query nil [SField "users" [("filter", None)] nil] nil).
  eexists. eexists. split; [ok_doc|]. split; [ok_doc|].
  split; [match goal with |- ValidOp ?a ?o => assert (A : doc_ok a) by ok_doc; assert (O : op_ok o) by ok_op; exact (valid_op_spec 9 a o A O eq_refl) end|].
  split; [match goal with |- ValidOp ?a ?o => assert (A : doc_ok a) by ok_doc; assert (O : op_ok o) by ok_op; exact (valid_op_spec 9 a o A O eq_refl) end|].
  split; [vm_compute; reflexivity|]. split; [vm_compute; reflexivity|]. split; [reflexivity|].
  intros x (fs & T & F) N. destruct T as [T|T]; cbn in T; destruct T as [T|[T|[]]]; try discriminate T. injection T as <-. each F; subst x; discriminate.
Qed.

(* Thresholds ignore how often an operation is requested for type conditions: of
   three requests that pick an object, a threshold of two keeps its fields but
   not the condition. *)
Theorem C49_condition_weight_refuted : exists d o u, doc_ok d /\ ValidOp d o /\
  aggregate_all 9 (schema_of d) [(3%N, o)] = Some u /\
  counted (schema_of d) (apply_threshold 2 u) (UField "User" "name") /\
  OpTouches d o (UCond "Node" "User") /\ ~ counted (schema_of d) (apply_threshold 2 u) (UCond "Node" "User").
Proof.
  exists old_schema, request. eexists. split; [exact old_ok|]. split.
  { assert (O : op_ok request) by ok_op. exact (valid_op_spec 9 old_schema request old_ok O eq_refl). }
  split; [exact C49_example_usage|]. split.
  - exists 7. split; vm_compute; reflexivity.
  - split; [|vm_compute; discriminate]. eapply ot_sel; [apply (no_roots old_schema eq_refl); reflexivity|left; reflexivity|].
    eapply t_sub with (t := TName "Node"); [apply fields_in; find_in|right; left; reflexivity|]. apply t_cond.
Qed.

(* A value that is still accepted after a field became optional. *)
Example C49_inputs_example :
  let f t := DType (TInput "Filter" [mkinput "name" t None; mkinput "limit" int_ None]) in
  let q := query [mkfield "users" [mkinput "filter" (TName "Filter") None] int_] in
  let o := mkop Query nil [SField "users" [("filter", None)] nil] nil in
  check_docs [q; f (TNonNull (TName "String"))] [q; f (TName "String")] (Used (usage_of [q; f (TNonNull (TName "String"))] o)) = Some nil /\
  check_docs [q; f (TName "String")] [q; f (TNonNull (TName "String"))] (Used (usage_of [q; f (TName "String")] o)) =
    Some [(mkchange (PField "Filter" "name") ChangeFieldType (TypeText (TNonNull (TName "String"))), Warning)] /\
  check_docs [q; f (TName "String")] [q; f (TName "String")] AllUsed = Some nil.
Proof. vm_compute. auto. Qed.
