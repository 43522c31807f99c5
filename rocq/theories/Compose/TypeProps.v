(* C53: the type of a composed field takes the results of every subgraph, that
   of an argument or an input field only what every subgraph takes. *)
From Coq Require Import String List Bool Arith ZArith Lia.
From Verif.Compose Require Import Model Spec Facts TypeFacts.
Import ListNotations.
Local Open Scope string_scope.
Local Open Scope list_scope.

Lemma conforms_nullable : forall sys sc d t u, nullable t = nullable u -> d <> Null ->
  (conforms sys sc d t <-> conforms sys sc d u).
Proof. intros sys sc d t u N D. destruct d; [congruence| | |]; destruct t, u; cbn in N; try discriminate; injection N as ->; reflexivity. Qed.

Lemma accepts_nullable : forall sys sc b v t u, nullable t = nullable u -> v <> VNull ->
  (accepts sys sc b v t <-> accepts sys sc b v u).
Proof.
  intros sys sc b v t u N D. destruct t, u; cbn in N; try discriminate; injection N as ->; destruct v; try congruence; reflexivity.
Qed.

Lemma conforms_null : forall sys sc t, conforms sys sc Null t <-> required t = false.
Proof. intros. reflexivity. Qed.
Lemma accepts_null : forall sys sc b t, accepts sys sc b VNull t <-> required t = false.
Proof. intros sys sc b [n r|t r]; reflexivity. Qed.

(* Data of one of several types that differ in whether they are required. *)
Lemma conforms_any : forall sys sc d t l, l <> nil -> (forall u, In u l -> nullable u = nullable t) ->
  (conforms sys sc d (with_required (forallb required l) t) <-> exists u, In u l /\ conforms sys sc d u).
Proof.
  intros sys sc d t l NE N.
  assert (DEC : d = Null \/ d <> Null) by (destruct d; [left|right|right|right]; congruence).
  destruct DEC as [->|D].
  - rewrite conforms_null, required_with_required. setoid_rewrite conforms_null. split.
    + intros F. destruct (existsb (fun u => negb (required u)) l) eqn:E.
      * apply existsb_exists in E. destruct E as (u & I & E). exists u. destruct (required u); [discriminate|auto].
      * exfalso. assert (forallb required l = true); [|congruence].
        apply forallb_forall. intros u I. destruct (required u) eqn:R; [reflexivity|].
        assert (existsb (fun u => negb (required u)) l = true); [|congruence].
        apply existsb_exists. exists u. rewrite R. auto.
    + intros (u & I & R). destruct (forallb required l) eqn:F; [|reflexivity].
      rewrite forallb_forall in F. rewrite (F u I) in R. discriminate.
  - split.
    + intros C. destruct l as [|u l]; [congruence|]. exists u. split; [left; reflexivity|].
      apply (conforms_nullable sys sc d (with_required (forallb required (u :: l)) t)); [|exact D|exact C].
      rewrite nullable_with_required. symmetry. apply N. left. reflexivity.
    + intros (u & I & C). apply (conforms_nullable sys sc d u); [|exact D|exact C].
      rewrite nullable_with_required. apply N. exact I.
Qed.

Lemma accepts_all : forall sys sc b v t l, l <> nil -> (forall u, In u l -> nullable u = nullable t) ->
  (accepts sys sc b v (with_required (existsb required l) t) <-> forall u, In u l -> accepts sys sc b v u).
Proof.
  intros sys sc b v t l NE N.
  assert (DEC : v = VNull \/ v <> VNull) by (destruct v; solve [left; reflexivity|right; discriminate]).
  destruct DEC as [->|D].
  - rewrite accepts_null, required_with_required. setoid_rewrite accepts_null. split.
    + intros F u I. destruct (required u) eqn:R; [|reflexivity].
      assert (existsb required l = true); [|congruence]. apply existsb_exists. exists u. auto.
    + intros F. destruct (existsb required l) eqn:E; [|reflexivity].
      apply existsb_exists in E. destruct E as (u & I & R). rewrite (F u I) in R. discriminate.
  - split.
    + intros C u I. apply (accepts_nullable sys sc b v (with_required (existsb required l) t)); [|exact D|exact C].
      rewrite nullable_with_required. symmetry. apply N. exact I.
    + intros C. destruct l as [|u l]; [congruence|].
      apply (accepts_nullable sys sc b v u); [|exact D|apply C; left; reflexivity].
      rewrite nullable_with_required. apply N. left. reflexivity.
Qed.

Lemma existsb_map : forall A B (f : A -> B) p l, existsb p (map f l) = existsb (fun x => p (f x)) l.
Proof. induction l as [|x l IH]; [reflexivity|]. cbn. rewrite IH. reflexivity. Qed.
Lemma forallb_map : forall A B (f : A -> B) p l, forallb p (map f l) = forallb (fun x => p (f x)) l.
Proof. induction l as [|x l IH]; [reflexivity|]. cbn. rewrite IH. reflexivity. Qed.

Lemma own_types_field_types : forall (l : list fview) us,
  Forall2 (fun f u => own_type (v_field f) = Some u) l us ->
  map type_of us = map (fun f => field_type (v_field f)) l.
Proof.
  induction 1 as [|f u l us O F IH]; [reflexivity|]. cbn. rewrite IH, (own_type_field_type _ _ O). reflexivity.
Qed.

(* The shape of a composed type. *)
Lemma composed_field_type : forall op l t,
  compose_field_types op l = Some (inl t) ->
  exists f r u us, l = f :: r /\ own_type (v_field f) = Some u /\
    map type_of (u :: us) = map (fun x => field_type (v_field x)) l /\ fold_op op u us = Some t.
Proof.
  intros op [|f r] t E; [discriminate|]. cbn in E.
  destruct (own_type (v_field f)) as [u|] eqn:O; [|discriminate]. injection E as E.
  destruct (fold_types_op _ _ _ _ _ E) as (us & F & H).
  exists f, r, u, us. split; [reflexivity|]. split; [exact O|]. split; [|exact H].
  cbn. rewrite (own_type_field_type _ _ O), (own_types_field_types _ _ F). reflexivity.
Qed.

Definition depths_agree (l : list ty) : Prop := forall a b, In a l -> In b l -> depth a = depth b.

Lemma output_type : forall l t, compose_field_types compose_for_output l = Some (inl t) ->
  depths_agree (map (fun x => field_type (v_field x)) l) ->
  (forall x y, In x l -> In y l -> nullable (field_type (v_field x)) = nullable (field_type (v_field y))) /\
  (forall x, In x l ->
     type_of t = with_required (forallb required (map (fun y => field_type (v_field y)) l)) (field_type (v_field x))).
Proof.
  intros l t E D. destruct (composed_field_type _ _ _ E) as (f & r & u & us & -> & O & T & H).
  rewrite <- T in D.
  assert (DU : forall v, In v us -> depth (type_of v) = depth (type_of u)).
  { intros v I. apply D; [right; apply in_map; exact I|left; reflexivity]. }
  apply (fold_output_same _ _ _ DU) in H. destruct H as (N & C).
  assert (HN : forall x, In x (f :: r) -> nullable (field_type (v_field x)) = nullable (type_of u)).
  { intros x I. assert (J : In (field_type (v_field x)) (map type_of (u :: us))).
    { rewrite T. apply (in_map (fun y => field_type (v_field y))). exact I. }
    destruct J as [<-|J]; [reflexivity|]. apply in_map_iff in J. destruct J as (v & <- & J). apply N. exact J. }
  split.
  - intros x y I J. rewrite (HN x I), (HN y J). reflexivity.
  - intros x I. rewrite C, <- T, forallb_map. apply with_required_nullable. symmetry. apply HN. exact I.
Qed.

Lemma input_type : forall l t, compose_field_types compose_for_input l = Some (inl t) ->
  depths_agree (map (fun x => field_type (v_field x)) l) ->
  (forall x y, In x l -> In y l -> nullable (field_type (v_field x)) = nullable (field_type (v_field y))) /\
  (forall x, In x l ->
     type_of t = with_required (existsb required (map (fun y => field_type (v_field y)) l)) (field_type (v_field x))).
Proof.
  intros l t E D. destruct (composed_field_type _ _ _ E) as (f & r & u & us & -> & O & T & H).
  rewrite <- T in D.
  assert (DU : forall v, In v us -> depth (type_of v) = depth (type_of u)).
  { intros v I. apply D; [right; apply in_map; exact I|left; reflexivity]. }
  apply (fold_input_same _ _ _ DU) in H. destruct H as (N & C).
  assert (HN : forall x, In x (f :: r) -> nullable (field_type (v_field x)) = nullable (type_of u)).
  { intros x I. assert (J : In (field_type (v_field x)) (map type_of (u :: us))).
    { rewrite T. apply (in_map (fun y => field_type (v_field y))). exact I. }
    destruct J as [<-|J]; [reflexivity|]. apply in_map_iff in J. destruct J as (v & <- & J). apply N. exact J. }
  split.
  - intros x y I J. rewrite (HN x I), (HN y J). reflexivity.
  - intros x I. rewrite C, <- T, existsb_map. apply with_required_nullable. symmetry. apply HN. exact I.
Qed.

Lemma argument_type : forall a l t, fold_arg_types (a_type (v_arg a)) l = Some t ->
  depths_agree (map (fun x => type_of (a_type (v_arg x))) (a :: l)) ->
  (forall x y, In x (a :: l) -> In y (a :: l) ->
     nullable (type_of (a_type (v_arg x))) = nullable (type_of (a_type (v_arg y)))) /\
  (forall x, In x (a :: l) ->
     type_of t = with_required (existsb required (map (fun y => type_of (a_type (v_arg y))) (a :: l)))
                   (type_of (a_type (v_arg x)))).
Proof.
  intros a l t E D. rewrite fold_arg_types_op in E.
  apply fold_input_same in E.
  2:{ intros u I. apply in_map_iff in I. destruct I as (x & <- & I).
      apply D; [right; apply (in_map (fun x => type_of (a_type (v_arg x)))); exact I|left; reflexivity]. }
  destruct E as (N & C).
  assert (HN : forall x, In x (a :: l) -> nullable (type_of (a_type (v_arg x))) = nullable (type_of (a_type (v_arg a)))).
  { intros x [<-|I]; [reflexivity|]. apply N. apply (in_map (fun x => a_type (v_arg x))). exact I. }
  split.
  - intros x y I J. rewrite (HN x I), (HN y J). reflexivity.
  - intros x I. rewrite C. cbn [existsb map]. rewrite !existsb_map. apply with_required_nullable. symmetry. apply HN. exact I.
Qed.

Lemma compose_field_some : forall l ds f, compose_field l = (ds, Some f) ->
  exists x r, l = x :: r /\ of_name f = vf_name x /\ compose_field_types compose_for_output l = Some (inl (of_type f)) /\
    of_args f = snd (merge_field_arguments l) /\ of_dirs f = collect (map (fun f => f_dirs (v_field f)) l).
Proof.
  intros [|x r] ds f E; [discriminate|]. exists x, r. split; [reflexivity|]. unfold compose_field in E.
  destruct (merge_field_arguments (x :: r)) as [ad args] eqn:MA.
  destruct (compose_field_types compose_for_output (x :: r)) as [[t|d]|] eqn:T; try discriminate.
  injection E as _ <-. cbn. auto.
Qed.

(* C53 *)
Theorem C53_output_partial : forall l ds f,
  compose_field l = (ds, Some f) ->
  depths_agree (map (fun x => field_type (v_field x)) l) ->
  forall sys scalar d,
    conforms sys scalar d (type_of (of_type f)) <->
    exists x, In x l /\ conforms sys scalar d (field_type (v_field x)).
Proof.
  intros l ds f E D sys sc d. destruct (compose_field_some _ _ _ E) as (x & r & -> & _ & T & _).
  destruct (output_type _ _ T D) as (N & C). rewrite (C x (or_introl eq_refl)).
  rewrite conforms_any.
  - split.
    + intros (u & I & H). apply in_map_iff in I. destruct I as (y & <- & I). exists y. auto.
    + intros (y & I & H). exists (field_type (v_field y)). split; [|exact H].
      apply (in_map (fun y => field_type (v_field y))). exact I.
  - discriminate.
  - intros u I. apply in_map_iff in I. destruct I as (y & <- & I). apply N; [exact I|left; reflexivity].
Qed.

Theorem C53_input_field_partial : forall n common l ds i,
  merge_input_field n common l = (ds, [i]) ->
  depths_agree (map (fun x => field_type (v_field x)) l) ->
  forall sys scalar sent v,
    accepts sys scalar sent v (type_of (oi_type i)) <->
    forall x, In x l -> accepts sys scalar sent v (field_type (v_field x)).
Proof.
  intros n common [|x r] ds i E D sys sc b v; [discriminate|]. unfold merge_input_field in E.
  destruct (mem (vf_name x) common); [|destruct (existsb _ _); discriminate]. cbn [negb] in E.
  destruct (compose_field_types compose_for_input (x :: r)) as [[t|d]|] eqn:T; try discriminate.
  injection E as _ <-. cbn [oi_type].
  destruct (input_type _ _ T D) as (N & C). rewrite (C x (or_introl eq_refl)).
  rewrite accepts_all.
  - split.
    + intros H y I. apply H. apply (in_map (fun y => field_type (v_field y))). exact I.
    + intros H u I. apply in_map_iff in I. destruct I as (y & <- & I). apply H. exact I.
  - discriminate.
  - intros u I. apply in_map_iff in I. destruct I as (y & <- & I). apply N; [exact I|left; reflexivity].
Qed.

Theorem C53_argument_partial : forall n fn common l ds i,
  merge_argument n fn common l = (ds, [i]) ->
  depths_agree (map (fun x => type_of (a_type (v_arg x))) l) ->
  forall sys scalar sent v,
    accepts sys scalar sent v (type_of (oi_type i)) <->
    forall x, In x l -> accepts sys scalar sent v (type_of (a_type (v_arg x))).
Proof.
  intros n fn common [|x r] ds i E D sys sc b v; [discriminate|]. unfold merge_argument in E.
  destruct (mem (va_name x) common); [|discriminate]. cbn [negb] in E.
  destruct (fold_arg_types (a_type (v_arg x)) r) as [t|] eqn:T; [|discriminate].
  injection E as _ <-. cbn [oi_type].
  destruct (argument_type _ _ _ T D) as (N & C). rewrite (C x (or_introl eq_refl)).
  rewrite accepts_all.
  - split.
    + intros H y I. apply H. apply (in_map (fun y => type_of (a_type (v_arg y)))). exact I.
    + intros H u I. apply in_map_iff in I. destruct I as (y & <- & I). apply H. exact I.
  - discriminate.
  - intros u I. apply in_map_iff in I. destruct I as (y & <- & I). apply N; [exact I|left; reflexivity].
Qed.

(* Which types go together: for the same depth, those that differ at most in
   whether they are required. *)
Theorem C53_which_types : forall a b, depth (type_of a) = depth (type_of b) ->
  ((exists c, compose_for_output a b = Some c) <-> nullable (type_of a) = nullable (type_of b)) /\
  ((exists c, compose_for_input a b = Some c) <-> nullable (type_of a) = nullable (type_of b)).
Proof.
  intros a b D.
  assert (X : (exists r, compose_type a b = Some r) <-> nullable (type_of a) = nullable (type_of b)).
  { split.
    - intros (r & E). apply (compose_type_same a b r D) in E. apply E.
    - intros N. eexists. apply (compose_type_same a b _ D). split; [exact N|reflexivity]. }
  rewrite <- X. unfold compose_for_output, compose_for_input.
  destruct (compose_type a b) as [r|]; cbn [option_map]; split; split; intros (c & E); try discriminate; eauto.
Qed.

(* The order of the subgraphs does not matter. *)
Theorem C53_order : forall a b, depth (type_of a) = depth (type_of b) ->
  compose_for_output a b = compose_for_output b a /\ compose_for_input a b = compose_for_input b a.
Proof.
  assert (SYM : forall op : ftype -> ftype -> option ftype,
    (forall a b c, depth (type_of a) = depth (type_of b) -> op a b = Some c -> op b a = Some c) ->
    forall a b, depth (type_of a) = depth (type_of b) -> op a b = op b a).
  { intros op H a b D. destruct (op a b) as [c|] eqn:E.
    - symmetry. apply H; assumption.
    - destruct (op b a) as [c|] eqn:F; [|reflexivity]. apply (H b a c) in F; [congruence|auto]. }
  intros a b D. split; apply SYM; try exact D; clear a b D; intros a b c D E.
  - apply (compose_for_output_same a b c D) in E. destruct E as (N & T).
    apply compose_for_output_same; [auto|]. split; [auto|].
    rewrite T, andb_comm. apply with_required_nullable. exact N.
  - apply (compose_for_input_same a b c D) in E. destruct E as (N & T).
    apply compose_for_input_same; [auto|]. split; [auto|].
    rewrite T, orb_comm. apply with_required_nullable. exact N.
Qed.

(* Types of different depth should be refused.  They are not when one of them
   is no list, nor when the first has one list more than the second. *)
Lemma compose_lists_longer : forall a b s o, length a <> length b ->
  (compose_lists s o a b <> None <->
   length a = S (length b) /\ removelast (removelast (s :: a)) = removelast (o :: b)).
Proof.
  induction a as [|x a IH]; intros [|y b] s o L.
  - cbn in L. congruence.
  - cbn [compose_lists length]. split; [congruence|]. intros (H & _). discriminate.
  - destruct a as [|z a]; cbn [compose_lists length].
    + split; [auto|]. discriminate.
    + split; [congruence|]. intros (H & _). discriminate.
  - cbn [compose_lists].
    change (removelast (s :: x :: a)) with (s :: removelast (x :: a)).
    change (removelast (o :: y :: b)) with (o :: removelast (y :: b)).
    destruct (Bool.eqb s o) eqn:E.
    + apply eqb_prop in E. subst o. rewrite (IH b x y).
      2:{ cbn in L. congruence. }
      cbn [length]. destruct a as [|z a].
      * split; intros (H & _); discriminate.
      * change (removelast (x :: z :: a)) with (x :: removelast (z :: a)).
        change (removelast (s :: x :: removelast (z :: a))) with (s :: removelast (x :: removelast (z :: a))).
        split; intros (H & R); (split; [congruence|]); congruence.
    + apply eqb_false_iff in E. split; [congruence|]. intros (H & R). exfalso.
      destruct a as [|z a]; [discriminate|].
      change (removelast (x :: z :: a)) with (x :: removelast (z :: a)) in R.
      change (removelast (s :: x :: removelast (z :: a))) with (s :: removelast (x :: removelast (z :: a))) in R.
      congruence.
Qed.

Theorem C53_which_depths : forall a b, depth (type_of a) <> depth (type_of b) ->
  (compose_type a b <> None <->
   base a = base b /\
   (depth (type_of a) = 0 \/ depth (type_of b) = 0 \/
    (depth (type_of a) = S (depth (type_of b)) /\ inner_required (wrap a) = inner_required (wrap b) /\
     removelast (removelast (lists (wrap a))) = removelast (lists (wrap b))))).
Proof.
  intros a b D. rewrite !depth_type_of in *. unfold compose_type.
  destruct (ftype_eqb a b) eqn:E; [apply ftype_eqb_eq in E; subst; congruence|].
  destruct (String.eqb (base a) (base b)) eqn:B; cbn [negb].
  2:{ apply String.eqb_neq in B. split; [congruence|]. intros (H & _). contradiction. }
  apply String.eqb_eq in B.
  destruct a as [n [i ls]], b as [n' [i' ls']]. cbn [base wrap lists inner_required] in *. subst n'.
  destruct ls as [|x ls]; [cbn [zip_next]; split; [auto|discriminate]|].
  destruct ls' as [|y ls']; [cbn [zip_next]; split; [auto|discriminate]|]. cbn [zip_next].
  destruct (Bool.eqb i i') eqn:R; cbn [negb].
  - apply eqb_prop in R. rewrite (compose_lists_longer ls ls' x y).
    2:{ cbn in D. congruence. }
    cbn [length]. split.
    + intros (H & K). split; [reflexivity|]. right. right. auto.
    + intros (_ & [H|[H|(H & _ & K)]]); try discriminate. injection H as H. auto.
  - apply eqb_false_iff in R. split; [congruence|]. intros (_ & [H|[H|(_ & H & _)]]); [discriminate|discriminate|contradiction].
Qed.

(* Two subgraphs that say `[Int]` and `Int` for the same field. *)
Definition int_list : ftype := mkftype "Int" (mkwrapping false [false]).
Definition int_plain : ftype := mkftype "Int" (mkwrapping false nil).
Definition graph_with (n : name) (t : ftype) : subgraph :=
  let d := mkdirectives true false false false false false false false false false None nil nil in
  mkgraph n ApolloV2 [mkdef "Query" KObject [mkfield "a" t nil None d] nil nil nil plain] nil (Some "Query") None None.

Theorem C53_depth_refuted : exists g h s t d,
  compose [g; h] = Composed s /\
  lookup s "Query" = Some (DObject [t] nil) /\
  conforms (read_graph g) (fun n v => exists z, v = VInt z) d (Named "Query" true) /\
  ~ conforms (read_schema s) (fun n v => exists z, v = VInt z) d (Named "Query" true).
Proof.
  exists (graph_with "g" int_list), (graph_with "h" int_plain).
  eexists. eexists. exists (Obj "Query" [("a", Arr [Leaf (VInt 1%Z)])]).
  split; [vm_compute; reflexivity|]. split; [vm_compute; reflexivity|].
  split.
  - cbn. split; [reflexivity|]. eexists. split; [reflexivity|]. split; [|exact Logic.I].
    eexists. split; [left; reflexivity|]. cbn. split; [|exact Logic.I]. eexists. reflexivity.
  - cbn. intros (_ & flds & F & (t' & I & C) & _). injection F as <-.
    destruct I as [I|[]]. injection I as <-. exact C.
Qed.

(* `[Int!]!` in one and `[Int!]` in the other; `[[Int]]` then `[Int]` *)
Definition ints (r s : bool) : ftype := mkftype "Int" (mkwrapping r [s]).
Example C53_example :
  compose_for_output (ints true true) (ints true false) = Some (ints true false) /\
  compose_for_input (ints true true) (ints true false) = Some (ints true true) /\
  compose_for_output (ints true true) (ints false true) = None /\
  compose_for_output (mkftype "Int" (mkwrapping false [false; false])) int_list = Some int_list /\
  compose_for_output int_list (mkftype "Int" (mkwrapping false [false; false])) = None.
Proof. repeat split. Qed.
