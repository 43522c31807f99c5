(** C01, C02, C03 — packed type modifiers. *)
From Coq Require Import NArith List Bool String Arith Lia.
From Verif.Wrapping Require Import Model Spec Proofs.
Import ListNotations.

(** What a caller can observe of a packed value [w], compared with a type reference [t]. *)
Record reads_as (w : wrapping) (t : ty) : Prop := {
  r_list : is_list w = listp t;
  r_nonnull : is_non_null w = required t;
  r_nullable : is_nullable w = negb (required t);
  r_inner : inner_is_required w = inner_required t;
  r_levels : list_wrappings w = map (fun b : bool => if b then LListNonNull else LList) (levels t);
  r_iter : iter w = modifiers t;
  r_without_list : match element t with
                   | None => without_list w = Some None
                   | Some e => exists w', without_list w = Some (Some w') /\ is_non_null w' = required e
                               /\ list_wrappings w' = map (fun b : bool => if b then LListNonNull else LList) (levels e)
                   end;
  r_u16 : (w < 65536)%N }.

Lemma reads_as_enc t : depth t <= 10 -> reads_as (enc t) t.
Proof.
  intros H. pose proof (good_all t H) as G.
  split; auto using is_list_enc, is_non_null_enc, iter_enc.
  - unfold is_nullable. rewrite is_non_null_enc; auto.
  - apply (g_inner _ G).
  - apply (g_lw _ G).
  - pose proof (g_step _ G OpWithoutList) as St. simpl in St.
    destruct t as [r|e r]; simpl in *.
    + destruct r; reflexivity.
    + assert (He : depth e <= 10) by (apply le_S_n, le_S; exact H).
      destruct (without_list (enc (ListOf e r))) as [[w'|]|] eqn:E.
      * exists w'. split; auto. apply Nat.leb_le in He as He'.
        rewrite He' in St.
        injection St as ->. split; [apply is_non_null_enc; auto|apply (g_lw _ (good_all e He))].
      * exfalso. revert E. unfold without_list, pop_outermost_list_wrapping.
        rewrite (g_len _ G). simpl depth.
        destruct (N.of_nat (S (depth e)) =? 0)%N eqn:Z; [apply N.eqb_eq in Z; discriminate|].
        destruct set_list_length; discriminate.
      * apply Nat.leb_le in He as He'. rewrite He' in St. discriminate.
  - apply (g_u16 _ G).
Qed.

(** C01.  For every sequence of builder calls starting from the plain named type: if no
    intermediate type has more than ten list levels the packed value reads back as the type
    reference built by the same calls; otherwise the library panics. *)
Theorem C01_wrapping_refines_type_reference : forall ops : list sop,
  match srun (Named false) ops with
  | Some t => exists w, run new (map op_of ops) = Some w /\ reads_as w t
  | None => run new (map op_of ops) = None
  end.
Proof.
  intros ops. change new with (enc (Named false)). rewrite run_refines by auto with arith.
  destruct (srun (Named false) ops) as [t|] eqn:E; simpl; auto.
  exists (enc t). split; auto. apply reads_as_enc. eapply srun_depth; [|exact E]. auto with arith.
Qed.
Print Assumptions C01_wrapping_refines_type_reference.

(** [\[\[T!\]\]!] and an operation sequence that removes levels again. *)
Example C01_example : srun (Named false) [SNonNull; SList; SListNonNull; SList; SWithoutList; SWithoutNonNull]
  = Some (ListOf (ListOf (Named true) false) false).
Proof. reflexivity. Qed.
Example C01_panics : srun (Named false) (repeat SList 11) = None /\ srun (Named false) (repeat SList 10) <> None.
Proof. split; [reflexivity|discriminate]. Qed.

(** Different type references never share a packed value. *)
Theorem C01_packed_values_distinct : forall ops1 ops2 t1 t2,
  srun (Named false) ops1 = Some t1 -> srun (Named false) ops2 = Some t2 ->
  run new (map op_of ops1) = run new (map op_of ops2) -> t1 = t2.
Proof.
  intros ops1 ops2 t1 t2 H1 H2. change new with (enc (Named false)).
  rewrite !run_refines, H1, H2 by auto with arith. simpl. intros H; injection H as H.
  apply enc_inj; auto; eapply srun_depth; eauto; auto with arith.
Qed.
Print Assumptions C01_packed_values_distinct.

(** C02.  Lenience on packed values is the structural rule on type references. *)
Theorem C02_lenient_iff : forall ops1 ops2 t1 t2 w1 w2,
  srun (Named false) ops1 = Some t1 -> srun (Named false) ops2 = Some t2 ->
  run new (map op_of ops1) = Some w1 -> run new (map op_of ops2) = Some w2 ->
  (is_equal_or_more_lenient_than w1 w2 = true <-> lenient t1 t2).
Proof.
  intros ops1 ops2 t1 t2 w1 w2 H1 H2. change new with (enc (Named false)).
  rewrite !run_refines, H1, H2 by auto with arith. simpl. intros E1 E2. injection E1 as <-. injection E2 as <-.
  apply is_lenient_enc; eapply srun_depth; eauto; auto with arith.
Qed.
Print Assumptions C02_lenient_iff.
Example C02_example : lenient (ListOf (Named true) false) (ListOf (Named true) true)
  /\ ~ lenient (ListOf (Named true) true) (ListOf (Named true) false).
Proof. simpl. split; [tauto|]. intros [H _]. discriminate H. reflexivity. Qed.

Definition built (w : wrapping) : Prop := exists ops t, srun (Named false) ops = Some t /\ run new (map op_of ops) = Some w.
Lemma built_enc w : built w -> exists t, depth t <= 10 /\ w = enc t.
Proof.
  intros (ops & t & H & R). exists t. change new with (enc (Named false)) in R.
  rewrite run_refines, H in R by auto with arith. simpl in R. injection R as <-.
  split; auto. eapply srun_depth; eauto; auto with arith.
Qed.
(** C02.  The relation is a partial order on packed values. *)
Theorem C02_lenient_partial_order :
  (forall w, built w -> is_equal_or_more_lenient_than w w = true) /\
  (forall a b c, built a -> built b -> built c ->
     is_equal_or_more_lenient_than a b = true -> is_equal_or_more_lenient_than b c = true ->
     is_equal_or_more_lenient_than a c = true) /\
  (forall a b, built a -> built b ->
     is_equal_or_more_lenient_than a b = true -> is_equal_or_more_lenient_than b a = true -> a = b).
Proof.
  repeat split.
  - intros w H. apply built_enc in H as (t & D & ->). apply is_lenient_enc; auto using lenient_refl.
  - intros a b c A B C H1 H2. apply built_enc in A as (ta & Da & ->), B as (tb & Db & ->), C as (tc & Dc & ->).
    apply is_lenient_enc in H1; auto. apply is_lenient_enc in H2; auto. apply is_lenient_enc; auto.
    eapply lenient_trans; eauto.
  - intros a b A B H1 H2. apply built_enc in A as (ta & Da & ->), B as (tb & Db & ->).
    apply is_lenient_enc in H1; auto. apply is_lenient_enc in H2; auto.
    f_equal. apply lenient_antisym; auto.
Qed.
Print Assumptions C02_lenient_partial_order.

(** C03.  The printed form is the GraphQL syntax of the type reference, and parsing it with an
    independent recursive-descent parser gives back the type reference and the name. *)
Theorem C03_display_round_trip : forall ops t w name,
  srun (Named false) ops = Some t -> run new (map op_of ops) = Some w ->
  valid_name name = true -> name <> EmptyString ->
  type_display w name = print t name /\ parse (type_display w name) = Some (t, name).
Proof.
  intros ops t w name H R Hv Hne. change new with (enc (Named false)) in R.
  rewrite run_refines, H in R by auto with arith. simpl in R. injection R as <-.
  assert (D : depth t <= 10) by (eapply srun_depth; eauto; auto with arith).
  rewrite display_enc by auto. split; auto. apply parse_print; auto.
Qed.
Print Assumptions C03_display_round_trip.
Theorem C03_display_injective : forall w1 w2 n1 n2, built w1 -> built w2 ->
  valid_name n1 = true -> n1 <> EmptyString -> valid_name n2 = true -> n2 <> EmptyString ->
  type_display w1 n1 = type_display w2 n2 -> w1 = w2 /\ n1 = n2.
Proof.
  intros w1 w2 n1 n2 B1 B2 V1 E1 V2 E2. apply built_enc in B1 as (t1 & D1 & ->), B2 as (t2 & D2 & ->).
  rewrite !display_enc by auto. intros H.
  pose proof (parse_print t1 n1 V1 E1) as P. rewrite H, parse_print in P by auto. injection P as -> ->. auto.
Qed.
Print Assumptions C03_display_injective.
Example C03_example : exists w, run new (map op_of [SNonNull; SList; SListNonNull]) = Some w /\
  type_display w "Name" = "[[Name!]]!"%string.
Proof. eexists. split; vm_compute; reflexivity. Qed.
