(** C04 (Int coercion), C05 (conformance of variables), C06 (oneOf), C07 (variable types),
    C37 (custom scalars). *)
From Coq Require Import ZArith NArith QArith Qpower List String Bool Lia Sorted.
From Verif.Wrapping Require Import Spec Proofs.
From Verif.Coercion Require Import Json Model Spec Proofs Binding.
Import ListNotations.

Local Ltac nodup := repeat (apply NoDup_cons; [simpl; intuition discriminate|]); apply NoDup_nil.

(** * Exact arithmetic on dyadic numbers *)
Lemma two_power_pos e : (0 <= e)%Z -> two_power e == inject_Z (2 ^ e).
Proof. intros H. unfold two_power. rewrite Zpower_Qpower by lia. reflexivity. Qed.
Lemma two_power_neg e : (e < 0)%Z -> two_power e == / inject_Z (2 ^ (- e)).
Proof.
  intros H. unfold two_power. rewrite Zpower_Qpower by lia. rewrite <- Qpower_opp, Z.opp_involutive. reflexivity.
Qed.
Lemma pow2_pos e : (0 <= e)%Z -> (0 < 2 ^ e)%Z.
Proof. intros; apply Z.pow_pos_nonneg; lia. Qed.
Lemma flt_value_neg m e z : (e < 0)%Z -> (inject_Z m * two_power e == inject_Z z <-> m = z * 2 ^ (- e))%Z.
Proof.
  intros H. rewrite two_power_neg by auto. pose proof (pow2_pos (- e) ltac:(lia)) as P.
  assert (NZ : ~ inject_Z (2 ^ (- e)) == 0).
  { intros E. unfold Qeq in E. simpl in E. lia. }
  split.
  - intros E. assert (inject_Z m == inject_Z (z * 2 ^ (- e))) as E'.
    { rewrite inject_Z_mult, <- E. field. exact NZ. }
    unfold Qeq in E'. simpl in E'. lia.
  - intros ->. rewrite inject_Z_mult. field. exact NZ.
Qed.
Lemma flt_value_pos m e z : (0 <= e)%Z -> (inject_Z m * two_power e == inject_Z z <-> m * 2 ^ e = z)%Z.
Proof.
  intros H. rewrite two_power_pos by auto. rewrite <- inject_Z_mult. unfold Qeq. simpl. split; intros; lia.
Qed.
Lemma flt_floor m e z : inject_Z m * two_power e == inject_Z z ->
  f64_is_floor m e = true /\ f64_trunc m e = z /\ (forall k, f64_lt_Z m e k = (z <? k)%Z).
Proof.
  intros H. unfold f64_is_floor, f64_trunc, f64_lt_Z. destruct (Z.leb_spec 0 e).
  - apply flt_value_pos in H; auto. subst. auto.
  - apply flt_value_neg in H; auto. subst. pose proof (pow2_pos (- e) ltac:(lia)) as P.
    rewrite Z.mod_mul, Z.quot_mul by lia. split; auto. split; auto.
    intros k. destruct (Z.ltb_spec z k), (Z.ltb_spec (z * 2 ^ (- e)) (k * 2 ^ (- e))); auto; nia.
Qed.
Lemma flt_is_floor m e : f64_is_floor m e = true -> inject_Z m * two_power e == inject_Z (f64_trunc m e).
Proof.
  unfold f64_is_floor, f64_trunc. destruct (Z.leb_spec 0 e).
  - intros _. apply flt_value_pos; auto.
  - intros E. apply Z.eqb_eq in E. apply flt_value_neg; auto. pose proof (pow2_pos (- e) ltac:(lia)) as P.
    pose proof (Z.div_mod m (2 ^ (- e)) ltac:(lia)) as D. rewrite E, Z.add_0_r in D.
    rewrite D, (Z.mul_comm _ (m / 2 ^ (- e))), Z.quot_mul by lia. reflexivity.
Qed.

(** serde_json's invariants for numbers *)
Definition number_ok (n : number) : Prop :=
  match n with
  | PosInt n => (0 <= n < 2 ^ 64)%Z
  | NegInt z => (- 2 ^ 63 <= z < 0)%Z
  | Flt m e => (Z.abs m < 2 ^ 53)%Z
  end.

(** * C04 *)
Lemma int_exact_aux n z : coerce_int n = Ok (CInt z) ->
  (inject_Z (-2147483648) <= num_value n)%Q -> num_value n == inject_Z z.
Proof.
  unfold coerce_int, num_value. destruct n as [n|z0|m e].
  - simpl. destruct (n <=? _)%Z; [|discriminate]. unfold i32_try_from. destruct (_ && _)%bool; [|discriminate].
    intros H _; injection H as <-. reflexivity.
  - simpl. unfold i32_try_from. destruct (_ && _)%bool; [|discriminate].
    intros H _; injection H as <-. reflexivity.
  - unfold can_coerce_to_int. destruct (f64_is_floor m e) eqn:F; simpl; [|discriminate].
    pose proof (flt_is_floor _ _ F) as V. destruct (flt_floor _ _ _ V) as (_ & _ & L). rewrite L.
    destruct (Z.ltb_spec (f64_trunc m e) 2147483647); [|discriminate].
    intros E Lo. injection E as <-. rewrite V in Lo |- *. rewrite <- Zle_Qle in Lo.
    unfold f64_as_i32. rewrite Z.min_r, Z.max_r by lia. reflexivity.
Qed.
Lemma denotes_int : denotes (W.non_null W.new) (Named true).
Proof. exists [SNonNull]. split; reflexivity. Qed.

(** C04.  Partial: an accepted number not below the 32-bit range is handed over exactly.
    Missing: floats below -2^31, see the refutation. *)
Theorem C04_int_exact_partial : forall (sch : schema) (n : number) (c : cval),
  coerce_variable sch (DScalar SInt) (W.non_null W.new) (JNum n) = Ok c ->
  (inject_Z (-2147483648) <= num_value n)%Q ->
  exists z, c = CInt z /\ (-2147483648 <= z <= 2147483647)%Z /\ num_value n == inject_Z z.
Proof.
  intros sch n c H L. change (coerce_int n = Ok c) in H.
  destruct (coerce_int_shape _ _ H) as [z ->]. exists z. split; auto. split.
  - apply (code_int_range n z H).
  - apply int_exact_aux; auto.
Qed.
Print Assumptions C04_int_exact_partial.

(** C04.  Every integer of the 32-bit range spelled without a decimal point is accepted; spelled
    as a float it is accepted too, except 2147483647.0. *)
Theorem C04_int_accepted_partial : forall (sch : schema) (n : number) (z : Z),
  number_ok n -> (-2147483648 <= z <= 2147483647)%Z -> num_value n == inject_Z z ->
  (is_f64 n = true -> z <> 2147483647%Z) ->
  coerce_variable sch (DScalar SInt) (W.non_null W.new) (JNum n) = Ok (CInt z).
Proof.
  intros sch n z K R V Nf. change (coerce_int n = Ok (CInt z)). unfold coerce_int, num_value in *.
  destruct n as [n|z0|m e].
  - unfold Qeq in V. simpl in V. assert (n = z) by lia. subst. simpl.
    destruct (Z.leb_spec z 9223372036854775807); [|lia]. unfold i32_try_from.
    destruct (Z.leb_spec (-2147483648) z), (Z.leb_spec z 2147483647); try lia. reflexivity.
  - unfold Qeq in V. simpl in V. assert (z0 = z) by lia. subst. simpl. unfold i32_try_from.
    destruct (Z.leb_spec (-2147483648) z), (Z.leb_spec z 2147483647); try lia. reflexivity.
  - destruct (flt_floor _ _ _ V) as (F & T & L). unfold can_coerce_to_int. rewrite F, L.
    specialize (Nf eq_refl). destruct (Z.ltb_spec z 2147483647); [|lia]. simpl.
    unfold f64_as_i32. rewrite T. rewrite Z.min_r, Z.max_r by lia. reflexivity.
Qed.
Print Assumptions C04_int_accepted_partial.

(** C04 refuted: -10000000000.0 is accepted as Int and silently becomes -2147483648. *)
Theorem C04_int_value_changed_refuted : exists (n : number) (z : Z), number_ok n /\
  (forall sch, coerce_variable sch (DScalar SInt) (W.non_null W.new) (JNum n) = Ok (CInt z)) /\
  ~ num_value n == inject_Z z.
Proof.
  exists (Flt (-10000000000) 0), (-2147483648)%Z. split; [unfold number_ok; lia|]. split.
  - intros sch. vm_compute. reflexivity.
  - unfold Qeq. vm_compute. discriminate.
Qed.
Print Assumptions C04_int_value_changed_refuted.
(** C04 refuted: 2147483647.0 is a valid Int but is rejected. *)
Theorem C04_int_max_float_rejected_refuted : exists n, number_ok n /\ num_value n == inject_Z 2147483647 /\
  forall sch, coerce_variable sch (DScalar SInt) (W.non_null W.new) (JNum n) = Err.
Proof.
  exists (Flt 2147483647 0). split; [unfold number_ok; lia|]. split; [reflexivity|].
  intros sch. vm_compute. reflexivity.
Qed.
Print Assumptions C04_int_max_float_rejected_refuted.
Example C04_example : exists n, number_ok n /\ num_value n == inject_Z (-7) /\ is_f64 n = true /\
  (inject_Z (-2147483648) <= num_value n)%Q /\
  forall sch, coerce_variable sch (DScalar SInt) (W.non_null W.new) (JNum n) = Ok (CInt (-7)).
Proof. exists (Flt (-14) (-1)). repeat split; vm_compute; congruence. Qed.

(** * C05 *)
(** C05.  Coercion of a variable is exactly the relation of the specification, in both directions:
    values that conform are accepted and mapped as specified, all others are rejected. *)
Theorem C05_coercion_iff_spec : forall (sch : schema) (f : input_field) (v : json) (c : cval),
  schema_ok sch -> field_ok sch f -> json_ok v ->
  (coerce_variable sch (f_def f) (f_wrapping f) v = Ok c <->
   coerces_in sch (fun n z => coerce_int n = Ok (CInt z)) (fun n me => as_f64 n = Some me) f v c).
Proof. intros sch f v c S F J. exact (coerce_variable_iff sch S f v J F c). Qed.
Print Assumptions C05_coercion_iff_spec.

(** C05.  What is handed over conforms to the declared type, for every JSON value. *)
Theorem C05_coerced_values_conform : forall (sch : schema) (f : input_field) (v : json) (c : cval),
  schema_ok sch -> field_ok sch f -> json_ok v ->
  coerce_variable sch (f_def f) (f_wrapping f) v = Ok c -> conforms_field sch f c.
Proof.
  intros sch f v c S F J H. eapply coerces_in_conforms. apply (coerce_variable_iff sch S f v J F c). exact H.
Qed.
Print Assumptions C05_coerced_values_conform.

(** C05.  No JSON value crashes coercion. *)
Theorem C05_coercion_never_panics : forall (sch : schema) (f : input_field) (v : json),
  schema_ok sch -> field_ok sch f -> json_ok v ->
  coerce_variable sch (f_def f) (f_wrapping f) v <> Panic.
Proof. intros sch f v S F J. exact (coerce_variable_panic sch S f v J F). Qed.
Print Assumptions C05_coercion_never_panics.

(** A recursive input object: input Filter { and: [Filter!], value: Int!, mode: Mode = A }. *)
Definition ex_filter : input_object := {| is_one_of := false; input_fields := [
  {| f_name := "and"; f_inaccessible := false; f_def := DObj 0; f_wrapping := enc (ListOf (Named true) false); f_has_default := false |};
  {| f_name := "value"; f_inaccessible := false; f_def := DScalar SInt; f_wrapping := enc (Named true); f_has_default := false |};
  {| f_name := "mode"; f_inaccessible := false; f_def := DEnum [("A"%string, false); ("B"%string, true)]; f_wrapping := enc (Named false); f_has_default := true |}] |}.
Definition ex_schema : schema := fun id => match id with O => Some ex_filter | _ => None end.
Definition ex_var : input_field :=
  {| f_name := "v"; f_inaccessible := false; f_def := DObj 0; f_wrapping := enc (ListOf (Named true) true); f_has_default := false |}.
Lemma ex_field_ok d t n i df : def_ok ex_schema d -> (depth t <= 10)%nat ->
  field_ok ex_schema {| f_name := n; f_inaccessible := i; f_def := d; f_wrapping := enc t; f_has_default := df |}.
Proof. intros H D. split; auto. exists t. apply denotes_iff. split; auto. Qed.
Example C05_example_schema_ok : schema_ok ex_schema.
Proof.
  intros [|id] o; [|discriminate]. intros H; injection H as <-. split.
  - apply Forall_cons; [|apply Forall_cons; [|apply Forall_cons; [|apply Forall_nil]]];
      apply ex_field_ok; simpl; eauto; try lia. nodup.
  - simpl. nodup.
Qed.
Example C05_example : json_ok (JObj [("value", JNum (PosInt 1)); ("and", JArr [JObj [("value", JNum (PosInt 2))]])]%string) /\
  field_ok ex_schema ex_var /\
  coerce_variable ex_schema (f_def ex_var) (f_wrapping ex_var)
    (JObj [("value", JNum (PosInt 1)); ("and", JArr [JObj [("value", JNum (PosInt 2))]])]%string)
  = Ok (CList [CObj [(0%nat, CList [CObj [(1%nat, CInt 2); (2%nat, CDefault 2)]]); (1%nat, CInt 1); (2%nat, CDefault 2)]]).
Proof.
  split; [|split].
  - repeat constructor; simpl; intuition discriminate.
  - apply ex_field_ok; simpl; eauto. lia.
  - vm_compute. reflexivity.
Qed.
Example C05_example_rejected :
  coerce_variable ex_schema (f_def ex_var) (f_wrapping ex_var) (JArr [JNull]) = Err /\
  coerce_variable ex_schema (f_def ex_var) (f_wrapping ex_var) (JObj [("and", JNull)]%string) = Err.
Proof. split; vm_compute; reflexivity. Qed.

(** * C06 *)
(** C06.  Partial: an accepted value for a @oneOf object has exactly one field, an accessible one.
    Missing: the field's value may be null. *)
Theorem C06_one_of_single_field_partial : forall (sch : schema) (f : input_field) (id : nat) (o : input_object) (v : json) (c : cval),
  schema_ok sch -> field_ok sch f -> json_ok v ->
  f_def f = DObj id -> sch id = Some o -> is_one_of o = true ->
  (exists r, field_type f (Named r)) -> v <> JNull ->
  coerce_variable sch (f_def f) (f_wrapping f) v = Ok c ->
  exists k x i fld cx, v = JObj [(k, x)] /\ c = CObj [(i, cx)] /\ nth_error (input_fields o) i = Some fld /\
    f_name fld = k /\ f_inaccessible fld = false /\ conforms_field sch fld cx.
Proof.
  intros sch f id o v c S F J D E O [r T] Nn H.
  apply (coerce_variable_iff sch S f v J F c) in H.
  inversion H as [f0 t v0 c0 T0 H0|f0 t v0 c0 T0 L0 N0 A0 H0]; subst.
  - assert (t = Named r) by (eapply denotes_fun; eauto). subst.
    inversion H0 as [| |d r' v1 c1 N1 H1]; subst; [congruence|].
    rewrite D in H1. inversion H1 as [| | | | | |id' o' k x i fld cx E1 E2 E3 E4 E5 E6|id' o' fs buf E1 E2 E3]; subst.
    + assert (o' = o) by congruence. subst. exists (f_name fld), x, i, fld, cx. repeat split; auto.
      eapply coerces_in_conforms; eauto.
    + congruence.
  - assert (t = Named r) by (eapply denotes_fun; eauto). subst. discriminate.
Qed.
Print Assumptions C06_one_of_single_field_partial.

Definition ex_one_of : input_object := {| is_one_of := true; input_fields := [
  {| f_name := "a"; f_inaccessible := false; f_def := DScalar SInt; f_wrapping := enc (Named false); f_has_default := false |};
  {| f_name := "b"; f_inaccessible := false; f_def := DScalar SString; f_wrapping := enc (Named false); f_has_default := false |}] |}.
Definition ex_one_schema : schema := fun id => match id with O => Some ex_one_of | _ => None end.
(** C06 refuted: {"a": null} is accepted for a @oneOf object. *)
Theorem C06_one_of_null_accepted_refuted : exists sch w v c, schema_ok sch /\ json_ok v /\
  (exists o, sch 0%nat = Some o /\ is_one_of o = true) /\
  coerce_variable sch (DObj 0) w v = Ok c /\ c = CObj [(0%nat, CNull)].
Proof.
  exists ex_one_schema, (enc (Named true)), (JObj [("a"%string, JNull)]), (CObj [(0%nat, CNull)]).
  split; [|split; [|split; [|split]]].
  - intros [|id] o; [|discriminate]. intros H; injection H as <-. split.
    + repeat constructor; simpl; auto; eexists; apply denotes_iff; split; try reflexivity; simpl; lia.
    + simpl. nodup.
  - repeat constructor; simpl; intuition discriminate.
  - exists ex_one_of. auto.
  - vm_compute. reflexivity.
  - reflexivity.
Qed.
Print Assumptions C06_one_of_null_accepted_refuted.
Example C06_example :
  coerce_variable ex_one_schema (DObj 0) (enc (Named true)) (JObj [("b"%string, JStr "x")]) = Ok (CObj [(1%nat, CStr "x")]) /\
  coerce_variable ex_one_schema (DObj 0) (enc (Named true)) (JObj [("b"%string, JStr "x"); ("a"%string, JNull)]) = Err /\
  coerce_variable ex_one_schema (DObj 0) (enc (Named true)) (JObj []) = Err.
Proof. repeat split; vm_compute; reflexivity. Qed.

(** * C07 *)
Lemma apply_wrappers_app w a b : apply_wrappers w (a ++ b) =
  match apply_wrappers w a with Some w' => apply_wrappers w' b | None => None end.
Proof.
  revert w; induction a as [|[|] a IH]; intros w; simpl; auto. destruct (W.list_ w); auto.
Qed.
Lemma convert_type_enc t : convert_type t = if (depth t <=? 10)%nat then Some (enc t) else None.
Proof.
  unfold convert_type. induction t as [r|e IH r].
  - destruct r; reflexivity.
  - cbn [wrappers]. rewrite rev_app_distr. cbn [rev]. rewrite <- app_assoc. rewrite apply_wrappers_app, IH.
    destruct (Nat.leb_spec (depth e) 10) as [He|He].
    + pose proof (g_step _ (Verif.Wrapping.Proofs.good_all e He) W.OpList) as St. cbv zeta in St.
      change (sstep e (sop_of W.OpList)) with (ListOf e false) in St. change (W.step (enc e) W.OpList) with (W.list_ (enc e)) in St.
      cbn [app apply_wrappers]. rewrite St. cbn [depth].
      destruct (Nat.leb_spec (S (depth e)) 10) as [Hs|Hs].
      * destruct r; [|reflexivity]. cbn [rev app apply_wrappers].
        pose proof (g_step _ (Verif.Wrapping.Proofs.good_all (ListOf e false) Hs) W.OpNonNull) as St2. cbv zeta in St2.
        change (sstep (ListOf e false) (sop_of W.OpNonNull)) with (ListOf e true) in St2.
        cbn [depth] in St2. rewrite (proj2 (Nat.leb_le _ _) Hs) in St2. exact St2.
      * reflexivity.
    + cbn [depth]. destruct (Nat.leb_spec (S (depth e)) 10); [lia|reflexivity].
Qed.

(** C07.  Partial: with at most ten list levels and no (non-null) default on a list type, the recorded
    type is the declared one, made required when there is a non-null default. *)
Theorem C07_variable_type_partial : forall (t : ty) (default : option bool),
  (depth t <= 10)%nat -> (default = Some true -> listp t = false) ->
  exists w, variable_wrapping t default = Some w /\
    denotes w (if match default with Some true => true | _ => false end then make_required t else t).
Proof.
  intros t d D L. unfold variable_wrapping. rewrite convert_type_enc.
  rewrite (proj2 (Nat.leb_le _ _) D). destruct d as [[|]|].
  - specialize (L eq_refl). rewrite is_list_enc, L by auto. eexists. split; [reflexivity|].
    destruct t; [|discriminate]. simpl. apply denotes_int.
  - eexists. split; [reflexivity|]. apply denotes_iff; auto.
  - eexists. split; [reflexivity|]. apply denotes_iff; auto.
Qed.
Print Assumptions C07_variable_type_partial.
Example C07_example : exists w, variable_wrapping (ListOf (ListOf (Named true) false) true) (Some false) = Some w /\
  exists w', variable_wrapping (Named false) (Some true) = Some w' /\ denotes w' (Named true).
Proof. eexists. split; [vm_compute; reflexivity|]. eexists. split; [reflexivity|]. apply denotes_int. Qed.

(** C07 refuted: a non-null default on a list variable always adds a list level ... *)
Theorem C07_list_default_adds_level_refuted : forall t, listp t = true -> (depth t <= 9)%nat ->
  exists w, variable_wrapping t (Some true) = Some w /\ denotes w (ListOf t true).
Proof.
  intros t L D. unfold variable_wrapping. rewrite convert_type_enc.
  rewrite (proj2 (Nat.leb_le (depth t) 10)) by lia. rewrite is_list_enc, L by lia.
  pose proof (g_step _ (Verif.Wrapping.Proofs.good_all t ltac:(lia)) W.OpListNonNull) as St. cbv zeta in St.
  change (sstep t (sop_of W.OpListNonNull)) with (ListOf t true) in St.
  rewrite (proj2 (Nat.leb_le (depth (ListOf t true)) 10)) in St by (simpl; lia).
  exists (enc (ListOf t true)). split; [exact St|]. apply denotes_iff. split; auto. simpl; lia.
Qed.
Print Assumptions C07_list_default_adds_level_refuted.
(** ... so that with [$x: \[Int\] = \[1\]] the client's [\[1, 2\]] is rejected. *)
Theorem C07_list_default_rejects_lists_refuted : exists t w v, listp t = true /\
  variable_wrapping t (Some true) = Some w /\
  (forall sch, coerce_variable sch (DScalar SInt) (enc t) v <> Err) /\
  (forall sch, coerce_variable sch (DScalar SInt) w v = Err).
Proof.
  exists (ListOf (Named false) false). eexists. exists (JArr [JNum (PosInt 1); JNum (PosInt 2)]).
  split; [reflexivity|]. split; [vm_compute; reflexivity|]. split; intros sch; vm_compute; [discriminate|reflexivity].
Qed.
Print Assumptions C07_list_default_rejects_lists_refuted.
(** C07 refuted: a variable declared with eleven or more list levels crashes binding. *)
Theorem C07_eleven_levels_panic_refuted : forall t default, (11 <= depth t)%nat -> variable_wrapping t default = None.
Proof.
  intros t d D. unfold variable_wrapping. rewrite convert_type_enc.
  destruct (Nat.leb_spec (depth t) 10); [lia|reflexivity].
Qed.
Print Assumptions C07_eleven_levels_panic_refuted.
Example C07_eleven_example : exists t, depth t = 11%nat.
Proof. exists (Nat.iter 11 (fun t => ListOf t false) (Named false)). reflexivity. Qed.

(** * C37 *)
(** The JSON a custom scalar value stands for. *)
Inductive same_json : json -> cval -> Prop :=
| sj_null : same_json JNull CNull
| sj_bool b : same_json (JBool b) (CBool b)
| sj_str s : same_json (JStr s) (CStr s)
| sj_float n m e : num_value n == num_value (Flt m e) -> same_json (JNum n) (CFloat m e)
| sj_arr l l' : Forall2 same_json l l' -> same_json (JArr l) (CList l')
| sj_obj fs fs' : Forall2 (fun kv kc => fst kv = fst kc /\ same_json (snd kv) (snd kc)) fs fs' -> same_json (JObj fs) (CMap fs').
(** All integers in the JSON fit in the 53 bits of a double. *)
Inductive small_ints : json -> Prop :=
| si_null : small_ints JNull
| si_bool b : small_ints (JBool b)
| si_str s : small_ints (JStr s)
| si_flt m e : small_ints (JNum (Flt m e))
| si_pos n : (Z.abs n < 2 ^ 53)%Z -> small_ints (JNum (PosInt n))
| si_neg n : (Z.abs n < 2 ^ 53)%Z -> small_ints (JNum (NegInt n))
| si_arr l : Forall small_ints l -> small_ints (JArr l)
| si_obj fs : Forall (fun kv => small_ints (snd kv)) fs -> small_ints (JObj fs).

Lemma small_as_f64 z m e : (Z.abs z < 2 ^ 53)%Z -> f64_of_Z z = (m, e) -> inject_Z z == num_value (Flt m e).
Proof.
  intros H. unfold f64_of_Z. destruct (Z.ltb_spec (Z.abs z) (2 ^ 53)); [|lia].
  intros E; injection E as <- <-. unfold num_value, two_power. simpl. rewrite Qmult_1_r. reflexivity.
Qed.
Lemma custom_same v : small_ints v -> forall c, custom code_float v c -> same_json v c.
Proof.
  induction v as [|b|n|s|l IH|fs IH] using json_ind'; intros S c H; inversion H as [|b'|s'|n' m e F|l0 l' F|fs0 fs' F]; subst; constructor.
  - unfold code_float in F. inversion S; subst; simpl in F; injection F as F.
    + subst; reflexivity.
    + apply small_as_f64; auto.
    + apply small_as_f64; auto.
  - assert (S' : Forall small_ints l) by (inversion S; auto). clear H S. revert IH S'.
    induction F; intros IH S'; constructor; inversion IH; inversion S'; subst; auto.
  - assert (S' : Forall (fun kv => small_ints (snd kv)) fs) by (inversion S; auto). clear H S. revert IH S'.
    induction F as [|x y l l' [Hk Hc] F IHF]; intros IH S'; constructor; inversion IH; inversion S'; subst; auto.
Qed.

(** C37.  Partial: values of custom scalars are passed through unchanged provided every integer in
    them fits in 53 bits.  Missing: larger integers. *)
Theorem C37_custom_scalar_unchanged_partial : forall (sch : schema) (v : json),
  v <> JNull -> small_ints v ->
  exists c, coerce_variable sch (DScalar SUnknown) (W.non_null W.new) v = Ok c /\ same_json v c.
Proof.
  intros sch v Nn S.
  assert (E : coerce_variable sch (DScalar SUnknown) (W.non_null W.new) v = coerce_unknown v).
  { unfold coerce_variable, coerce_input_value, input_value. simpl. rewrite snd_coerce. simpl.
    destruct v; try congruence; reflexivity. }
  rewrite E.
  assert (T : forall v, exists c, coerce_unknown v = Ok c).
  { clear. induction v as [|b|n|s|l IH|fs IH] using json_ind'; simpl; eauto.
    - unfold coerce_unknown_number. destruct (as_f64_some n) as (m & e & ->). eauto.
    - assert (exists l', sequence (map coerce_unknown l) = Ok l') as [l' ->].
      { induction IH as [|x l [c Hc] F [l' IHl]]; simpl; eauto. rewrite Hc. simpl. rewrite IHl. simpl. eauto. }
      simpl; eauto.
    - assert (exists fs', sequence (map (fun kv => bind (coerce_unknown (snd kv)) (fun c => Ok (fst kv, c))) fs) = Ok fs') as [fs' ->].
      { induction IH as [|x l [c Hc] F [l' IHl]]; simpl; eauto. rewrite Hc. simpl. rewrite IHl. simpl. eauto. }
      simpl; eauto. }
  destruct (T v) as [c Hc]. exists c. split; auto. apply custom_same; auto. apply coerce_unknown_ok; auto.
Qed.
Print Assumptions C37_custom_scalar_unchanged_partial.
(** C37 refuted: the integer 2^53+1 in a custom scalar reaches resolvers as 2^53. *)
Theorem C37_custom_scalar_big_int_refuted : exists n m e, number_ok n /\
  (forall sch, coerce_variable sch (DScalar SUnknown) (W.non_null W.new) (JNum n) = Ok (CFloat m e)) /\
  ~ num_value n == num_value (Flt m e).
Proof.
  exists (PosInt 9007199254740993), 4503599627370496%Z, 1%Z. split; [unfold number_ok; lia|]. split.
  - intros sch. vm_compute. reflexivity.
  - unfold Qeq. vm_compute. discriminate.
Qed.
Print Assumptions C37_custom_scalar_big_int_refuted.
Example C37_example : small_ints (JObj [("a"%string, JArr [JNum (PosInt 42); JNull])]) /\
  forall sch, coerce_variable sch (DScalar SUnknown) (W.non_null W.new) (JObj [("a"%string, JArr [JNum (PosInt 42); JNull])])
  = Ok (CMap [("a"%string, CList [CFloat 42 0; CNull])]).
Proof. split; [repeat constructor; simpl; lia|]. intros sch. vm_compute. reflexivity. Qed.
