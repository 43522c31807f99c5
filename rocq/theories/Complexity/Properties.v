(** C10: the complexity limit.  C38: the height limit. *)
From Coq Require Import ZArith NArith List String Bool Lia FinFun.
From Verif.Coercion Require Import Json.
From Verif.Complexity Require Import Model Spec Proofs.
Import ListNotations.
Local Open Scope Z_scope.

(** C10.  What the gateway computes is the exact cost modulo 2^64, and it complains about slicing
    arguments exactly when the annotation's rule is broken. *)
Theorem C10_cost_modulo_2_64 : forall sch dflt mutation ss, 0 <= dflt < 2 ^ 32 ->
  calculate_complexity sch dflt mutation ss =
    if sliced_ok dflt ss then Some (exact_cost sch dflt mutation ss mod 2 ^ 64) else None.
Proof. intros. apply calculate_ok. assumption. Qed.

(** Partial: missing are operations whose exact cost is negative or 2^64 and more. *)
Theorem C10_limit_bounds_cost_partial : forall sch dflt mutation ss limit, 0 <= dflt < 2 ^ 32 ->
  0 <= exact_cost sch dflt mutation ss < 2 ^ 64 ->
  (exists c, enforce sch dflt limit mutation ss = Executed c) <->
  sliced_ok dflt ss = true /\ exact_cost sch dflt mutation ss <= limit.
Proof.
  intros sch dflt mutation ss limit D R. unfold enforce. rewrite C10_cost_modulo_2_64 by assumption.
  rewrite Z.mod_small by assumption.
  destruct (sliced_ok dflt ss).
  - destruct (Z.ltb_spec limit (exact_cost sch dflt mutation ss)).
    + split; [intros (c & X); discriminate|lia].
    + split; [intros _; auto|intros _; eauto].
  - split; [intros (c & X); discriminate|intros [X _]; discriminate].
Qed.

(** Refuted in general: three nested lists whose sizes the client chooses through 31-bit slicing
    arguments cost exactly 2^64, are counted as 0 and executed whatever the limit. *)
Definition sliced (n : Z) : field :=
  {| fd_name := 1%N; fd_cost := None; ty_cost := None; ty_composite := true; is_list := true;
     fd_list_size := Some {| assumed_size := None; slicing_arguments := [7%nat]; sized_fields := [];
                             require_one_slicing_argument := true |};
     args := [{| a_id := 7%nat; a_cost := None; a_type := IScalarOrEnum None; a_value := Some (JNum (PosInt n)) |}] |}.
Definition leaf : field :=
  {| fd_name := 2%N; fd_cost := None; ty_cost := None; ty_composite := false; is_list := false;
     fd_list_size := None; args := [] |}.
Fixpoint nested (sizes : list Z) : list sel :=
  match sizes with [] => [SData leaf []] | n :: l => [SData (sliced n) (nested l)] end.

Theorem C10_overflow_refuted : exists sch dflt sizes,
  0 <= dflt < 2 ^ 32 /\ Forall (fun n => 0 < n < 2 ^ 31) sizes /\ sliced_ok dflt (nested sizes) = true /\
  (forall limit, 0 <= limit -> enforce sch dflt limit false (nested sizes) = Executed 0) /\
  2 ^ 64 <= exact_cost sch dflt false (nested sizes).
Proof.
  exists (fun _ => []), 10, [1073741824; 131071; 131072].
  split; [lia|]. split; [repeat constructor; lia|]. split; [reflexivity|]. split.
  - intros limit L. unfold enforce.
    replace (calculate_complexity _ _ _ _) with (Some 0) by (vm_compute; reflexivity).
    destruct (Z.ltb_spec limit 0); [lia|reflexivity].
  - vm_compute. discriminate.
Qed.

(** The hypotheses of the partial theorem are met by a query with a list, arguments and a mutation. *)
Definition demo : list sel :=
  [SData (sliced 20) [STypename; SData leaf []; SData {| fd_name := 3%N; fd_cost := Some 3; ty_cost := None;
     ty_composite := true; is_list := true; fd_list_size := None; args := [] |} [STypename]]].
Example C10_example : 0 <= exact_cost (fun _ => []) 10 true demo < 2 ^ 64 /\ exact_cost (fun _ => []) 10 true demo = 850 /\
  enforce (fun _ => []) 10 850 true demo = Executed 850 /\ enforce (fun _ => []) 10 849 true demo = LimitReached.
Proof. vm_compute. repeat split; discriminate || reflexivity. Qed.

(** An upper bound that is independent of the query: the limit can only be bypassed by
    operations whose exact cost is at least 2^64 (or negative). *)
Theorem C10_bypass_needs_overflow : forall sch dflt mutation ss limit c, 0 <= dflt < 2 ^ 32 ->
  enforce sch dflt limit mutation ss = Executed c -> limit < exact_cost sch dflt mutation ss ->
  2 ^ 64 <= exact_cost sch dflt mutation ss \/ limit < 0.
Proof.
  intros sch dflt mutation ss limit c D E L. unfold enforce in E. rewrite C10_cost_modulo_2_64 in E by assumption.
  destruct (sliced_ok dflt ss); [|discriminate].
  destruct (Z.ltb_spec limit (exact_cost sch dflt mutation ss mod 2 ^ 64)); [discriminate|].
  destruct (Z_lt_le_dec limit 0); [auto|].
  destruct (Z_lt_le_dec (exact_cost sch dflt mutation ss) (2 ^ 64)); [|auto].
  rewrite Z.mod_small in H by lia. lia.
Qed.

(** C39.  When no slicing argument is given, the assumed size annotated on the field is not used:
    the default size is. *)
Definition with_assumed (n : Z) (given : option Z) : field :=
  {| fd_name := 1%N; fd_cost := None; ty_cost := None; ty_composite := true; is_list := true;
     fd_list_size := Some {| assumed_size := Some n; slicing_arguments := [7%nat]; sized_fields := [];
                             require_one_slicing_argument := false |};
     args := match given with None => [] | Some g =>
       [{| a_id := 7%nat; a_cost := None; a_type := IScalarOrEnum None; a_value := Some (JNum (PosInt g)) |}] end |}.
Theorem C39_assumed_size_ignored_refuted : exists sch dflt limit,
  enforce sch dflt limit false [SData (with_assumed 500 None) []] = Executed dflt /\ dflt <= limit < 500.
Proof. exists (fun _ => []), 10, 10. split; [reflexivity|lia]. Qed.
(** Without slicing arguments on the annotation it is used. *)
Theorem C39_assumed_size_partial : forall sch dflt f d n, 0 <= dflt < 2 ^ 32 -> 0 <= n < 2 ^ 32 ->
  fd_list_size f = Some d -> slicing_arguments d = [] -> sized_fields d = [] -> assumed_size d = Some n ->
  0 <= own_cost sch f < 2 ^ 32 ->
  calculate_complexity sch dflt false [SData f []] = Some (n * own_cost sch f).
Proof.
  intros sch dflt f d n D N L S Z0 A O. rewrite C10_cost_modulo_2_64 by assumption.
  assert (E1 : occurrences dflt None f = n).
  { unfold occurrences. rewrite L, Z0. unfold announced. rewrite S, A. reflexivity. }
  assert (E2 : slicing_rule None f = true) by (unfold slicing_rule; rewrite L, S; reflexivity).
  unfold sliced_ok, exact_cost. cbn [forallb well_sliced flat_map entries app]. rewrite E1, E2. cbn [andb sum fold_right].
  f_equal. rewrite Z.mod_small; [lia|]. nia.
Qed.
Example C39_example : calculate_complexity (fun _ => []) 10 false
  [SData {| fd_name := 1%N; fd_cost := Some 2; ty_cost := None; ty_composite := true; is_list := true;
     fd_list_size := Some {| assumed_size := Some 500; slicing_arguments := []; sized_fields := [];
                             require_one_slicing_argument := true |}; args := [] |} []] = Some 1000.
Proof. reflexivity. Qed.

(** C38.  With a height limit, a query is accepted exactly when it selects at most that many
    different field definitions.  Partial: the counter is 16 bits wide. *)
Theorem C38_height_partial : forall max ss, (distinct ss < 2 ^ 16)%nat ->
  enforce_height (Some max) ss = true <-> Z.of_nat (distinct ss) <= max.
Proof.
  intros max ss H. unfold enforce_height. rewrite height_ok. unfold w16.
  assert (Z.of_nat (distinct ss) < 2 ^ 16).
  { apply (inj_lt _ _) in H. replace (Z.of_nat (2 ^ 16)) with (2 ^ 16) in H; [exact H|].
    rewrite Nat2Z.inj_pow. reflexivity. }
  rewrite Z.mod_small by lia. destruct (Z.ltb_spec max (Z.of_nat (distinct ss))); simpl; split; auto; try lia; discriminate.
Qed.
Theorem C38_height_modulo_2_16 : forall max ss,
  enforce_height (Some max) ss = true <-> Z.of_nat (distinct ss) mod 2 ^ 16 <= max.
Proof.
  intros max ss. unfold enforce_height. rewrite height_ok. unfold w16.
  destruct (Z.ltb_spec max (Z.of_nat (distinct ss) mod 2 ^ 16)); simpl; split; auto; try lia; discriminate.
Qed.
(** 65536 different definitions pass every height limit. *)
Theorem C38_height_wraps_refuted : exists ss, Z.of_nat (distinct ss) = 65536 /\
  forall max, 0 <= max -> enforce_height (Some max) ss = true.
Proof.
  set (n := N.to_nat 65536).
  assert (E : forall l, flat_map definitions (map (fun i => HSel (Some (N.of_nat i)) []) l) = map N.of_nat l).
  { induction l as [|x l IH]; [reflexivity|]. cbn [map flat_map definitions app]. f_equal. exact IH. }
  assert (D : Z.of_nat (distinct (map (fun i => HSel (Some (N.of_nat i)) []) (seq 0 n))) = 65536).
  { unfold distinct. rewrite E, nodup_fixed_point.
    - rewrite map_length, seq_length. unfold n. rewrite N_nat_Z. reflexivity.
    - apply FinFun.Injective_map_NoDup; [exact Nat2N.inj|apply seq_NoDup]. }
  exists (map (fun i => HSel (Some (N.of_nat i)) []) (seq 0 n)). split; [exact D|].
  intros max H. apply C38_height_modulo_2_16. rewrite D. exact H.
Qed.
Example C38_example :
  let q := [HSel (Some 1%N) [HSel (Some 2%N) [HSel None []]; HSel (Some 3%N) []]; HSel (Some 1%N) [HSel (Some 2%N) []]; HSel None []] in
  distinct q = 3%nat /\ enforce_height (Some 3) q = true /\ enforce_height (Some 2) q = false.
Proof. vm_compute. auto. Qed.

Print Assumptions C10_cost_modulo_2_64.
Print Assumptions C10_limit_bounds_cost_partial.
Print Assumptions C10_overflow_refuted.
Print Assumptions C10_bypass_needs_overflow.
Print Assumptions C39_assumed_size_ignored_refuted.
Print Assumptions C39_assumed_size_partial.
Print Assumptions C38_height_partial.
Print Assumptions C38_height_modulo_2_16.
Print Assumptions C38_height_wraps_refuted.
