From Coq Require Import NArith List Bool String Ascii Arith Lia.
From Verif.Wrapping Require Import Model Spec.
Import ListNotations.

(** Encoding of a type reference as the packed number. *)
Fixpoint bits (l : list bool) : N :=
  match l with [] => 0 | b :: l' => (if b then 1 else 0) + 2 * bits l' end%N.
Definition enc (t : ty) : N :=
  ((if inner_required t then 32768 else 0) + N.of_nat (depth t) * 2048 + bits (levels t))%N.

(** All type references with at most [n] levels. *)
Fixpoint all_ty (n : nat) : list ty :=
  match n with
  | O => [Named false; Named true]
  | S n => [Named false; Named true] ++
           flat_map (fun t => [ListOf t false; ListOf t true]) (all_ty n)
  end.
Lemma all_ty_complete : forall n t, depth t <= n -> In t (all_ty n).
Proof.
  induction n as [|n IH]; intros t Ht; destruct t as [r|e r]; simpl in Ht; try lia.
  - destruct r; simpl; auto.
  - destruct r; simpl; auto.
  - simpl. right; right. apply in_flat_map. exists e. split.
    + apply IH; lia.
    + destruct r; simpl; auto.
Qed.

Definition lw_of (b : bool) : list_wrapping := if b then LListNonNull else LList.

Definition lw_eqb (a b : list_wrapping) : bool :=
  match a, b with LList, LList | LListNonNull, LListNonNull => true | _, _ => false end.
Lemma lw_eqb_eq a b : lw_eqb a b = true -> a = b.
Proof. destruct a, b; simpl; congruence. Qed.
Fixpoint lws_eqb (a b : list list_wrapping) : bool :=
  match a, b with
  | [], [] => true
  | x :: a', y :: b' => lw_eqb x y && lws_eqb a' b'
  | _, _ => false
  end.
Lemma lws_eqb_eq a b : lws_eqb a b = true -> a = b.
Proof.
  revert b; induction a as [|x a IH]; destruct b as [|y b]; simpl; try congruence.
  intros H; apply andb_prop in H as [H1 H2]. apply lw_eqb_eq in H1. apply IH in H2. congruence.
Qed.
Definition optN_eqb (a b : option N) : bool :=
  match a, b with Some x, Some y => N.eqb x y | None, None => true | _, _ => false end.
Lemma optN_eqb_eq a b : optN_eqb a b = true -> a = b.
Proof. destruct a, b; simpl; try congruence. intro H; apply N.eqb_eq in H; congruence. Qed.

Definition op_of (o : sop) : op :=
  match o with SList => OpList | SListNonNull => OpListNonNull | SNonNull => OpNonNull
  | SWithoutList => OpWithoutList | SWithoutNonNull => OpWithoutNonNull end.
Definition sop_of (o : op) : sop :=
  match o with OpList => SList | OpListNonNull => SListNonNull | OpNonNull => SNonNull
  | OpWithoutList => SWithoutList | OpWithoutNonNull => SWithoutNonNull end.
Definition all_ops := [OpList; OpListNonNull; OpNonNull; OpWithoutList; OpWithoutNonNull].

(** The finite sweep: all 4094 type references of depth at most ten. *)
Definition check (t : ty) : bool :=
  let w := enc t in
  N.ltb w 65536 &&
  Bool.eqb (inner_is_required w) (inner_required t) &&
  N.eqb (get_list_length w) (N.of_nat (depth t)) &&
  lws_eqb (list_wrappings w) (map lw_of (levels t)) &&
  forallb (fun o =>
    let t' := sstep t (sop_of o) in
    optN_eqb (step w o) (if Nat.leb (depth t') 10 then Some (enc t') else None)) all_ops.
Lemma check_all : forallb check (all_ty 10) = true.
Proof. vm_compute. reflexivity. Qed.

Record good (t : ty) : Prop := {
  g_u16 : (enc t < 65536)%N;
  g_inner : inner_is_required (enc t) = inner_required t;
  g_len : get_list_length (enc t) = N.of_nat (depth t);
  g_lw : list_wrappings (enc t) = map lw_of (levels t);
  g_step : forall o, step (enc t) o =
     let t' := sstep t (sop_of o) in if Nat.leb (depth t') 10 then Some (enc t') else None }.
Lemma good_all t : depth t <= 10 -> good t.
Proof.
  intros H. apply all_ty_complete in H.
  pose proof check_all as C. rewrite forallb_forall in C. specialize (C t H).
  unfold check in C. repeat rewrite andb_true_iff in C.
  destruct C as ((((C1&C2)&C3)&C4)&C5).
  split.
  - apply N.ltb_lt; exact C1.
  - apply Bool.eqb_prop; exact C2.
  - apply N.eqb_eq; exact C3.
  - apply lws_eqb_eq; exact C4.
  - intros o. rewrite forallb_forall in C5. apply optN_eqb_eq. apply C5.
    destruct o; simpl; auto 10.
Qed.

Lemma run_refines : forall ops t, depth t <= 10 ->
  run (enc t) (map op_of ops) = option_map enc (srun t ops).
Proof.
  induction ops as [|o ops IH]; intros t Ht; simpl; [reflexivity|].
  rewrite (g_step t (good_all t Ht) (op_of o)).
  assert (E : sop_of (op_of o) = o) by (destruct o; reflexivity). rewrite E. cbv zeta.
  destruct (Nat.leb (depth (sstep t o)) 10) eqn:L; [|reflexivity].
  apply IH. apply Nat.leb_le; exact L.
Qed.

Lemma srun_depth ops t t' : depth t <= 10 -> srun t ops = Some t' -> depth t' <= 10.
Proof.
  revert t; induction ops as [|o ops IH]; simpl; intros t Ht H.
  - congruence.
  - destruct (Nat.leb (depth (sstep t o)) 10) eqn:L; [|discriminate].
    apply Nat.leb_le in L. eauto.
Qed.

Lemma levels_length t : List.length (levels t) = depth t.
Proof. induction t; simpl; auto. rewrite app_length. simpl. lia. Qed.

Lemma is_non_null_enc t : depth t <= 10 -> is_non_null (enc t) = required t.
Proof.
  intros H. pose proof (good_all t H) as G. unfold is_non_null.
  rewrite (g_lw _ G), <- map_rev. destruct t as [r|e r]; simpl.
  - rewrite (g_inner _ G). reflexivity.
  - rewrite rev_app_distr. simpl. destruct r; reflexivity.
Qed.
Lemma is_list_enc t : depth t <= 10 -> is_list (enc t) = listp t.
Proof.
  intros H. unfold is_list. rewrite (g_lw _ (good_all t H)). destruct t as [r|e r]; simpl; auto.
  destruct (levels e); reflexivity.
Qed.

(** iter *)
Fixpoint modifiers (t : ty) : list wrapping_type :=
  match t with
  | Named r => if r then [WNonNull] else []
  | ListOf e r => modifiers e ++ WList :: (if r then [WNonNull] else [])
  end.
Lemma iter_enc t : depth t <= 10 -> iter (enc t) = modifiers t.
Proof.
  intros H. pose proof (good_all t H) as G. unfold iter. rewrite (g_inner _ G), (g_lw _ G).
  clear. induction t as [r|e IH r]; simpl.
  - rewrite app_nil_r. reflexivity.
  - rewrite map_app, flat_map_app, app_assoc, IH. simpl. rewrite app_nil_r. destruct r; reflexivity.
Qed.

Lemma modifiers_inj_len t : exists k, List.length (modifiers t) = k. Proof. eauto. Qed.

Lemma levels_inner_inj t u : levels t = levels u -> inner_required t = inner_required u -> t = u.
Proof.
  revert u; induction t as [r|e IH r]; destruct u as [r'|e' r']; simpl; intros H1 H2.
  - congruence.
  - destruct (levels e'); discriminate.
  - destruct (levels e); discriminate.
  - apply app_inj_tail in H1 as [H1 H3]. rewrite (IH e' H1 H2). congruence.
Qed.
Lemma enc_inj t u : depth t <= 10 -> depth u <= 10 -> enc t = enc u -> t = u.
Proof.
  intros Ht Hu E. pose proof (good_all t Ht) as G. pose proof (good_all u Hu) as G'.
  apply levels_inner_inj.
  - pose proof (g_lw _ G) as A. rewrite E, (g_lw _ G') in A.
    assert (I : forall a b, map lw_of a = map lw_of b -> a = b).
    { induction a as [|x a IHa]; destruct b as [|y b]; simpl; try congruence.
      intros HH; inversion HH as [[H1 H2]]. f_equal; auto. destruct x, y; simpl in H1; congruence. }
    symmetry; apply I; exact A.
  - pose proof (g_inner _ G) as A. rewrite E, (g_inner _ G') in A. congruence.
Qed.

(** Lenience *)
Lemma zip_lenient_snoc s o a b : List.length s = List.length o ->
  zip_lenient (map lw_of (s ++ [a])) (map lw_of (o ++ [b])) =
  (zip_lenient (map lw_of s) (map lw_of o) && implb a b)%bool.
Proof.
  revert o; induction s as [|x s IH]; destruct o as [|y o]; simpl; intros H; try lia.
  - destruct a, b; reflexivity.
  - destruct x, y; simpl; try reflexivity; apply IH; lia.
Qed.
Lemma lenient_iff s o : lenient s o <->
  depth s = depth o /\ (implb (inner_required s) (inner_required o) = true) /\
  zip_lenient (map lw_of (levels s)) (map lw_of (levels o)) = true.
Proof.
  revert o; induction s as [r|e IH r]; destruct o as [r'|e' r']; simpl.
  - split; [intros H|intros (_&H&_)].
    + repeat split. destruct r, r'; simpl; auto.
    + intros ->. destruct r'; simpl in *; congruence.
  - split; [tauto|intros (H&_)]; discriminate.
  - split; [tauto|intros (H&_)]; discriminate.
  - rewrite IH. split.
    + intros (H1&H2&H3&H4). repeat split; auto.
      rewrite zip_lenient_snoc by (rewrite !levels_length; auto). rewrite H4. simpl.
      destruct r, r'; simpl; auto.
    + intros (H2&H3&H4). injection H2 as H2. rewrite zip_lenient_snoc in H4 by (rewrite !levels_length; auto).
      apply andb_prop in H4 as [H4 H5]. repeat split; auto. intros ->. destruct r'; simpl in *; congruence.
Qed.
Lemma is_lenient_enc s o : depth s <= 10 -> depth o <= 10 ->
  (is_equal_or_more_lenient_than (enc s) (enc o) = true <-> lenient s o).
Proof.
  intros Hs Ho. pose proof (good_all s Hs) as G. pose proof (good_all o Ho) as G'.
  rewrite lenient_iff. unfold is_equal_or_more_lenient_than.
  rewrite (g_inner _ G), (g_inner _ G'), (g_len _ G), (g_len _ G'), (g_lw _ G), (g_lw _ G').
  destruct (N.of_nat (depth s) =? N.of_nat (depth o))%N eqn:E.
  - apply N.eqb_eq in E. apply Nnat.Nat2N.inj in E. simpl.
    destruct (inner_required s), (inner_required o); simpl; intuition congruence.
  - apply N.eqb_neq in E. assert (depth s <> depth o) by congruence.
    destruct (inner_required s), (inner_required o); simpl; intuition congruence.
Qed.
Lemma lenient_refl t : lenient t t.
Proof. induction t; simpl; auto. Qed.
Lemma lenient_trans a b c : lenient a b -> lenient b c -> lenient a c.
Proof. revert b c; induction a as [|e IH]; destruct b, c; simpl; intuition eauto. Qed.
Lemma lenient_antisym a b : lenient a b -> lenient b a -> a = b.
Proof.
  revert b; induction a as [r|e IH r]; destruct b as [r'|e' r']; simpl; try tauto.
  - intros H1 H2. f_equal. destruct r, r'; intuition congruence.
  - intros [H1 H1'] [H2 H2']. f_equal; [apply IH; auto|]. destruct r, r'; intuition congruence.
Qed.

(** Display *)
Open Scope string_scope.
Lemma str_app_assoc a b c : (a ++ b) ++ c = a ++ (b ++ c).
Proof. induction a; simpl; congruence. Qed.
Lemma str_app_nil_r a : a ++ "" = a.
Proof. induction a; simpl; congruence. Qed.
Lemma concat_empty_cons x l : String.concat "" (x :: l) = x ++ String.concat "" l.
Proof. destruct l; simpl; [rewrite str_app_nil_r|]; reflexivity. Qed.
Lemma concat_empty_app l m : String.concat "" (l ++ m) = String.concat "" l ++ String.concat "" m.
Proof.
  induction l as [|x l IH]; [reflexivity|]. rewrite <- app_comm_cons, !concat_empty_cons, IH.
  rewrite str_app_assoc; reflexivity.
Qed.
Definition close (lw : list_wrapping) : string := match lw with LListNonNull => "]!" | LList => "]" end.
Lemma display_enc t name : depth t <= 10 -> type_display (enc t) name = print t name.
Proof.
  intros H. pose proof (good_all t H) as G. unfold type_display.
  rewrite (g_inner _ G), (g_len _ G), (g_lw _ G), Nnat.Nat2N.id. change (fun lw => match lw with LListNonNull => "]!" | LList => "]" end) with close. clear.
  induction t as [r|e IH r].
  - simpl. rewrite str_app_nil_r. reflexivity.
  - simpl depth. simpl levels. simpl inner_required. simpl print. rewrite <- IH.
    simpl repeat. rewrite concat_empty_cons, !map_app, concat_empty_app.
    simpl. f_equal. rewrite !str_app_assoc. repeat f_equal. destruct r; reflexivity.
Qed.

Lemma name_char_special c : name_char c = true -> c <> "["%char /\ c <> "]"%char /\ c <> "!"%char.
Proof. intros H. repeat split; intros ->; discriminate H. Qed.
Definition stops (s : string) : Prop := match s with "" => True | String c _ => name_char c = false end.
Lemma span_name_app n s : valid_name n = true -> stops s -> span_name (n ++ s) = (n, s).
Proof.
  induction n as [|c n IH]; simpl; intros Hv Hs.
  - destruct s; simpl in *; auto. rewrite Hs. reflexivity.
  - apply andb_prop in Hv as [H1 H2]. rewrite H1, IH; auto.
Qed.
(** A continuation after a complete type: it must not start with a bang or a name character. *)
Definition cont (s : string) : Prop :=
  match s with "" => True | String c _ => name_char c = false /\ c <> "!"%char end.
Lemma opt_bang_print (r : bool) s : cont s -> opt_bang ((if r then "!" else "") ++ s) = (r, s).
Proof.
  intros H. destruct r; simpl; auto. destruct s as [|c s]; simpl; auto.
  destruct H as [_ H]. unfold opt_bang. destruct c as [[] [] [] [] [] [] [] []]; auto. congruence.
Qed.
Lemma parse_ty_named (r : bool) n s : valid_name n = true -> n <> "" -> cont s ->
  forall f, parse_ty (S f) (n ++ (if r then "!" else "") ++ s) = Some (Named r, n, s).
Proof.
  intros Hv Hne Hc f.
  assert (stops ((if r then "!" else "") ++ s)) as Hst.
  { destruct r; simpl; auto. destruct s; simpl in *; tauto. }
  pose proof (span_name_app n _ Hv Hst) as E.
  assert (B : opt_bang ((if r then "!" else "") ++ s) = (r, s)) by (apply opt_bang_print; auto).
  remember ((if r then "!" else "") ++ s) as rest eqn:Er.
  destruct n as [|c n]; [congruence|].
  change (String c n ++ rest) with (String c (n ++ rest)) in *.
  simpl in Hv. apply andb_prop in Hv as [Hv _]. cbn [parse_ty]. rewrite E, B.
  destruct c as [[] [] [] [] [] [] [] []]; try reflexivity; discriminate Hv.
Qed.
Lemma parse_ty_print t n : valid_name n = true -> n <> "" -> forall s f, cont s -> depth t < f ->
  parse_ty f (print t n ++ s) = Some (t, n, s).
Proof.
  intros Hv Hne. induction t as [r|e IH r]; intros s f Hc Hf; (destruct f as [|f]; [lia|]).
  - simpl print. rewrite str_app_assoc. apply parse_ty_named; auto.
  - simpl in Hf. cbn [print]. rewrite !str_app_assoc. cbn [append parse_ty].
    rewrite IH; [|simpl; split; [reflexivity|discriminate]|lia].
    cbn [append]. rewrite opt_bang_print by auto. reflexivity.
Qed.
Lemma str_len_app a b : String.length (a ++ b) = String.length a + String.length b.
Proof. induction a; simpl; auto. Qed.
Lemma print_length t n : depth t <= String.length (print t n).
Proof. induction t as [|e IH r]; simpl; [lia|]. rewrite str_len_app. lia. Qed.
Lemma parse_print t n : valid_name n = true -> n <> "" -> parse (print t n) = Some (t, n).
Proof.
  intros Hv Hne. unfold parse.
  pose proof (parse_ty_print t n Hv Hne "" (S (String.length (print t n))) I) as H.
  rewrite str_app_nil_r in H. rewrite H; [reflexivity|]. pose proof (print_length t n). lia.
Qed.

(** A packed value produced by builder calls together with the type reference it stands for. *)
Definition denotes (w : wrapping) (t : ty) : Prop :=
  exists ops, srun (Named false) ops = Some t /\ run new (map op_of ops) = Some w.
Fixpoint build (t : ty) : list sop :=
  match t with
  | Named r => if r then [SNonNull] else []
  | ListOf e r => (build e ++ [if r then SListNonNull else SList])%list
  end.
Lemma srun_app a b t : srun t (a ++ b)%list = match srun t a with Some t' => srun t' b | None => None end.
Proof.
  revert t; induction a as [|o a IH]; simpl; intros t; auto.
  destruct (Nat.leb (depth (sstep t o)) 10); auto.
Qed.
Lemma srun_build t : depth t <= 10 -> srun (Named false) (build t) = Some t.
Proof.
  induction t as [r|e IH r]; intros H.
  - destruct r; reflexivity.
  - simpl in H. simpl build. rewrite srun_app, IH by lia. simpl.
    replace (sstep e (if r then SListNonNull else SList)) with (ListOf e r) by (destruct r; reflexivity).
    destruct (Nat.leb_spec (depth (ListOf e r)) 10); simpl in *; [reflexivity|lia].
Qed.
Lemma denotes_iff w t : denotes w t <-> depth t <= 10 /\ w = enc t.
Proof.
  change new with (enc (Named false)) in *. split.
  - intros (ops & H & R). change new with (enc (Named false)) in R.
    rewrite run_refines, H in R by (simpl; lia). simpl in R. injection R as <-.
    split; auto. eapply srun_depth; [|exact H]. simpl; lia.
  - intros [H ->]. exists (build t). split; [apply srun_build; auto|].
    change new with (enc (Named false)). rewrite run_refines by (simpl; lia).
    rewrite srun_build by auto. reflexivity.
Qed.
Lemma denotes_fun w t u : denotes w t -> denotes w u -> t = u.
Proof. rewrite !denotes_iff. intros [H ->] [H' E]. apply enc_inj; auto. Qed.
Lemma denotes_is_list w t : denotes w t -> is_list w = listp t.
Proof. rewrite denotes_iff. intros [H ->]. apply is_list_enc; auto. Qed.
Lemma denotes_is_non_null w t : denotes w t -> is_non_null w = required t.
Proof. rewrite denotes_iff. intros [H ->]. apply is_non_null_enc; auto. Qed.
Lemma denotes_depth w t : denotes w t -> List.length (list_wrappings w) = depth t.
Proof.
  rewrite denotes_iff. intros [H ->]. rewrite (g_lw _ (good_all t H)), map_length. apply levels_length.
Qed.
Lemma denotes_pop w t : denotes w t ->
  match t with
  | Named r => pop_outermost_list_wrapping w = Some (w, None)
  | ListOf e r => exists w', pop_outermost_list_wrapping w = Some (w', Some (lw_of r)) /\ denotes w' e
  end.
Proof.
  rewrite denotes_iff. intros [H ->]. pose proof (good_all t H) as G. destruct t as [r|e r].
  - destruct r; reflexivity.
  - simpl in H. assert (He : depth e <= 10) by lia.
    pose proof (g_step _ G OpWithoutList) as St. simpl in St.
    rewrite (proj2 (Nat.leb_le _ _) He) in St. unfold without_list in St.
    destruct (pop_outermost_list_wrapping (enc (ListOf e r))) as [[w' [lw|]]|] eqn:E; try discriminate.
    + injection St as ->. exists (enc e). split.
      * f_equal. f_equal. f_equal. revert E. unfold pop_outermost_list_wrapping.
        rewrite (g_len _ G). destruct (N.of_nat (depth (ListOf e r)) =? 0)%N eqn:Z; [discriminate|].
        remember (N.of_nat (depth (ListOf e r)) - 1)%N as k eqn:Ek.
        assert (k = N.of_nat (depth e)) as -> by (simpl depth in Ek; lia). clear Ek Z.
        destruct set_list_length; [|discriminate]. intros E; injection E as _ <-.
        pose proof (g_lw _ G) as L. unfold list_wrappings in L. rewrite (g_len _ G) in L.
        rewrite Nnat.Nat2N.id in L. cbn [depth levels] in L. rewrite seq_S, !map_app in L.
        cbn [map Nat.add] in L. apply app_inj_tail in L as [_ L].
        rewrite <- L. destruct (_ =? 0)%N; reflexivity.
      * apply denotes_iff; auto.
    + revert E. unfold pop_outermost_list_wrapping. rewrite (g_len _ G).
      destruct (N.of_nat (depth (ListOf e r)) =? 0)%N eqn:Z.
      * apply N.eqb_eq in Z. simpl depth in Z. lia.
      * destruct set_list_length; discriminate.
Qed.
