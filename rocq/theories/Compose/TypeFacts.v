(* Composition of two types and of several. *)
From Coq Require Import String List Bool Arith Lia.
From Verif.Compose Require Import Model Spec Facts.
Import ListNotations.
Local Open Scope string_scope.
Local Open Scope list_scope.

Lemma of_lists_snoc : forall ls t r, of_lists t (ls ++ [r]) = ListOf (of_lists t ls) r.
Proof. induction ls as [|x ls IH]; intros t r; [reflexivity|]. cbn. apply IH. Qed.

Lemma depth_of_lists : forall ls t, depth (of_lists t ls) = length ls + depth t.
Proof. induction ls as [|x ls IH]; intros t; [reflexivity|]. cbn. rewrite IH. cbn. lia. Qed.

Lemma depth_type_of : forall t, depth (type_of t) = length (lists (wrap t)).
Proof. intros. unfold type_of. rewrite depth_of_lists. cbn. lia. Qed.

Lemma required_of_lists : forall ls t, required (of_lists t ls) = last ls (required t).
Proof.
  induction ls as [|x ls IH] using rev_ind; intros t; [reflexivity|].
  rewrite of_lists_snoc, last_last. reflexivity.
Qed.

Lemma required_type_of : forall t, required (type_of t) = is_required t.
Proof. intros. unfold type_of, is_required. rewrite required_of_lists. reflexivity. Qed.

Lemma named_of_lists : forall ls t, named (of_lists t ls) = named t.
Proof. induction ls as [|x ls IH]; intros t; [reflexivity|]. cbn. rewrite IH. reflexivity. Qed.

Lemma named_type_of : forall t, named (type_of t) = base t.
Proof. intros. unfold type_of. rewrite named_of_lists. reflexivity. Qed.

Lemma of_lists_inj : forall ls ls' n r n' r',
  of_lists (Named n r) ls = of_lists (Named n' r') ls' -> n = n' /\ r = r' /\ ls = ls'.
Proof.
  induction ls as [|x ls IH] using rev_ind; intros ls' n r n' r' E.
  - destruct ls' as [|y ls'] using rev_ind; [cbn in E; injection E; auto|]. rewrite of_lists_snoc in E. discriminate.
  - destruct ls' as [|y ls' _] using rev_ind; [rewrite of_lists_snoc in E; discriminate|].
    rewrite !of_lists_snoc in E. injection E as E ->. destruct (IH _ _ _ _ _ E) as (-> & -> & ->). auto.
Qed.

Lemma type_of_inj : forall a b, type_of a = type_of b -> a = b.
Proof.
  intros [n [r ls]] [n' [r' ls']]. unfold type_of. cbn. intros E.
  destruct (of_lists_inj _ _ _ _ _ _ E) as (-> & -> & ->). reflexivity.
Qed.

Lemma ftype_eqb_eq : forall a b, ftype_eqb a b = true <-> a = b.
Proof.
  intros [n [r ls]] [n' [r' ls']]. unfold ftype_eqb, wrapping_eqb.
  cbn [base wrap inner_required lists].
  rewrite !andb_true_iff, String.eqb_eq, eqb_true_iff.
  destruct (list_eq_dec bool_dec ls ls') as [->|NE]; split.
  - intros (-> & -> & _). reflexivity.
  - intros [= -> ->]. auto.
  - intros (_ & _ & F). discriminate.
  - intros [= -> -> ->]. congruence.
Qed.

Lemma with_required_nullable : forall a b r, nullable a = nullable b -> with_required r a = with_required r b.
Proof. intros [n x|t x] [m y|u y] r; cbn; congruence. Qed.

Lemma with_required_same : forall t, with_required (required t) t = t.
Proof. intros [n x|t x]; reflexivity. Qed.

Lemma nullable_required_eq : forall a b, nullable a = nullable b -> required a = required b -> a = b.
Proof. intros [n x|t x] [m y|u y]; cbn; congruence. Qed.

(* The loop, for lists of the same length: all but the outermost are the same. *)
Lemma compose_lists_same : forall a b s o r, length a = length b ->
  (compose_lists s o a b = Some r <-> removelast (s :: a) = removelast (o :: b) /\ r = last (o :: b) false).
Proof.
  induction a as [|x a IH]; intros [|y b] s o r L; try discriminate.
  - cbn. split; [intros [= ->]; auto|]. intros (_ & ->). reflexivity.
  - cbn [compose_lists]. injection L as L.
    destruct (Bool.eqb s o) eqn:E.
    + apply eqb_prop in E. subst o. rewrite (IH b x y r L).
      change (removelast (s :: x :: a)) with (s :: removelast (x :: a)).
      change (removelast (s :: y :: b)) with (s :: removelast (y :: b)).
      change (last (s :: y :: b) false) with (last (y :: b) false).
      split; [intros (-> & ->); auto|]. intros (H & ->). injection H as H. auto.
    + apply eqb_false_iff in E. split; [discriminate|].
      intros (H & _). change (removelast (s :: x :: a)) with (s :: removelast (x :: a)) in H.
      change (removelast (o :: y :: b)) with (o :: removelast (y :: b)) in H. congruence.
Qed.

Lemma removelast_last_eq : forall (A : Type) (a b : list A) d, a <> nil -> b <> nil ->
  removelast a = removelast b -> last a d = last b d -> a = b.
Proof.
  intros A a b d NA NB R L. rewrite (app_removelast_last d NA), (app_removelast_last d NB). congruence.
Qed.

Lemma nullable_type_of : forall a b, length (lists (wrap a)) = length (lists (wrap b)) ->
  (nullable (type_of a) = nullable (type_of b) <->
   base a = base b /\
   (lists (wrap a) = nil \/
    inner_required (wrap a) = inner_required (wrap b) /\ removelast (lists (wrap a)) = removelast (lists (wrap b)))).
Proof.
  intros [n [r ls]] [n' [r' ls']] L. unfold type_of. cbn in *.
  destruct ls as [|x ls _] using rev_ind.
  - destruct ls' as [|y ls']; [|discriminate]. cbn. split; [intros [= ->]; auto|]. intros (-> & _). reflexivity.
  - destruct ls' as [|y ls' _] using rev_ind; [rewrite app_length in L; cbn in L; lia|].
    rewrite !of_lists_snoc. cbn [nullable]. rewrite !removelast_last.
    split.
    + intros [= E]. destruct (of_lists_inj _ _ _ _ _ _ E) as (-> & -> & ->). auto.
    + intros (-> & [E|(-> & ->)]); [destruct ls; discriminate|reflexivity].
Qed.

(* Two types of the same depth compose exactly when they differ at most in
   whether they are required; the result is whether the second is. *)
Lemma compose_type_same : forall a b r, depth (type_of a) = depth (type_of b) ->
  (compose_type a b = Some r <->
   nullable (type_of a) = nullable (type_of b) /\ r = (if ftype_eqb a b then true else required (type_of b))).
Proof.
  intros a b r L. rewrite !depth_type_of in L. rewrite nullable_type_of, required_type_of by exact L.
  unfold compose_type. destruct (ftype_eqb a b) eqn:E.
  - apply ftype_eqb_eq in E. subst b. split; [intros [= <-]; auto|]. intros (_ & ->). reflexivity.
  - destruct (String.eqb (base a) (base b)) eqn:B; cbn [negb].
    2:{ apply String.eqb_neq in B. split; [discriminate|]. intros ((H & _) & _). contradiction. }
    apply String.eqb_eq in B.
    destruct a as [n [i ls]], b as [n' [i' ls']]. cbn in *. subst n'.
    destruct ls as [|x ls]; destruct ls' as [|y ls']; try discriminate; cbn [zip_next].
    + split; [intros [= <-]; auto|]. intros (_ & ->). reflexivity.
    + injection L as L. destruct (Bool.eqb i i') eqn:R; cbn [negb].
      * apply eqb_prop in R. subst i'. rewrite (compose_lists_same ls ls' x y r L). unfold is_required. cbn [wrap lists inner_required].
        replace (last (y :: ls') i) with (last (y :: ls') false).
        2:{ destruct ls' as [|z l _] using rev_ind; [reflexivity|].
            rewrite app_comm_cons, !last_last. reflexivity. }
        split.
        -- intros (H & ->). auto.
        -- intros ((_ & [H|(_ & H)]) & ->); [discriminate|]. auto.
      * apply eqb_false_iff in R. split; [discriminate|]. intros ((_ & [H|(H & _)]) & _); [discriminate|contradiction].
Qed.

Lemma compose_for_input_same : forall a b c, depth (type_of a) = depth (type_of b) ->
  (compose_for_input a b = Some c <->
   nullable (type_of a) = nullable (type_of b) /\
   type_of c = with_required (required (type_of a) || required (type_of b)) (type_of a)).
Proof.
  intros a b c D. unfold compose_for_input.
  destruct (compose_type a b) as [r|] eqn:E.
  - apply (compose_type_same a b r D) in E. destruct E as (N & ->). cbn [option_map].
    destruct (ftype_eqb a b) eqn:F.
    + apply ftype_eqb_eq in F. subst b. rewrite orb_diag, with_required_same. split.
      * intros [= <-]. auto.
      * intros (_ & H). apply type_of_inj in H. congruence.
    + destruct (required (type_of b)) eqn:R.
      * rewrite orb_true_r, (with_required_nullable _ _ true N), <- R, with_required_same. split.
        -- intros [= <-]. auto.
        -- intros (_ & H). apply type_of_inj in H. congruence.
      * destruct (required (type_of a)) eqn:RA; cbn [orb].
        -- rewrite <- RA, with_required_same. split; [intros [= <-]; auto|].
           intros (_ & H). apply type_of_inj in H. congruence.
        -- exfalso. assert (a = b) by (apply type_of_inj, nullable_required_eq; congruence).
           apply ftype_eqb_eq in H. congruence.
  - split; [discriminate|]. intros (N & _).
    assert (X : compose_type a b = Some (if ftype_eqb a b then true else required (type_of b)))
      by (apply compose_type_same; auto). congruence.
Qed.

Lemma compose_for_output_same : forall a b c, depth (type_of a) = depth (type_of b) ->
  (compose_for_output a b = Some c <->
   nullable (type_of a) = nullable (type_of b) /\
   type_of c = with_required (required (type_of a) && required (type_of b)) (type_of a)).
Proof.
  intros a b c D. unfold compose_for_output.
  destruct (compose_type a b) as [r|] eqn:E.
  - apply (compose_type_same a b r D) in E. destruct E as (N & ->). cbn [option_map].
    destruct (ftype_eqb a b) eqn:F.
    + apply ftype_eqb_eq in F. subst b. rewrite andb_diag, with_required_same. split.
      * intros [= <-]. auto.
      * intros (_ & H). apply type_of_inj in H. congruence.
    + destruct (required (type_of b)) eqn:R.
      * rewrite andb_true_r, with_required_same. split.
        -- intros [= <-]. auto.
        -- intros (_ & H). apply type_of_inj in H. congruence.
      * rewrite andb_false_r, (with_required_nullable _ _ false N), <- R, with_required_same. split.
        -- intros [= <-]. auto.
        -- intros (_ & H). apply type_of_inj in H. congruence.
  - split; [discriminate|]. intros (N & _).
    assert (X : compose_type a b = Some (if ftype_eqb a b then true else required (type_of b)))
      by (apply compose_type_same; auto). congruence.
Qed.

Lemma nullable_with_required : forall r t, nullable (with_required r t) = nullable t.
Proof. intros r [n x|t x]; reflexivity. Qed.
Lemma required_with_required : forall r t, required (with_required r t) = r.
Proof. intros r [n x|t x]; reflexivity. Qed.
Lemma with_required_twice : forall r q t, with_required r (with_required q t) = with_required r t.
Proof. intros r q [n x|t x]; reflexivity. Qed.
Lemma depth_with_required : forall r t, depth (with_required r t) = depth t.
Proof. intros r [n x|t x]; reflexivity. Qed.
Lemma named_with_required : forall r t, named (with_required r t) = named t.
Proof. intros r [n x|t x]; reflexivity. Qed.
Lemma nullable_depth : forall a b, nullable a = nullable b -> depth a = depth b.
Proof. intros [n x|t x] [m y|u y]; cbn; congruence. Qed.
Lemma nullable_named : forall a b, nullable a = nullable b -> named a = named b.
Proof. intros [n x|t x] [m y|u y]; cbn; congruence. Qed.

(* Several types, composed from left to right. *)
Fixpoint fold_op (op : ftype -> ftype -> option ftype) (t : ftype) (l : list ftype) : option ftype :=
  match l with
  | nil => Some t
  | u :: r => match op t u with None => None | Some t' => fold_op op t' r end
  end.

Lemma fold_input_same : forall l t c, (forall u, In u l -> depth (type_of u) = depth (type_of t)) ->
  (fold_op compose_for_input t l = Some c <->
   (forall u, In u l -> nullable (type_of u) = nullable (type_of t)) /\
   type_of c = with_required (existsb (fun u => required (type_of u)) (t :: l)) (type_of t)).
Proof.
  induction l as [|u l IH]; intros t c D.
  - cbn [fold_op existsb]. rewrite orb_false_r, with_required_same. split.
    + intros [= <-]. split; [easy|reflexivity].
    + intros (_ & H). apply type_of_inj in H. congruence.
  - cbn [fold_op].
    assert (DU : depth (type_of t) = depth (type_of u)) by (symmetry; apply D; left; reflexivity).
    destruct (compose_for_input t u) as [t'|] eqn:E.
    + apply (compose_for_input_same _ _ _ DU) in E. destruct E as (N & T).
      rewrite IH.
      2:{ intros v I. rewrite T, depth_with_required. apply D. right. exact I. }
      rewrite T, with_required_twice. cbn [existsb]. rewrite T, required_with_required, orb_assoc.
      split; intros (H & ->); (split; [|reflexivity]).
      * intros v [<-|I]; [congruence|]. rewrite (H v I), nullable_with_required. reflexivity.
      * intros v I. rewrite nullable_with_required. apply H. right. exact I.
    + split; [discriminate|]. intros (H & _).
      assert (X : compose_for_input t u <> None).
      { specialize (H u (or_introl eq_refl)).
        destruct (compose_type t u) as [r|] eqn:E'.
        - unfold compose_for_input. rewrite E'. discriminate.
        - assert (Y : compose_type t u = Some (if ftype_eqb t u then true else required (type_of u)))
            by (apply compose_type_same; auto). congruence. }
      contradiction.
Qed.

Lemma fold_output_same : forall l t c, (forall u, In u l -> depth (type_of u) = depth (type_of t)) ->
  (fold_op compose_for_output t l = Some c <->
   (forall u, In u l -> nullable (type_of u) = nullable (type_of t)) /\
   type_of c = with_required (forallb (fun u => required (type_of u)) (t :: l)) (type_of t)).
Proof.
  induction l as [|u l IH]; intros t c D.
  - cbn [fold_op forallb]. rewrite andb_true_r, with_required_same. split.
    + intros [= <-]. split; [easy|reflexivity].
    + intros (_ & H). apply type_of_inj in H. congruence.
  - cbn [fold_op].
    assert (DU : depth (type_of t) = depth (type_of u)) by (symmetry; apply D; left; reflexivity).
    destruct (compose_for_output t u) as [t'|] eqn:E.
    + apply (compose_for_output_same _ _ _ DU) in E. destruct E as (N & T).
      rewrite IH.
      2:{ intros v I. rewrite T, depth_with_required. apply D. right. exact I. }
      rewrite T, with_required_twice. cbn [forallb]. rewrite T, required_with_required, andb_assoc.
      split; intros (H & ->); (split; [|reflexivity]).
      * intros v [<-|I]; [congruence|]. rewrite (H v I), nullable_with_required. reflexivity.
      * intros v I. rewrite nullable_with_required. apply H. right. exact I.
    + split; [discriminate|]. intros (H & _).
      assert (X : compose_for_output t u <> None).
      { specialize (H u (or_introl eq_refl)).
        destruct (compose_type t u) as [r|] eqn:E'.
        - unfold compose_for_output. rewrite E'. discriminate.
        - assert (Y : compose_type t u = Some (if ftype_eqb t u then true else required (type_of u)))
            by (apply compose_type_same; auto). congruence. }
      contradiction.
Qed.

(* The folds of the code are this fold. *)
Lemma fold_arg_types_op : forall l t,
  fold_arg_types t l = fold_op compose_for_input t (map (fun a => a_type (v_arg a)) l).
Proof.
  induction l as [|a l IH]; intros t; [reflexivity|]. cbn. destruct (compose_for_input t (a_type (v_arg a))); auto.
Qed.

Lemma fold_types_op : forall op n l t c, fold_types op n t l = inl c ->
  exists us, Forall2 (fun f u => own_type (v_field f) = Some u) l us /\ fold_op op t us = Some c.
Proof.
  intros op n. induction l as [|f l IH]; intros t c E; cbn in E.
  - injection E as <-. exists nil. split; [constructor|reflexivity].
  - destruct (own_type (v_field f)) as [u|] eqn:O; [|discriminate].
    destruct (op t u) as [t'|] eqn:C; [|discriminate].
    destruct (IH _ _ E) as (us & F & H). exists (u :: us). split; [constructor; assumption|].
    cbn. rewrite C. exact H.
Qed.

Lemma own_type_field_type : forall f u, own_type f = Some u -> type_of u = field_type f.
Proof.
  intros f u. unfold own_type, field_type, batched.
  destruct (existsb (fun a => requires_list (a_dirs a)) (f_args f)); [|congruence].
  destruct (f_type f) as [n [i ls]]. unfold without_list. cbn [wrap lists inner_required base].
  destruct ls as [|x ls _] using rev_ind; [discriminate|].
  destruct (ls ++ [x]) as [|y l] eqn:E; [destruct ls; discriminate|].
  rewrite <- E. cbn [option_map]. rewrite removelast_last. intros [= <-].
  unfold type_of. cbn [wrap lists inner_required base]. rewrite of_lists_snoc. reflexivity.
Qed.
