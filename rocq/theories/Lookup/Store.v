(** The store of injections grows, and what it held keeps its meaning. *)

From Coq Require Import List Arith Lia ZArith String Bool Permutation.
From Verif Require Import Response.Model Response.Spec Views.Model Views.Spec Lookup.Model Lookup.Spec.
Import ListNotations.
Local Open Scope nat_scope.

Lemma grown_refl : forall st, grown st st.
Proof. intros st. split; [|split]; exists []; rewrite app_nil_r; reflexivity. Qed.

Lemma grown_trans : forall a b c, grown a b -> grown b c -> grown a c.
Proof.
  intros a b c [[x1 E1] [[x2 E2] [x3 E3]]] [[y1 F1] [[y2 F2] [y3 F3]]].
  split; [|split]; eexists; rewrite ?F1, ?F2, ?F3, ?E1, ?E2, ?E3, <- app_assoc; reflexivity.
Qed.

Lemma nth_grown : forall A (l a : list A) n x, nth_error l n = Some x -> nth_error (l ++ a) n = Some x.
Proof. intros A l a n x E. rewrite nth_error_app1; [exact E|]. apply nth_error_Some. congruence. Qed.

Scheme means_ind2 := Induction for means Sort Prop
  with means_range_ind2 := Induction for means_range Sort Prop.
Combined Scheme means_both from means_ind2, means_range_ind2.

Lemma means_grown_both : forall st,
  (forall v i, means st v i -> forall st', grown st st' -> means st' v i) /\
  (forall a n l, means_range st a n l -> forall st', grown st st' -> means_range st' a n l).
Proof.
  intros st. apply means_both; intros; try (constructor; auto; fail).
  - destruct H0 as [A [[x E] B]]. apply MeSelect with v; [rewrite E; apply nth_grown; assumption|].
    apply H. split; [exact A|split; [exists x; exact E|exact B]].
  - destruct H1 as [A [B [x E]]]. apply MrCons with v; [rewrite E; apply nth_grown; assumption| |].
    + apply H. split; [exact A|split; [exact B|exists x; exact E]].
    + apply H0. split; [exact A|split; [exact B|exists x; exact E]].
Qed.
Definition means_grown st v i st' (M : means st v i) (G : grown st st') : means st' v i :=
  proj1 (means_grown_both st) v i M st' G.

Lemma fields_grown : forall g st st' a n l, grown st st' -> means_fields g st a n l -> means_fields g st' a n l.
Proof.
  intros g st st' a n l G M. induction M; [constructor|].
  apply MfCons with v; [|exact (means_grown _ _ _ _ H0 G)|exact IHM].
  destruct G as [[x E] _]. rewrite E. apply nth_grown, H.
Qed.

Lemma args_grown : forall g st st' a n l, grown st st' -> means_args g st a n l -> means_args g st' a n l.
Proof.
  intros g st st' a n l G M. induction M; [constructor| |].
  - apply MaValue with v; [|exact (means_grown _ _ _ _ H0 G)|exact IHM].
    destruct G as [[x E] _]. rewrite E. apply nth_grown, H.
  - apply MaInput with b m; [|exact (fields_grown _ _ _ _ _ _ G H0)|exact IHM].
    destruct G as [[x E] _]. rewrite E. apply nth_grown, H.
Qed.

Lemma good_grown : forall st st', good_store st -> grown st st' -> good_store st'.
Proof. unfold good_store. intros st st' H [_ [[x E] _]]. rewrite E. apply nth_grown, H. Qed.

Lemma reset_grown : forall st st', grown st st' -> reset st st' = st.
Proof.
  intros [a b c] st' [[x E1] [[y E2] [z E3]]]. unfold reset. cbn in *.
  rewrite E1, E2, E3, !firstn_app, !firstn_all, !Nat.sub_diag. cbn. rewrite !app_nil_r. reflexivity.
Qed.

(** ** Pushes *)

Lemma push_inj_grown : forall v st n st', push_inj v st = (n, st') -> grown st st'.
Proof.
  intros v st n st' E. destruct v; cbn in E; injection E as <- <-; try apply grown_refl;
    (split; [|split]; [exists []; rewrite app_nil_r; reflexivity|eexists; reflexivity|exists []; rewrite app_nil_r; reflexivity]).
Qed.

Lemma push_inj_means : forall v st n st' i, good_store st -> push_inj v st = (n, st') -> means st v i ->
  exists v', nth_error (s_injs st') n = Some v' /\ means st' v' i.
Proof.
  intros v st n st' i G E M. assert (Gr := push_inj_grown _ _ _ _ E).
  assert (M' := means_grown _ _ _ _ M Gr).
  destruct v; cbn in E; injection E as <- <-; eexists; (split; [|exact M']); try exact G;
    cbn; rewrite nth_error_app2, Nat.sub_diag by lia; reflexivity.
Qed.

Lemma insert_perm : forall p l, Permutation (insert_kv p l) (p :: l).
Proof.
  intros p l. induction l as [|q r IH]; cbn; [reflexivity|].
  destruct (key_leb _ _); [reflexivity|]. rewrite IH. apply perm_swap.
Qed.
Lemma sort_perm : forall l, Permutation (sort_kvs l) l.
Proof.
  induction l as [|p l IH]; cbn; [constructor|]. rewrite insert_perm. constructor. exact IH.
Qed.

(** Selections come in the order of their fields. *)
Definition leq (p q : nat * vinj) : Prop := key_leb (order_key p) (order_key q) = true.
Lemma leq_total : forall p q, key_leb (order_key p) (order_key q) = false -> leq q p.
Proof.
  intros p q. unfold leq, key_leb. destruct (fst (order_key p)), (fst (order_key q)); intros H; try discriminate; auto.
  - destruct (Nat.eqb_spec n n0) as [->|N]; [rewrite Nat.eqb_refl|].
    + apply Nat.leb_le. apply Nat.leb_gt in H. lia.
    + apply Nat.ltb_ge in H. destruct (Nat.eqb_spec n0 n); [lia|]. apply Nat.ltb_lt. lia.
  - apply Nat.leb_le. apply Nat.leb_gt in H. lia.
Qed.
Lemma leq_trans : forall p q r, leq p q -> leq q r -> leq p r.
Proof.
  intros p q r. unfold leq, key_leb.
  destruct (fst (order_key p)) as [a|], (fst (order_key q)) as [b|], (fst (order_key r)) as [c|];
    intros H1 H2; try discriminate; auto;
    repeat match goal with
    | H : context [Nat.eqb ?x ?y] |- _ => destruct (Nat.eqb_spec x y); subst
    | |- context [Nat.eqb ?x ?y] => destruct (Nat.eqb_spec x y); subst
    | H : Nat.leb _ _ = true |- _ => apply Nat.leb_le in H
    | H : Nat.ltb _ _ = true |- _ => apply Nat.ltb_lt in H
    | |- Nat.leb _ _ = true => apply Nat.leb_le
    | |- Nat.ltb _ _ = true => apply Nat.ltb_lt
    end; try congruence; try lia.
Qed.

Inductive ordered : list (nat * vinj) -> Prop :=
| OrNil : ordered []
| OrCons p l : Forall (leq p) l -> ordered l -> ordered (p :: l).

Lemma insert_ordered : forall p l, ordered l -> ordered (insert_kv p l).
Proof.
  intros p l O. induction O as [|q l F O IH]; cbn; [constructor; constructor|].
  destruct (key_leb (order_key p) (order_key q)) eqn:K.
  - constructor; [|constructor; assumption]. constructor; [exact K|].
    rewrite Forall_forall in *. intros x I. exact (leq_trans _ _ _ K (F x I)).
  - constructor; [|exact IH]. apply leq_total in K. rewrite Forall_forall in *. intros x I.
    apply (Permutation_in _ (insert_perm p l)) in I. destruct I as [<-|I]; [exact K|exact (F x I)].
Qed.
Lemma sort_ordered : forall l, ordered (sort_kvs l).
Proof. induction l; cbn; [constructor|apply insert_ordered; assumption]. Qed.

Lemma push_kvs_grown : forall l st v st', push_kvs l st = (v, st') -> grown st st'.
Proof.
  intros l st v st' E. injection E as <- <-.
  split; [|split]; [exists []; rewrite app_nil_r; reflexivity|exists []; rewrite app_nil_r; reflexivity|eexists; reflexivity].
Qed.
Lemma push_args_grown : forall l st v st', push_args l st = (v, st') -> grown st st'.
Proof.
  intros l st v st' E. injection E as <- <-.
  split; [|split]; [eexists; reflexivity|exists []; rewrite app_nil_r; reflexivity|exists []; rewrite app_nil_r; reflexivity].
Qed.

Lemma range_means : forall st es pre post l,
  s_kvs st = pre ++ es ++ post -> Forall2 (fun p q => fst p = fst q /\ means st (snd p) (snd q)) es l ->
  means_range st (List.length pre) (List.length es) l.
Proof.
  intros st es. induction es as [|[k v] es IH]; intros pre post l E F; inversion F; subst; cbn; [constructor|].
  destruct y as [k' i]. destruct H1 as [K M]. cbn in K, M. subst k'.
  apply MrCons with v; [|exact M|].
  - rewrite E, nth_error_app2, Nat.sub_diag by lia. reflexivity.
  - specialize (IH (pre ++ [(k, v)]) post l'). rewrite app_length in IH. cbn in IH.
    rewrite Nat.add_comm in IH. apply IH; [|assumption]. rewrite E, <- app_assoc. reflexivity.
Qed.

(** A permutation of what has meanings has the permuted meanings. *)
Lemma perm_forall2 : forall A B (R : A -> B -> Prop) l l', Permutation l l' -> forall m, Forall2 R l' m ->
  exists m', Forall2 R l m' /\ Permutation m' m.
Proof.
  intros A B R l l' P. induction P; intros m F.
  - inversion F; subst. exists []. split; constructor.
  - inversion F; subst. destruct (IHP _ H3) as (m' & F' & P'). exists (y :: m'). split; constructor; assumption.
  - inversion F; subst. inversion H3; subst. exists (y1 :: y0 :: l'0). split; [repeat constructor; assumption|apply perm_swap].
  - destruct (IHP2 _ F) as (m1 & F1 & Q1). destruct (IHP1 _ F1) as (m2 & F2 & Q2). exists m2. split; [exact F2|].
    etransitivity; eassumption.
Qed.

Lemma ordered_meaning : forall st l m, ordered l -> Forall2 (fun p q => fst p = fst q /\ means st (snd p) (snd q)) l m ->
  ordered_entries m.
Proof.
  intros st l m O F. revert O. induction F as [|[k v] [k2 i] l m [K M] F IH]; intros O; [constructor|].
  inversion O; subst. constructor; [|apply IH; assumption].
  intros f next k' f' next' E I. subst i. cbn in M. inversion M; subst.
  assert (X : exists n', In (k', SelectV f' n') l).
  { clear - F I. induction F as [|[k v] [k3 i] l m [K M] F IH]; [destruct I|]. destruct I as [E|I].
    - injection E as -> ->. cbn in K, M. subst. inversion M; subst. eexists. left. reflexivity.
    - destruct (IH I) as (n' & J). exists n'. right. exact J. }
  destruct X as (n' & J). rewrite Forall_forall in H1. specialize (H1 _ J). unfold leq, key_leb in H1. cbn in H1.
  destruct (Nat.eqb_spec f f'); [lia|]. apply Nat.ltb_lt in H1. lia.
Qed.

Definition each_means (st : store) : list (nat * vinj) -> list (nat * inj) -> Prop :=
  Forall2 (fun p q => fst p = fst q /\ means st (snd p) (snd q)).

Lemma all_grown : forall st st' l m, grown st st' -> each_means st l m -> each_means st' l m.
Proof.
  intros st st' l m G F. induction F as [|x y a b [K M] F IH]; constructor;
    [split; [exact K|exact (means_grown _ _ _ _ M G)]|exact IH].
Qed.

Lemma push_kvs_means : forall l st v st' m, push_kvs l st = (v, st') ->
  Forall2 (fun p q => fst p = fst q /\ means st (snd p) (snd q)) l m ->
  exists m', means st' v (IObject m') /\ Permutation m' m /\ ordered_entries m'.
Proof.
  intros l st v st' m E F. assert (G := push_kvs_grown _ _ _ _ E). injection E as <- <-.
  destruct (perm_forall2 _ _ _ _ _ (sort_perm l) _ F) as (m' & F' & P). exists m'.
  split; [|split; [exact P|exact (ordered_meaning _ _ _ (sort_ordered l) F')]].
  constructor. rewrite <- (Permutation_length (sort_perm l)). eapply range_means with (post := []).
  - cbn. rewrite app_nil_r. reflexivity.
  - exact (all_grown _ _ _ _ G F').
Qed.

Lemma args_means : forall g st es pre post ids,
  s_args st = pre ++ map (fun p => (fst p, ValueA (snd p))) es ++ post ->
  Forall2 (fun p q => fst p = fst q /\ means st (snd p) (snd q)) es ids ->
  means_args g st (List.length pre) (List.length es) (map (fun p => (fst p, ArgValue (snd p))) ids).
Proof.
  intros g st es. induction es as [|[k v] es IH]; intros pre post l E F; inversion F; subst; cbn; [constructor|].
  destruct y as [k' i]. destruct H1 as [K M]. cbn in K, M. subst k'.
  apply MaValue with v; [|exact M|].
  - rewrite E, nth_error_app2, Nat.sub_diag by lia. reflexivity.
  - specialize (IH (pre ++ [(k, ValueA v)]) post l'). rewrite app_length in IH. cbn in IH.
    rewrite Nat.add_comm in IH. apply IH; [|assumption]. rewrite E, <- app_assoc. reflexivity.
Qed.

Lemma push_args_means : forall g l st r st' ids,
  push_args (map (fun p => (fst p, ValueA (snd p))) l) st = (r, st') ->
  Forall2 (fun p q => fst p = fst q /\ means st (snd p) (snd q)) l ids ->
  means_args g st' (fst r) (snd r) (map (fun p => (fst p, ArgValue (snd p))) ids).
Proof.
  intros g l st r st' ids E F. assert (G := push_args_grown _ _ _ _ E). injection E as <- <-. cbn.
  rewrite map_length. eapply args_means with (post := []).
  - cbn. rewrite app_nil_r. reflexivity.
  - exact (all_grown _ _ _ _ G F).
Qed.

Lemma push_nested_means : forall g id field v st r st' i,
  push_nested id field v st = (r, st') -> means st v i ->
  grown st st' /\ means_args g st' (fst r) (snd r) [(id, ArgInput [(i_name (g_input g field), i)])].
Proof.
  intros g id field v st r st' i E M. unfold push_nested in E.
  destruct (push_args [(field, ValueA v)] st) as [n st1] eqn:E1.
  assert (G1 := push_args_grown _ _ _ _ E1). assert (G2 := push_args_grown _ _ _ _ E).
  split; [exact (grown_trans _ _ _ G1 G2)|].
  assert (M1 : means_fields g st1 (fst n) (snd n) [(i_name (g_input g field), i)]).
  { assert (M1 := means_grown _ _ _ _ M G1). revert M1. injection E1 as <- <-. intros M1. cbn. apply MfCons with v; [|exact M1|constructor].
    cbn. rewrite nth_error_app2, Nat.sub_diag by lia. reflexivity. }
  assert (M2 := fields_grown _ _ _ _ _ _ G2 M1). revert M2. injection E as <- <-. intros M2. cbn.
  eapply MaInput; [|exact M2|constructor]. cbn. rewrite nth_error_app2, Nat.sub_diag by lia. reflexivity.
Qed.
