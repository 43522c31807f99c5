(* Facts about the tables of the operation checks. *)
From Coq Require Import String List Bool Arith NArith Lia Sorted.
Import ListNotations.
From Verif.SchemaDiff Require Import Ast Search Diff MapFacts DocFacts DiffProps PatchFacts.
From Verif.Checks Require Import Model Spec.
Local Open Scope string_scope.
Local Open Scope list_scope.

Lemma cmp2_cmp3 : forall x y, cmp2 x y = cmp3 (fst x, snd x, "") (fst y, snd y, "").
Proof.
  intros [a b] [c d]. unfold cmp2, cmp3. cbn [fst snd].
  destruct (String.compare a c); auto. destruct (String.compare b d); auto.
Qed.

Lemma not_gt_spec : forall c, not_gt c = true <-> c <> Gt.
Proof. destruct c; cbn; split; congruence. Qed.

Lemma below_spec : forall c, below c = true <-> c = Lt.
Proof. destruct c; cbn; split; congruence. Qed.

Lemma below_false : forall c, below c = false <-> c <> Lt.
Proof. destruct c; cbn; split; congruence. Qed.

Lemma has_name_spec : forall x l, has_name x l = true <-> In x l.
Proof.
  intros. unfold has_name. rewrite existsb_exists. split.
  - intros (y & Y & E). apply String.eqb_eq in E. congruence.
  - intros H. exists x. rewrite String.eqb_refl. auto.
Qed.

Section Table.
  Context {A : Type} (k : A -> string * string * string) (leb : A -> A -> bool)
    (LEB : forall x y, leb x y = not_gt (cmp3 (k x) (k y))).

  Lemma table_sorted : forall l, StronglySorted (fun x y => leb x y = true) (sort leb l).
  Proof.
    apply sort_sorted.
    - intros x y. rewrite !LEB, (cmp3_flip (k y)). destruct (cmp3 (k x) (k y)); cbn; auto.
    - intros x y z. rewrite !LEB. rewrite !not_gt_spec. intros X Y.
      destruct (cmp3 (k x) (k y)) eqn:E; [apply cmp3_eq in E; rewrite E; exact Y| |contradiction].
      destruct (cmp3 (k y) (k z)) eqn:F; [apply cmp3_eq in F; rewrite <- F, E; discriminate| |contradiction].
      rewrite (cmp3_trans_lt _ _ _ E F). discriminate.
  Qed.

  Lemma table_ordered : forall l q, ordered (fun x => cmp3 (k x) q) (sort leb l).
  Proof.
    intros l q. eapply sorted_ordered; [apply table_sorted|].
    intros x y _ _ H. apply cmp3_mono. apply not_gt_spec. rewrite <- LEB. exact H.
  Qed.

  Lemma table_found : forall l q i, found (bsearch (fun x => cmp3 (k x) q) (sort leb l)) = Some i ->
    exists x, nth_error (sort leb l) i = Some x /\ k x = q /\ In x l.
  Proof.
    intros l q i H. destruct (bsearch _ _) eqn:E; cbn in H; [|discriminate]. injection H as ->.
    apply bsearch_hit in E. destruct E as (x & X & N & C). exists x. apply cmp3_eq in C.
    apply sort_in in X. auto.
  Qed.

  Lemma table_finds : forall l q x, In x l -> k x = q ->
    exists i, found (bsearch (fun x => cmp3 (k x) q) (sort leb l)) = Some i.
  Proof.
    intros l q x X E.
    destruct (bsearch_hits A (fun x => cmp3 (k x) q) (sort leb l) x) as (i & I).
    - apply table_ordered.
    - apply sort_in. exact X.
    - rewrite E. apply cmp3_refl.
    - exists i. rewrite I. reflexivity.
  Qed.

  Lemma table_range : forall (lt eq : A -> bool) n l,
    (forall x, lt x = below (String.compare (fst (fst (k x))) n)) ->
    (forall x, eq x = true <-> fst (fst (k x)) = n) ->
    forall x, In x (take_while eq (skipn (partition_point lt (sort leb l)) (sort leb l))) <->
              In x l /\ fst (fst (k x)) = n.
  Proof.
    intros lt eq n l LT EQ x. rewrite in_range.
    - rewrite sort_in, EQ. tauto.
    - intros i j y z IJ Y Z.
      pose proof (sorted_nth _ _ _ (table_sorted l) i j y z IJ Y Z) as R. cbv beta in R.
      rewrite LEB, not_gt_spec in R.
      apply cmp3_first in R. pose proof (compare_mono _ _ n R) as M.
      rewrite !LT. rewrite below_spec, below_spec, below_false, EQ, EQ. split.
      + intros E. rewrite E in M. destruct (String.compare _ n); cbn in M; try lia. reflexivity.
      + intros E F. rewrite F, compare_refl in M.
        destruct (String.compare (fst (fst (k y))) n) eqn:G; cbn in M; [|congruence|lia].
        apply compare_eq. exact G.
    - intros y Y. rewrite LT, below_spec in Y. destruct (eq y) eqn:E; [|reflexivity].
      apply EQ in E. rewrite E, compare_refl in Y. discriminate.
  Qed.
End Table.

(** Types. *)
Lemma extract_base : forall t b, fst (extract_type b t) = named t.
Proof.
  induction t as [n|t IH|t IH]; intros b; cbn; auto.
  specialize (IH false). destruct (extract_type false t) as [n [ls i]]. exact IH.
Qed.

Definition wrap (t : ty) : wrapping := snd (extract_type false t).

(** What the tables hold. *)
Lemma tdefs_of_in : forall d t, In t (flat_map tdefs_of d) <-> HasType d t.
Proof.
  intros d t. rewrite in_flat_map. unfold HasType. split.
  - intros (x & X & T). destruct x; cbn in T; try contradiction; destruct T as [->|[]]; auto.
  - intros [H|H]; [exists (DType t)|exists (DTypeExt t)]; cbn; auto.
Qed.

Lemma to_field_eq : forall n x, to_field n x = mksfield n (f_name x) (named (f_type x)) (wrap (f_type x)).
Proof.
  intros. unfold to_field, wrap. rewrite <- (extract_base (f_type x) false). destruct (extract_type false (f_type x)). reflexivity.
Qed.

Lemma to_input_eq : forall n x, to_input n x = mksfield n (i_name x) (named (i_type x)) (wrap (i_type x)).
Proof.
  intros. unfold to_input, wrap. rewrite <- (extract_base (i_type x) false). destruct (extract_type false (i_type x)). reflexivity.
Qed.

Definition has_default (x : input) : bool := match i_default x with Some _ => true | None => false end.

Lemma to_arg_eq : forall n f x,
  to_arg n f x = mksarg n f (i_name x) (named (i_type x)) (wrap (i_type x)) (has_default x).
Proof.
  intros. unfold to_arg, wrap. rewrite <- (extract_base (i_type x) false). destruct (extract_type false (i_type x)). reflexivity.
Qed.

Lemma fields_table : forall d x, In x (flat_map table_fields (flat_map tdefs_of d)) <->
  exists n f t, HasField d n f t /\ x = mksfield n f (named t) (wrap t).
Proof.
  intros d x. rewrite in_flat_map. split.
  - intros (t & T & X). apply tdefs_of_in in T. destruct t; cbn in X; try contradiction;
      apply in_map_iff in X; destruct X as (y & <- & Y).
    + rewrite to_field_eq. do 3 eexists. split; [eapply has_object; eauto|reflexivity].
    + rewrite to_field_eq. do 3 eexists. split; [eapply has_interface; eauto|reflexivity].
    + rewrite to_input_eq. do 3 eexists. split; [eapply has_input; eauto|reflexivity].
  - intros (n & f & t & H & ->). destruct H as [impls fs y T Y <-|impls fs y T Y <-|fs y T Y <-];
      (eexists; split; [apply tdefs_of_in; exact T|]); cbn; apply in_map_iff; exists y;
      rewrite ?to_field_eq, ?to_input_eq; auto.
Qed.

Lemma args_table : forall d x, In x (flat_map table_args (flat_map tdefs_of d)) <->
  exists n f i, ArgOf d n f i /\
    x = mksarg n f (i_name i) (named (i_type i)) (wrap (i_type i)) (has_default i).
Proof.
  intros d x. rewrite in_flat_map. split.
  - intros (t & T & X). apply tdefs_of_in in T. destruct t; cbn in X; try contradiction.
    apply in_flat_map in X. destruct X as (y & Y & X). apply in_map_iff in X. destruct X as (i & <- & I).
    exists n, (f_name y), i. rewrite to_arg_eq. split; [|reflexivity]. exists impls, fields, y. auto.
  - intros (n & f & i & (impls & fs & y & T & Y & <- & II) & ->).
    exists (TObject n impls fs). split; [apply tdefs_of_in; exact T|]. cbn. apply in_flat_map. exists y.
    split; [exact Y|]. apply in_map_iff. exists i. rewrite to_arg_eq. auto.
Qed.

Lemma impls_table : forall d n i, In (n, i) (flat_map table_impls (flat_map tdefs_of d)) <-> Implements d n i.
Proof.
  intros d n i. rewrite in_flat_map. split.
  - intros (t & T & X). apply tdefs_of_in in T. destruct t; cbn in X; try contradiction;
      apply in_map_iff in X; destruct X as (y & E & Y); injection E as <- <-.
    + eapply impl_object; eauto.
    + eapply impl_interface; eauto.
  - intros [impls fs T X|impls fs T X]; (eexists; split; [apply tdefs_of_in; exact T|]); cbn; apply in_map_iff; eauto.
Qed.

Lemma inputs_table : forall d n, In n (s_inputs (schema_of d)) <-> Defines d n KInput.
Proof.
  intros d n. cbn [schema_of s_inputs]. rewrite in_flat_map. split.
  - intros (t & T & X). apply tdefs_of_in in T. destruct t; cbn in X; try contradiction. destruct X as [->|[]].
    destruct T as [T|T]; [exact (defines_type d n (TInput n fields) T eq_refl)|exact (defines_ext d n (TInput n fields) T eq_refl)].
  - intros H. inversion H; subst; destruct t; cbn in *; try discriminate;
      (eexists; split; [apply tdefs_of_in; unfold HasType; eauto|]); cbn; auto.
Qed.

(** The lookups. *)
Lemma field_unique : forall d n f t u, doc_ok d -> HasField d n f t -> HasField d n f u -> t = u.
Proof.
  intros d n f t u OK T U. apply field_member in T, U. destruct T as (p & T), U as (q & U).
  destruct (member_unique d n f _ p _ q OK T U) as [E _]. congruence.
Qed.

Definition fkey (x : sfield) : string * string * string := (sf_type x, sf_field x, "").
Definition fleb (x y : sfield) : bool := not_gt (cmp2 (field_key x) (field_key y)).
Definition aleb (x y : sarg) : bool := not_gt (cmp3 (arg_key x) (arg_key y)).

Lemma fleb_eq : forall x y, fleb x y = not_gt (cmp3 (fkey x) (fkey y)).
Proof. intros. unfold fleb. rewrite cmp2_cmp3. reflexivity. Qed.

Lemma bsearch_ext : forall A (c c' : A -> comparison) l, (forall x, c x = c' x) -> bsearch c l = bsearch c' l.
Proof.
  intros A c c' l H.
  assert (L : forall fuel b s, bsearch_loop c l fuel b s = bsearch_loop c' l fuel b s).
  { induction fuel as [|fuel IH]; intros; cbn; auto. destruct (Nat.leb s 1); auto.
    rewrite IH. destruct (nth_error l _); auto. rewrite H. reflexivity. }
  unfold bsearch. destruct l as [|x0 l0]; [reflexivity|]. cbv zeta. rewrite L.
  destruct (nth_error _ _); auto. rewrite H. reflexivity.
Qed.

Lemma find_field_inv : forall d n f i, find_field (schema_of d) n f = Some i ->
  exists t, HasField d n f t /\
    nth_error (s_fields (schema_of d)) i = Some (mksfield n f (named t) (wrap t)).
Proof.
  intros d n f i H. unfold find_field in H.
  rewrite (bsearch_ext _ _ (fun x => cmp3 (fkey x) (n, f, ""))) in H by (intros; apply cmp2_cmp3).
  apply (table_found fkey fleb) in H. destruct H as (x & N & E & X).
  apply fields_table in X. destruct X as (n' & f' & t & T & ->). cbn in E. injection E as -> ->.
  exists t. split; [exact T|exact N].
Qed.

Lemma find_field_has : forall d n f t, doc_ok d -> HasField d n f t ->
  exists i, find_field (schema_of d) n f = Some i /\
    nth_error (s_fields (schema_of d)) i = Some (mksfield n f (named t) (wrap t)).
Proof.
  intros d n f t OK H.
  assert (X : In (mksfield n f (named t) (wrap t)) (flat_map table_fields (flat_map tdefs_of d))).
  { apply fields_table. eauto. }
  destruct (table_finds fkey fleb fleb_eq _ (n, f, "") _ X eq_refl) as (i & I).
  exists i.
  assert (F : find_field (schema_of d) n f = Some i).
  { unfold find_field. rewrite (bsearch_ext _ _ (fun x => cmp3 (fkey x) (n, f, ""))) by (intros; apply cmp2_cmp3). exact I. }
  split; [exact F|]. apply find_field_inv in F. destruct F as (u & U & N).
  rewrite (field_unique d n f t u OK H U). exact N.
Qed.

Lemma find_field_none : forall d n f, find_field (schema_of d) n f = None -> forall t, doc_ok d -> ~ HasField d n f t.
Proof.
  intros d n f H t OK T. destruct (find_field_has d n f t OK T) as (i & I & _). congruence.
Qed.

Lemma object_arg : forall d n f i, ArgOf d n f i -> HasArg d n f i.
Proof. intros d n f i (impls & fs & x & T & X & E & II). eapply arg_object; eauto. Qed.

Lemma find_argument_inv : forall d n f a i, find_argument (schema_of d) n f a = Some i ->
  exists x, ArgOf d n f x /\ i_name x = a /\
    nth_error (s_args (schema_of d)) i = Some (mksarg n f a (named (i_type x)) (wrap (i_type x)) (has_default x)).
Proof.
  intros d n f a i H. unfold find_argument in H.
  apply (table_found arg_key aleb) in H. destruct H as (x & N & E & X).
  apply args_table in X. destruct X as (n' & f' & y & Y & ->). cbn in E. injection E as -> -> <-.
  exists y. split; [exact Y|]. split; [reflexivity|exact N].
Qed.

Lemma find_argument_has : forall d n f x, doc_ok d -> ArgOf d n f x ->
  exists i, find_argument (schema_of d) n f (i_name x) = Some i /\
    nth_error (s_args (schema_of d)) i =
      Some (mksarg n f (i_name x) (named (i_type x)) (wrap (i_type x)) (has_default x)).
Proof.
  intros d n f x OK H.
  assert (X : In (mksarg n f (i_name x) (named (i_type x)) (wrap (i_type x)) (has_default x)) (flat_map table_args (flat_map tdefs_of d))).
  { apply args_table. eauto. }
  destruct (table_finds arg_key aleb (fun _ _ => eq_refl) _ (n, f, i_name x) _ X eq_refl) as (i & I).
  exists i. split; [exact I|]. apply find_argument_inv in I. destruct I as (y & Y & E & N).
  assert (x = y) by (apply (arg_unique d n f); auto using object_arg). subst. exact N.
Qed.

Lemma find_argument_none : forall d n f a, find_argument (schema_of d) n f a = None ->
  doc_ok d -> forall x, ArgOf d n f x -> i_name x <> a.
Proof.
  intros d n f a H OK x X E. subst. destruct (find_argument_has d n f x OK X) as (i & I & _). congruence.
Qed.

Lemma iter_fields_in : forall d n x, In x (iter_fields (schema_of d) n) <->
  exists f t, HasField d n f t /\ x = mksfield n f (named t) (wrap t).
Proof.
  intros d n x. unfold iter_fields.
  pose proof (table_range fkey fleb fleb_eq (fun x => below (String.compare (sf_type x) n)) (fun x => String.eqb n (sf_type x)) n
                (flat_map table_fields (flat_map tdefs_of d))) as R.
  rewrite R.
  - rewrite fields_table. split.
    + intros [(m & f & t & T & ->) E]. cbn in E. subst. eauto.
    + intros (f & t & T & ->). split; [eauto 6|reflexivity].
  - intros; reflexivity.
  - intros y. rewrite String.eqb_eq. cbn. split; congruence.
Qed.

Lemma iter_impls_in : forall d n i, In i (iter_interface_implementations (schema_of d) n) <-> Implements d n i.
Proof.
  intros d n i. unfold iter_interface_implementations. rewrite in_map_iff.
  pose proof (table_range (fun x : string * string => (fst x, snd x, "")) (fun x y => not_gt (cmp2 x y))
                (fun x y => f_equal not_gt (cmp2_cmp3 x y))
                (fun x => below (String.compare (fst x) n)) (fun x => String.eqb (fst x) n) n
                (flat_map table_impls (flat_map tdefs_of d))) as R.
  split.
  - intros ([m j] & <- & X). apply R in X.
    + destruct X as [X E]. cbn in E. subst. apply impls_table in X. exact X.
    + intros; reflexivity.
    + intros y. rewrite String.eqb_eq. cbn. tauto.
  - intros H. exists (n, i). split; [reflexivity|]. apply R.
    + intros; reflexivity.
    + intros y. rewrite String.eqb_eq. cbn. tauto.
    + split; [apply impls_table; exact H|reflexivity].
Qed.

(** The comparison of types. *)
Definition wle (x y : wrapping) : Prop :=
  Forall2 (fun p q : bool => p = true -> q = true) (fst x) (fst y) /\ (snd x = true -> snd y = true).

Definition ups (c : comparison_result) : Prop := c = NoChange \/ c = AddedNonNull.
Definition downs (c : comparison_result) : Prop := c = NoChange \/ c = RemovedNonNull.

Lemma compare_lists_ups : forall l m s, ups (compare_lists l m s) <-> ups s /\ Forall2 (fun p q : bool => p = true -> q = true) l m.
Proof.
  unfold ups. induction l as [|[] l IH]; intros [|[] m] s; cbn.
  - split; [auto|tauto].
  - split; [intros [H|H]; discriminate|intros [_ H]; inversion H].
  - split; [intros [H|H]; discriminate|intros [_ H]; inversion H].
  - split; [intros [H|H]; discriminate|intros [_ H]; inversion H].
  - rewrite IH. split; intros [P Q]; (split; [exact P|]); [constructor; auto|inversion Q; auto].
  - rewrite IH. split.
    + intros [[P|P] _]; destruct s; discriminate.
    + intros [_ Q]. inversion Q; subst. discriminate H2. reflexivity.
  - split; [intros [H|H]; discriminate|intros [_ H]; inversion H].
  - rewrite IH. split.
    + intros [P Q]. split; [|constructor; auto; discriminate]. destruct s; cbn in P; destruct P; try discriminate; auto.
    + intros [P Q]. split; [|inversion Q; auto]. destruct P as [-> | ->]; cbn; auto.
  - rewrite IH. split; intros [P Q]; (split; [exact P|]); [constructor; auto|inversion Q; auto].
Qed.

Lemma compare_lists_downs : forall l m s, downs (compare_lists l m s) <-> downs s /\ Forall2 (fun p q : bool => p = true -> q = true) m l.
Proof.
  unfold downs. induction l as [|[] l IH]; intros [|[] m] s; cbn.
  - split; [auto|tauto].
  - split; [intros [H|H]; discriminate|intros [_ H]; inversion H].
  - split; [intros [H|H]; discriminate|intros [_ H]; inversion H].
  - split; [intros [H|H]; discriminate|intros [_ H]; inversion H].
  - rewrite IH. split; intros [P Q]; (split; [exact P|]); [constructor; auto|inversion Q; auto].
  - rewrite IH. split.
    + intros [P Q]. split; [|constructor; auto; discriminate]. destruct s; cbn in P; destruct P; try discriminate; auto.
    + intros [P Q]. split; [|inversion Q; auto]. destruct P as [-> | ->]; cbn; auto.
  - split; [intros [H|H]; discriminate|intros [_ H]; inversion H].
  - rewrite IH. split.
    + intros [[P|P] _]; destruct s; discriminate.
    + intros [_ Q]. inversion Q; subst. discriminate H2. reflexivity.
  - rewrite IH. split; intros [P Q]; (split; [exact P|]); [constructor; auto|inversion Q; auto].
Qed.

Lemma compare_ups : forall x y, ups (compare_wrapping x y) <-> wle x y.
Proof.
  intros [l i] [m j]. unfold compare_wrapping, wle. cbn [fst snd].
  pose proof (compare_lists_ups l m NoChange) as H.
  destruct i, j; cbn.
  - rewrite H. unfold ups. intuition.
  - split; [|intros [_ F]; discriminate F; reflexivity].
    unfold ups. destruct (compare_lists l m NoChange); cbn; intros [?|?]; discriminate.
  - split.
    + intros U. split; [|discriminate]. apply H. unfold ups in *.
      destruct (compare_lists l m NoChange); cbn in U; destruct U; try discriminate; auto.
    + intros [F _]. assert (G : ups (compare_lists l m NoChange)) by (apply H; split; [left; reflexivity|exact F]).
      destruct G as [-> | ->]; right; reflexivity.
  - rewrite H. unfold ups. intuition; discriminate.
Qed.

Lemma compare_downs : forall x y, downs (compare_wrapping x y) <-> wle y x.
Proof.
  intros [l i] [m j]. unfold compare_wrapping, wle. cbn [fst snd].
  pose proof (compare_lists_downs l m NoChange) as H.
  destruct i, j; cbn.
  - rewrite H. unfold downs. intuition.
  - split.
    + intros U. split; [|discriminate]. apply H. unfold downs in *.
      destruct (compare_lists l m NoChange); cbn in U; destruct U; try discriminate; auto.
    + intros [F _]. assert (G : downs (compare_lists l m NoChange)) by (apply H; split; [left; reflexivity|exact F]).
      destruct G as [-> | ->]; right; reflexivity.
  - split; [|intros [_ F]; discriminate F; reflexivity].
    unfold downs. destruct (compare_lists l m NoChange); cbn; intros [?|?]; discriminate.
  - rewrite H. unfold downs. intuition; discriminate.
Qed.

Lemma covers_extract : forall t u, Covers t u -> forall b c : bool, (b = true -> c = true) ->
  fst (extract_type b t) = fst (extract_type c u) /\ wle (snd (extract_type b t)) (snd (extract_type c u)).
Proof.
  induction 1 as [n|t u C IH|t u C IH|t u C IH|t u C IH]; intros b c BC; cbn.
  - split; [reflexivity|]. split; [constructor|exact BC].
  - specialize (IH false false (fun x => x)).
    destruct (extract_type false t) as [n [ls i]], (extract_type false u) as [m [ms j]]. cbn in *.
    destruct IH as [-> [F G]]. split; [reflexivity|]. split; [constructor; auto|exact G].
  - apply IH. auto.
  - apply IH. auto.
  - exact (IH b c BC).
Qed.

Lemma covers_refl : forall t, Covers t t.
Proof. induction t; [apply co_name|apply co_list; auto|apply co_nonnull; auto]. Qed.

Definition marked (b : bool) (t : ty) : ty := if b then TNonNull t else t.

Lemma extract_covers : forall t u (b c : bool),
  fst (extract_type b t) = fst (extract_type c u) -> wle (snd (extract_type b t)) (snd (extract_type c u)) ->
  Covers (marked b t) (marked c u).
Proof.
  assert (MARK : forall t u (b c : bool), Covers t u -> (b = true -> c = true) -> Covers (marked b t) (marked c u)).
  { intros t u [] [] C H; cbn.
    - apply co_nonnull. exact C.
    - discriminate H. reflexivity.
    - apply co_stronger. exact C.
    - exact C. }
  induction t as [n|t IH|t IH]; intros u.
  - induction u as [m|u IHu|u IHu]; intros b c E W; cbn in E, W.
    + subst. destruct W as [_ W]. apply MARK; [apply co_name|exact W].
    + destruct (extract_type false u) as [m [ms j]]. cbn in W. destruct W as [W _]. inversion W.
    + specialize (IHu b true E W). destruct c; cbn in *; [apply co_stronger|]; exact IHu.
  - induction u as [m|u IHu|u IHu]; intros b c E W; cbn in E, W.
    + destruct (extract_type false t) as [k [ks j]]. cbn in W. destruct W as [W _]. inversion W.
    + specialize (IH u false false). cbn in IH.
      destruct (extract_type false t) as [k [ks j]], (extract_type false u) as [m [ms i]]. cbn in E, W, IH.
      destruct W as [W1 W2]. inversion W1; subst. apply MARK; [|assumption]. apply co_list. apply IH; [reflexivity|].
      split; assumption.
    + specialize (IHu b true E W). destruct c; cbn in *; [apply co_stronger|]; exact IHu.
  - intros b c E W. cbn in E, W. specialize (IH u true c E W). destruct b; cbn in *; [apply co_twice|]; exact IH.
Qed.

Lemma covers_spec : forall t u, Covers t u <-> named t = named u /\ wle (wrap t) (wrap u).
Proof.
  intros t u. split.
  - intros C. pose proof (covers_extract t u C false false (fun x => x)) as [E W].
    rewrite !extract_base in E. auto.
  - intros [E W]. apply (extract_covers t u false false); [rewrite !extract_base; exact E|exact W].
Qed.

Lemma is_nonnull_extract : forall t b, is_nonnull (snd (extract_type b t)) = true <-> b = true \/ nonnull t.
Proof.
  unfold nonnull. induction t as [n|t IH|t IH]; intros b; cbn.
  - split; [auto|]. intros [H|[u H]]; [exact H|discriminate].
  - destruct (extract_type false t) as [n [ls i]]. cbn. split; [auto|]. intros [H|[u H]]; [exact H|discriminate].
  - rewrite IH. split; [eauto|]. intros [H|_]; auto.
Qed.

Lemma is_nonnull_wrap : forall t, is_nonnull (wrap t) = true <-> nonnull t.
Proof. intros. unfold wrap. rewrite is_nonnull_extract. split; [intros [H|H]; [discriminate|exact H]|auto]. Qed.

Lemma has_default_spec : forall i, has_default i = true <-> i_default i <> None.
Proof. intros i. unfold has_default. destruct (i_default i); split; congruence. Qed.

(* A weaker type is not required either. *)
Lemma wle_nonnull : forall x y, wle x y -> is_nonnull x = true -> is_nonnull y = true.
Proof.
  intros [l i] [m j] [F G]. cbn in *. unfold is_nonnull. cbn. destruct F; auto.
Qed.

(** Roots. *)
Lemma root_name_spec : forall t l acc,
  (exists r, In r l /\ get_root t r = Some (root_name (get_root t) acc l)) \/
  (forall r, In r l -> get_root t r = None) /\ root_name (get_root t) acc l = acc.
Proof.
  intros t. unfold root_name. induction l as [|r l IH]; intros acc; cbn [fold_left].
  - right. split; [intros r []|reflexivity].
  - destruct (IH (match get_root t r with Some n => n | None => acc end)) as [(q & Q & E)|(N & E)].
    + left. exists q. split; [right; exact Q|exact E].
    + rewrite E. destruct (get_root t r) eqn:G.
      * left. exists r. split; [left; reflexivity|exact G].
      * right. split; [|reflexivity]. intros q [<-|Q]; auto.
Qed.

Lemma roots_of_in : forall d r, In r (flat_map roots_of d) <-> SchemaPart d r.
Proof.
  intros d r. rewrite in_flat_map. unfold SchemaPart. split.
  - intros (x & X & T). destruct x; cbn in T; try contradiction; destruct T as [->|[]]; auto.
  - intros [H|H]; [exists (DSchema r)|exists (DSchemaExt r)]; cbn; auto.
Qed.

Lemma op_root_is : forall d t, IsRoot d t (op_root (schema_of d) t).
Proof.
  intros d t.
  assert (E : op_root (schema_of d) t = root_name (get_root t) (default_root t) (flat_map roots_of d)) by (destruct t; reflexivity).
  rewrite E. destruct (root_name_spec t (flat_map roots_of d) (default_root t)) as [(r & R & G)|(N & ->)].
  - apply roots_of_in in R. exact (root_given d t r _ R G).
  - apply root_default. intros r R. apply N. apply roots_of_in. exact R.
Qed.
