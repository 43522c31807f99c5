(* Operation checks (C49): what a check without errors guarantees, and what is
   reported. *)
From Coq Require Import String List Bool Arith NArith Lia.
Import ListNotations.
From Verif.SchemaDiff Require Import Ast Search Diff MapFacts DocFacts DiffProps PatchFacts.
From Verif.Checks Require Import Model Spec Facts Usage Sound Inputs.
Local Open Scope string_scope.
Local Open Scope list_scope.

(** Without errors, operations stay valid. *)

Section Ops.
  Context (a b : doc) (A : doc_ok a) (B : doc_ok b).
  Context (fuel : nat) (ops : list (N * operation)) (u : usage) (RO : roots_once a)
    (OPS : forall n o, In (n, o) ops -> op_ok o) (AG : aggregate_all fuel (schema_of a) ops = Some u).

  Lemma touched_counted : forall n o e, In (n, o) ops -> OpTouches a o e -> not_left e -> counted (schema_of a) u e.
  Proof.
    intros n o e O T L. destruct (C49_usage a fuel ops u A RO OPS AG e) as [_ H]. apply H; eauto.
  Qed.
End Ops.

(* C49: if the checks report no error, the operations are still valid.  Partial:
   the documents have to be comparable, spreads plain, and the operation has to
   select a field of its root. *)
Theorem C49_sound_partial : forall a b fuel ops u ds, doc_ok a -> doc_ok b -> comparable a b -> roots_once a ->
  (forall n o, In (n, o) ops -> op_ok o) ->
  aggregate_all fuel (schema_of a) ops = Some u ->
  check_docs a b (Used u) = Some ds -> (forall c, ~ In (c, Error) ds) ->
  forall n o, In (n, o) ops -> ValidOpWith (plain a) a o ->
  (exists r f, IsRoot a (o_type o) r /\ OpTouches a o (UField r f)) ->
  (forall e v, In (e, v) (o_enums o) -> exists k, Defines a e k) ->
  ValidOp b o.
Proof.
  intros a b fuel ops u ds A B CB RO OPS AG CK NE n o O (r & R & KR & SE & EN) (r' & f & R' & TF) KE.
  rewrite (RO _ _ _ R' R) in TF. clear r' R'.
  unfold check_docs in CK. destruct (diff a b) as [l|] eqn:D; [|discriminate].
  pose proof (touched_counted a A fuel ops u RO OPS AG n o) as TC.
  assert (CF : counted (schema_of a) u (UField r f)) by (apply TC; auto; exact I).
  assert (KB : Defines b r KObject).
  { destruct (defines_dec b r KObject B) as [K|K]; [exact K|]. exfalso.
    destruct (silent a b A B u l ds D CK NE _ (ch_remove_type a b r KObject KR K)) as [_ S].
    cbn [check_change c_kind c_path remove_kind] in S. unfold remove_object_type in S.
    destruct (existsb (fun i => type_condition_is_used (Used u) (i, r)) (iter_interface_implementations (schema_of a) r)); [exact (S eq_refl)|].
    assert (HN : has_name r [s_query (schema_of a); s_mutation (schema_of a); s_subscription (schema_of a)] = true).
    { apply has_name_spec. rewrite (RO _ _ _ R (op_root_is a (o_type o))). destruct (o_type o); cbn; auto. }
    rewrite HN in S.
    assert (EX : existsb (fun y => used_field (schema_of a) (Used u) r (sf_field y)) (iter_fields (schema_of a) r) = true).
    { destruct CF as (i & FI & C). destruct (find_field_inv a r f i FI) as (t & T & _).
      apply existsb_exists. exists (mksfield r f (named t) (wrap t)). split; [apply iter_fields_in; eauto|].
      cbn [sf_field]. unfold used_field. rewrite FI. exact C. }
    rewrite EX in S. exact (S eq_refl). }
  exists r. split; [exact (cb_roots a b CB _ _ R)|]. split; [exact KB|]. split.
  - intros s S. apply (selection_sound a b A B CB u l ds D CK NE); [exact (SE s S)| |exists KObject; auto].
    intros e L T. apply TC; auto. eapply ot_sel; eauto.
  - intros e v V KE'. destruct (KE e v V) as (k & K). pose proof (cb_kinds a b CB e k KEnum K KE') as EK. subst k.
    apply (enum_kept a b A B u l ds D CK NE); auto. apply TC; auto; [apply ot_default; exact V|exact I].
Qed.

(* C49: a field that an operation uses is still there unless its type is removed,
   and its results are among those that the operation could get before.  This
   needs no restriction. *)
Theorem C49_result_types : forall a b fuel ops u ds, doc_ok a -> doc_ok b -> roots_once a ->
  (forall n o, In (n, o) ops -> op_ok o) ->
  aggregate_all fuel (schema_of a) ops = Some u ->
  check_docs a b (Used u) = Some ds -> (forall c, ~ In (c, Error) ds) ->
  forall n o m f t k, In (n, o) ops -> OpTouches a o (UField m f) -> HasField a m f t ->
  Defines a m k -> Defines b m k -> k = KObject \/ k = KInterface ->
  exists t', HasField b m f t' /\ Covers t t'.
Proof.
  intros a b fuel ops u ds A B RO OPS AG CK NE n o m f t k O TF T KA KB KK.
  unfold check_docs in CK. destruct (diff a b) as [l|] eqn:D; [|discriminate].
  eapply (field_kept a b A B u l ds D CK NE); eauto.
  apply (touched_counted a A fuel ops u RO OPS AG n o); auto. exact I.
Qed.

(** Whatever is reported concerns something that an operation uses. *)
Inductive Concerns (d : doc) : change -> use -> Prop :=
| cn_field n f p k : k = RemoveField \/ k = ChangeFieldType -> ~ Defines d n KInput ->
    Concerns d (mkchange (PField n f) k p) (UField n f)
| cn_new_arg n f x p : Concerns d (mkchange (PArg n f x) AddFieldArgument p) (UField n f)
| cn_arg_type n f x p : Concerns d (mkchange (PArg n f x) ChangeFieldArgumentType p) (UField n f)
| cn_arg n f x p : Concerns d (mkchange (PArg n f x) RemoveFieldArgument p) (UArg n f x)
| cn_default n f x p : Concerns d (mkchange (PArg n f x) RemoveFieldArgumentDefault p) (ULeft n f x)
| cn_impl n i p : Concerns d (mkchange (PImpl n i) RemoveInterfaceImplementation p) (UCond i n)
| cn_member n m p : Concerns d (mkchange (PField n m) RemoveUnionMember p) (UCond n m)
| cn_value n v p : Concerns d (mkchange (PField n v) RemoveEnumValue p) (UEnum n v)
| cn_object n i p : Implements d n i -> Concerns d (mkchange (PType n) RemoveObjectType p) (UCond i n)
| cn_root n f t p : IsRoot d t n -> Concerns d (mkchange (PType n) RemoveObjectType p) (UField n f)
| cn_input n f k p m g i : k = AddField \/ (k = RemoveField \/ k = ChangeFieldType) /\ Defines d n KInput ->
    ArgOf d m g i -> Reaches d (named (i_type i)) n ->
    Concerns d (mkchange (PField n f) k p) (UArg m g (i_name i)).

Lemma reported_inv : forall src target p l ds, check src target p l = Some ds ->
  forall c s, In (c, s) ds -> In c l /\ check_change src target p c = Reported s.
Proof.
  intros src target p. induction l as [|x l IH]; intros ds H c s C; cbn [check] in H.
  - injection H as <-. contradiction.
  - destruct (check_change src target p x) eqn:E; [| |discriminate].
    + destruct (check src target p l) as [es|] eqn:F; [|discriminate]. injection H as <-.
      destruct (IH es eq_refl c s C). cbn. auto.
    + destruct (check src target p l) as [es|] eqn:F; [|discriminate]. injection H as <-.
      destruct C as [[= -> ->]|C]; [cbn; auto|]. destruct (IH es eq_refl c s C). cbn. auto.
Qed.

Lemma when_reported : forall x s, when x = Reported s -> x = true.
Proof. intros []; cbn; congruence. Qed.

Lemma used_field_is : forall s u n f, used_field s (Used u) n f = true <-> counted s u (UField n f).
Proof.
  intros s u n f. unfold used_field. cbn [counted field_is_used]. split.
  - destruct (find_field s n f) as [i|]; [|discriminate]. eauto.
  - intros (i & -> & C). exact C.
Qed.

Lemma used_argument_is : forall s u n f x, used_argument s (Used u) n f x = true <-> counted s u (UArg n f x).
Proof.
  intros s u n f x. unfold used_argument. cbn [counted argument_is_used]. split.
  - destruct (find_argument s n f x) as [i|]; [|discriminate]. eauto.
  - intros (i & -> & C). exact C.
Qed.

Lemma used_left_out_is : forall s u n f x, used_left_out s (Used u) n f x = true <-> counted s u (ULeft n f x).
Proof.
  intros s u n f x. unfold used_left_out. cbn [counted argument_is_left_out]. split.
  - destruct (find_argument s n f x) as [i|]; [|discriminate]. eauto.
  - intros (i & -> & C). exact C.
Qed.

Lemma concerned : forall d target u c s, doc_ok d -> check_change (schema_of d) target (Used u) c = Reported s ->
  exists e, Concerns d c e /\ counted (schema_of d) u e.
Proof.
  intros d target u [path k p] s OK H. unfold check_change in H. cbn [c_kind c_path] in H.
  assert (INP : forall n f k', k' = AddField \/ (k' = RemoveField \/ k' = ChangeFieldType) /\ Defines d n KInput ->
            has_name n (find_used_input_types (schema_of d) (Used u)) = true ->
            exists e, Concerns d (mkchange (PField n f) k' p) e /\ counted (schema_of d) u e).
  { intros n f k' K U. apply has_name_spec in U. apply (used_input_counted d u n OK) in U.
    destruct U as (m & g & i & I0 & C & R). exists (UArg m g (i_name i)). split; [eapply cn_input; eauto|exact C]. }
  assert (NIN : forall n, has_name n (s_inputs (schema_of d)) = false -> ~ Defines d n KInput).
  { intros n E K. apply inputs_table in K. apply has_name_spec in K. congruence. }
  assert (YIN : forall n, has_name n (s_inputs (schema_of d)) = true -> Defines d n KInput).
  { intros n E. apply inputs_table. apply has_name_spec. exact E. }
  destruct k, path as [| |n|n f|n i|n f x]; try discriminate H.
  - unfold remove_object_type in H.
    destruct (existsb (fun i => type_condition_is_used (Used u) (i, n)) (iter_interface_implementations (schema_of d) n)) eqn:E.
    + apply existsb_exists in E. destruct E as (i & I0 & C). apply iter_impls_in in I0.
      exists (UCond i n). split; [apply cn_object; exact I0|exact C].
    + destruct (has_name n [s_query (schema_of d); s_mutation (schema_of d); s_subscription (schema_of d)]) eqn:HN; [|discriminate].
      apply when_reported, existsb_exists in H. destruct H as (y & _ & U). apply used_field_is in U.
      exists (UField n (sf_field y)). split; [|exact U].
      apply has_name_spec in HN. destruct HN as [<-|[<-|[<-|[]]]].
      * eapply cn_root. exact (op_root_is d Query).
      * eapply cn_root. exact (op_root_is d Mutation).
      * eapply cn_root. exact (op_root_is d Subscription).
  - apply when_reported in H. exists (UCond i n). split; [apply cn_impl|exact H].
  - unfold change_field_type in H.
    destruct (find_field (schema_of d) n f) as [i|]; [|discriminate]. destruct (find_field target n f) as [j|]; [|discriminate].
    destruct (nth_error (s_fields (schema_of d)) i) as [x|]; [|discriminate]. destruct (nth_error (s_fields target) j) as [y|]; [|discriminate].
    destruct (has_name n (s_inputs (schema_of d))) eqn:IN.
    + destruct (has_name n (find_used_input_types (schema_of d) (Used u))) eqn:U; [|discriminate]. apply INP; auto.
    + destruct (used_field (schema_of d) (Used u) n f) eqn:U; [|discriminate]. apply used_field_is in U.
      exists (UField n f). split; [apply cn_field; auto|exact U].
  - unfold remove_field in H. destruct (has_name n (s_inputs (schema_of d))) eqn:IN.
    + destruct (has_name n (find_used_input_types (schema_of d) (Used u))) eqn:U; [|discriminate]. apply INP; auto.
    + apply when_reported, used_field_is in H. exists (UField n f). split; [apply cn_field; auto|exact H].
  - unfold add_field in H. destruct (find_field target n f) as [j|]; [|discriminate].
    destruct (nth_error (s_fields target) j) as [y|]; [|discriminate]. apply when_reported, andb_true_iff in H.
    destruct H as [_ U]. apply INP; auto.
  - apply when_reported in H. exists (UCond n f). split; [apply cn_member|exact H].
  - apply when_reported in H. exists (UEnum n f). split; [apply cn_value|exact H].
  - unfold add_field_argument in H. destruct (used_field (schema_of d) (Used u) n f) eqn:U; [|discriminate].
    apply used_field_is in U. exists (UField n f). split; [apply cn_new_arg|exact U].
  - apply when_reported, used_argument_is in H. exists (UArg n f x). split; [apply cn_arg|exact H].
  - apply when_reported, used_left_out_is in H. exists (ULeft n f x). split; [apply cn_default|exact H].
  - unfold change_field_argument_type in H. destruct (used_field (schema_of d) (Used u) n f) eqn:U; [|discriminate].
    apply used_field_is in U. exists (UField n f). split; [apply cn_arg_type|exact U].
Qed.

(* C49: whatever is reported is a change that concerns something that one of the
   operations uses. *)
Theorem C49_precise : forall a b fuel ops u ds, doc_ok a -> doc_ok b -> roots_once a ->
  (forall n o, In (n, o) ops -> op_ok o) ->
  aggregate_all fuel (schema_of a) ops = Some u ->
  check_docs a b (Used u) = Some ds ->
  forall c s, In (c, s) ds -> Changed a b c /\ exists e n o, Concerns a c e /\ In (n, o) ops /\ OpTouches a o e.
Proof.
  intros a b fuel ops u ds A B RO OPS AG CK c s C. unfold check_docs in CK.
  destruct (C50_exact a b A B) as (l & D & H). rewrite D in CK.
  destruct (reported_inv _ _ _ _ _ CK c s C) as [CL V]. split; [apply H; exact CL|].
  destruct (concerned a _ u c s A V) as (e & CN & CE).
  destruct (C49_usage a fuel ops u A RO OPS AG e) as [T _]. destruct (T CE) as (n & o & O & TO).
  exists e, n, o. auto.
Qed.

(* C49: without operations there is nothing to report. *)
Theorem C49_no_operations : forall a b fuel u ds, doc_ok a -> doc_ok b -> roots_once a ->
  aggregate_all fuel (schema_of a) nil = Some u -> check_docs a b (Used u) = Some ds -> ds = nil.
Proof.
  intros a b fuel u ds A B RO AG CK. destruct ds as [|[c s] ds]; [reflexivity|].
  destruct (C49_precise a b fuel nil u _ A B RO (fun _ _ (F : False) => match F with end) AG CK c s (or_introl eq_refl))
    as (_ & e & n & o & _ & [] & _).
Qed.

(** Without usage data, everything counts as used. *)

(* Arguments have input types. *)
Definition inputs_only (d : doc) : Prop := forall m g i n k, ArgOf d m g i -> Reaches d (named (i_type i)) n ->
  Defines d n k -> k = KInput \/ k = KEnum \/ k = KScalar.

Lemma all_used_inputs : forall d u n, doc_ok d -> inputs_only d ->
  has_name n (find_used_input_types (schema_of d) (Used u)) = true ->
  forall k, Defines d n k -> k <> KEnum -> k <> KScalar -> has_name n (find_used_input_types (schema_of d) AllUsed) = true.
Proof.
  intros d u n OK IO H k K NE NS. apply has_name_spec in H. apply (used_input_counted d u n OK) in H.
  destruct H as (m & g & i & I0 & _ & R). apply has_name_spec. cbn [find_used_input_types]. apply inputs_table.
  destruct (IO m g i n k I0 R K) as [->|[-> | ->]]; [exact K|congruence|congruence].
Qed.

(* C49: whatever is reported for some operations is reported when everything
   counts as used, with the same severity. *)
Theorem C49_all_used : forall a b u ds es, doc_ok a -> doc_ok b -> inputs_only a ->
  check_docs a b (Used u) = Some ds -> check_docs a b AllUsed = Some es -> incl ds es.
Proof.
  intros a b u ds es A B IO CK CK' [c s] C. unfold check_docs in CK, CK'.
  destruct (C50_exact a b A B) as (l & D & H). rewrite D in CK, CK'.
  destruct (reported_inv _ _ _ _ _ CK c s C) as [CL V].
  apply (reported_in (schema_of a) (schema_of b) AllUsed l es CK' c s CL).
  apply H in CL. clear - A B IO V CL.
  assert (UF : forall n f, used_field (schema_of a) (Used u) n f = true -> used_field (schema_of a) AllUsed n f = true).
  { intros n f. unfold used_field. destruct (find_field (schema_of a) n f); auto. }
  assert (UA : forall n f x, used_argument (schema_of a) (Used u) n f x = true -> used_argument (schema_of a) AllUsed n f x = true).
  { intros n f x. unfold used_argument. destruct (find_argument (schema_of a) n f x); auto. }
  assert (UL : forall n f x, used_left_out (schema_of a) (Used u) n f x = true -> used_left_out (schema_of a) AllUsed n f x = true).
  { intros n f x. unfold used_left_out. destruct (find_argument (schema_of a) n f x); auto. }
  assert (UW : forall x y, (x = true -> y = true) -> when x = Reported s -> when y = Reported s).
  { intros [] [] W; cbn; auto; [|discriminate]. specialize (W eq_refl). discriminate. }
  destruct c as [path k p]. unfold check_change in *. cbn [c_kind c_path] in *.
  destruct k, path as [| |n|n f|n i|n f x]; try discriminate V.
  - unfold remove_object_type in *.
    destruct (existsb (fun i => type_condition_is_used (Used u) (i, n)) (iter_interface_implementations (schema_of a) n)) eqn:E.
    + destruct (iter_interface_implementations (schema_of a) n) as [|i is]; [discriminate|exact V].
    + destruct (has_name n [s_query (schema_of a); s_mutation (schema_of a); s_subscription (schema_of a)]) eqn:HN; [|discriminate].
      assert (V' : when (existsb (fun y => used_field (schema_of a) AllUsed n (sf_field y)) (iter_fields (schema_of a) n)) = Reported s).
      { apply (UW (existsb (fun y => used_field (schema_of a) (Used u) n (sf_field y)) (iter_fields (schema_of a) n))); [|exact V].
        rewrite !existsb_exists. intros (y & Y & W). exists y. auto. }
      assert (SE : s = Error) by (destruct (existsb (fun y => used_field (schema_of a) AllUsed n (sf_field y)) (iter_fields (schema_of a) n)); cbn in V'; congruence).
      destruct (existsb (fun i => type_condition_is_used AllUsed (i, n)) (iter_interface_implementations (schema_of a) n)); [subst s; reflexivity|exact V'].
  - unfold remove_interface_implementation in *. cbn [type_condition_is_used] in *. eapply UW; [|exact V]. auto.
  - unfold change_field_type in *.
    destruct (find_field (schema_of a) n f) as [i|] eqn:FI; [|discriminate]. destruct (find_field (schema_of b) n f) as [j|]; [|discriminate].
    destruct (nth_error (s_fields (schema_of a)) i) as [x|]; [|discriminate]. destruct (nth_error (s_fields (schema_of b)) j) as [y|]; [|discriminate].
    destruct (has_name n (s_inputs (schema_of a))) eqn:IN.
    + cbn [find_used_input_types]. rewrite IN.
      destruct (has_name n (find_used_input_types (schema_of a) (Used u))); [exact V|discriminate].
    + destruct (used_field (schema_of a) (Used u) n f) eqn:U; [|discriminate]. rewrite (UF n f U). exact V.
  - unfold remove_field in *. destruct (has_name n (s_inputs (schema_of a))) eqn:IN.
    + cbn [find_used_input_types]. rewrite IN.
      destruct (has_name n (find_used_input_types (schema_of a) (Used u))); [exact V|discriminate].
    + eapply UW; [|exact V]. apply UF.
  - unfold add_field in *. destruct (find_field (schema_of b) n f) as [j|]; [|discriminate].
    destruct (nth_error (s_fields (schema_of b)) j) as [y|]; [|discriminate].
    eapply UW; [|exact V]. rewrite !andb_true_iff. intros [W U]. split; [exact W|].
    assert (K : exists k, Defines a n k /\ k <> KEnum /\ k <> KScalar).
    { inversion CL; subst;
        repeat match goal with E : ?g ?k = AddField |- _ => lazymatch g with add_member_kind => fail | _ => destruct k; discriminate E end end.
      match goal with KA : Defines a n ?k, KB : Defines b n ?k, M : Member b n f ?t p |- _ =>
        exists k; split; [exact KA|]; destruct (member_defines b n f t p M) as (j' & J & NS & _ & _);
        rewrite (kind_unique b n j' k B J KB) in NS; split; [|exact NS]; intros ->; discriminate end. }
    destruct K as (k & K & N1 & N2). exact (all_used_inputs a u n A IO U k K N1 N2).
  - unfold remove_union_member in *. cbn [type_condition_is_used] in *. eapply UW; [|exact V]. auto.
  - unfold remove_enum_value in *. cbn [enum_value_is_used] in *. eapply UW; [|exact V]. auto.
  - unfold add_field_argument in *. destruct (used_field (schema_of a) (Used u) n f) eqn:U; [|discriminate].
    rewrite (UF n f U). exact V.
  - eapply UW; [|exact V]. apply UA.
  - eapply UW; [|exact V]. apply UL.
  - unfold change_field_argument_type in *. destruct (used_field (schema_of a) (Used u) n f) eqn:U; [|discriminate].
    rewrite (UF n f U).
    assert (O : when (used_argument (schema_of a) (Used u) n f x) = Reported s -> when (used_argument (schema_of a) AllUsed n f x) = Reported s).
    { apply UW. apply UA. }
    destruct (find_argument (schema_of a) n f x) as [i|]; [|auto].
    destruct (nth_error (s_args (schema_of a)) i) as [y|]; [|discriminate]. destruct (nth_error (s_args (schema_of b)) i) as [z|]; [|discriminate].
    destruct (negb (String.eqb (sa_base y) (sa_base z))); [auto|].
    destruct (compare_wrapping (sa_wrap y) (sa_wrap z)); auto.
Qed.

(** The recursion over fragments ends for valid operations. *)
Lemma fold_ends : forall A B (f : nat -> A -> B -> option A) l,
  (forall x, In x l -> exists k, forall k' u, k <= k' -> exists u', f k' u x = Some u') ->
  exists k, forall k' u, k <= k' -> exists u', fold_option (f k') l u = Some u'.
Proof.
  intros A B f. induction l as [|x l IH]; intros H.
  - exists 0. intros k' u _. exists u. reflexivity.
  - destruct (H x (or_introl eq_refl)) as (k1 & H1). destruct IH as (k2 & H2); [intros y Y; apply H; right; exact Y|].
    exists (k1 + k2). intros k' u K. destruct (H1 k' u) as (u1 & E1); [lia|]. destruct (H2 k' u1) as (u2 & E2); [lia|].
    exists u2. cbn [fold_option]. rewrite E1. exact E2.
Qed.

Lemma find_fragment_in : forall (fs : fragments) x on sub, NoDup (map fst fs) -> In (x, (on, sub)) fs -> find_fragment x fs = Some (on, sub).
Proof.
  induction fs as [|[y q] fs IH]; intros x on sub ND H; [contradiction|]. cbn [map fst] in ND. inversion ND as [|? ? NI ND']; subst.
  unfold find_fragment. cbn [find fst]. destruct H as [[= -> ->]|H]; [rewrite String.eqb_refl; reflexivity|].
  destruct (String.eqb y x) eqn:E; [|exact (IH x on sub ND' H)].
  apply String.eqb_eq in E. subst. exfalso. apply NI. apply in_map_iff. exists (x, (on, sub)). auto.
Qed.

Lemma selection_ends : forall d fs ok n x, doc_ok d -> NoDup (map fst fs) -> ValidSel d fs ok n x ->
  exists k, forall k' u, k <= k' -> exists u', aggregate_selection k' (schema_of d) fs n u x = Some u'.
Proof.
  intros d fs ok n x OK ND V.
  induction V as [n SE|n f args sub t KN T AR RE SU VS IH|n z on sub F SE CS PL VS IH|n on sub SE CS PL VS IH|n sub VS IH].
  - exists 1. intros [|k'] u K; [lia|]. cbn [aggregate_selection].
    destruct (find_field (schema_of d) n "__typename") as [i|]; [|eauto]. destruct (nth_error (s_fields (schema_of d)) i); [|eauto].
    cbn [fold_option option_map]. eauto.
  - apply (fold_ends _ _ (fun k => aggregate_selection k (schema_of d) fs (named t))) in IH. destruct IH as (k & H).
    exists (S k). intros [|k'] u K; [lia|]. cbn [aggregate_selection].
    destruct (find_field_has d n f t OK T) as (i & FI & NI). rewrite FI, NI. cbn [sf_base].
    edestruct (H k') as (u' & E); [lia|]. rewrite E. cbn [option_map]. eauto.
  - apply (fold_ends _ _ (fun k => aggregate_selection k (schema_of d) fs on)) in IH. destruct IH as (k & H).
    exists (S k). intros [|k'] u K; [lia|]. cbn [aggregate_selection]. rewrite (find_fragment_in fs z on sub ND F). apply H. lia.
  - apply (fold_ends _ _ (fun k => aggregate_selection k (schema_of d) fs on)) in IH. destruct IH as (k & H).
    exists (S k). intros [|k'] u K; [lia|]. cbn [aggregate_selection]. apply H. lia.
  - apply (fold_ends _ _ (fun k => aggregate_selection k (schema_of d) fs n)) in IH. destruct IH as (k & H).
    exists (S k). intros [|k'] u K; [lia|]. cbn [aggregate_selection]. apply H. lia.
Qed.

(* C49: the usage of valid operations is found by a recursion that ends. *)
Theorem C49_terminates : forall d ops, doc_ok d -> roots_once d ->
  (forall n o, In (n, o) ops -> op_ok o /\ exists ok, ValidOpWith ok d o) ->
  exists k, forall k', k <= k' -> exists u, aggregate_all k' (schema_of d) ops = Some u.
Proof.
  intros d ops OK RO H.
  assert (O : exists k, forall k' u, k <= k' -> exists u', fold_option (fun u p => aggregate k' (schema_of d) (set_increment (fst p) u) (snd p)) ops u = Some u').
  { apply (fold_ends _ _ (fun k u p => aggregate k (schema_of d) (set_increment (fst p) u) (snd p))).
    intros [n o] IN. destruct (H n o IN) as (OO & ok & r & R & _ & SE & _).
    assert (G : exists k, forall k' u, k <= k' -> exists u', fold_option (aggregate_selection k' (schema_of d) (o_fragments o) (op_root (schema_of d) (o_type o))) (o_root o) u = Some u').
    { apply (fold_ends _ _ (fun k => aggregate_selection k (schema_of d) (o_fragments o) (op_root (schema_of d) (o_type o)))).
      intros x X. rewrite <- (RO _ _ _ R (op_root_is d (o_type o))). eapply selection_ends; eauto. }
    destruct G as (k & G). exists k. intros k' u K. unfold aggregate. cbn [fst snd]. apply G. exact K. }
  destruct O as (k & O). exists k. intros k' K. exact (O k' no_usage K).
Qed.
