(* The operation checks do not miss what breaks an operation, within limits (C49). *)
From Coq Require Import String List Bool Arith NArith Lia Sorted.
Import ListNotations.
From Verif.SchemaDiff Require Import Ast Search Diff MapFacts DocFacts DiffProps PatchFacts.
From Verif.Checks Require Import Model Spec Facts Usage.
Local Open Scope string_scope.
Local Open Scope list_scope.

Lemma quiet : forall src target p l ds, check src target p l = Some ds ->
  (forall c, ~ In (c, Error) ds) ->
  forall c, In c l -> check_change src target p c <> Panics /\ check_change src target p c <> Reported Error.
Proof.
  intros src target p. induction l as [|x l IH]; intros ds H N c C; [contradiction|].
  cbn [check] in H. destruct (check_change src target p x) eqn:E; [| |discriminate].
  - destruct (check src target p l) as [es|] eqn:F; [|discriminate]. injection H as <-.
    destruct C as [->|C]; [rewrite E; split; discriminate|]. apply (IH es); auto.
  - destruct (check src target p l) as [es|] eqn:F; [|discriminate]. injection H as <-.
    destruct C as [->|C].
    + rewrite E. split; [discriminate|]. intros [= ->]. apply (N c). left. reflexivity.
    + apply (IH es); auto. intros z Z. apply (N z). right. exact Z.
Qed.

(** Tables with the same keys. *)
Lemma sorted_same : forall A (R : A -> A -> Prop), (forall x y, R x y -> R y x -> False) ->
  forall l m, StronglySorted R l -> StronglySorted R m -> (forall x, In x l <-> In x m) -> l = m.
Proof.
  intros A R ANTI. assert (IRR : forall x, R x x -> False) by (intros x X; exact (ANTI x x X X)).
  induction l as [|x l IH]; intros m L M E.
  - destruct m as [|y m]; [reflexivity|]. exfalso. apply (E y). left. reflexivity.
  - destruct m as [|y m]; [exfalso; apply (E x); left; reflexivity|].
    inversion L as [|? ? SL FL]; subst. inversion M as [|? ? SM FM]; subst. rewrite Forall_forall in FL, FM.
    assert (x = y).
    { destruct (proj1 (E x) (or_introl eq_refl)) as [->|X]; [reflexivity|].
      destruct (proj2 (E y) (or_introl eq_refl)) as [->|Y]; [reflexivity|].
      exfalso. exact (ANTI y x (FM x X) (FL y Y)). }
    subst. f_equal. apply IH; auto. intros z. split; intros Z.
    + destruct (proj1 (E z) (or_intror Z)) as [<-|Z']; [exfalso; exact (IRR _ (FL _ Z))|exact Z'].
    + destruct (proj2 (E z) (or_intror Z)) as [<-|Z']; [exfalso; exact (IRR _ (FM _ Z))|exact Z'].
Qed.

Lemma map_sort : forall A B (f : A -> B) (la : A -> A -> bool) (lb : B -> B -> bool),
  (forall x y, la x y = lb (f x) (f y)) -> forall l, map f (sort la l) = sort lb (map f l).
Proof.
  intros A B f la lb H.
  assert (INS : forall x l, map f (insert la x l) = insert lb (f x) (map f l)).
  { intros x l. induction l as [|y l IH]; cbn; [reflexivity|]. rewrite H. destruct (lb (f x) (f y)); cbn; congruence. }
  induction l as [|x l IH]; [reflexivity|]. cbn [map]. change (map f (insert la x (sort la l)) = insert lb (f x) (sort lb (map f l))).
  rewrite INS, IH. reflexivity.
Qed.

Lemma nodup_app : forall A (l m : list A), NoDup l -> NoDup m -> (forall x, In x l -> ~ In x m) -> NoDup (l ++ m).
Proof.
  intros A l m L M H. induction L as [|x l NI L IH]; [exact M|]. cbn. constructor.
  - rewrite in_app_iff. intros [X|X]; [contradiction|]. apply (H x); cbn; auto.
  - apply IH. intros y Y. apply H. cbn. auto.
Qed.

Lemma strictly : forall A (R Q : A -> A -> Prop) l, (forall x y, R x y -> x <> y -> Q x y) -> NoDup l ->
  StronglySorted R l -> StronglySorted Q l.
Proof.
  intros A R Q l H ND S. induction S as [|x l S IH F]; [constructor|].
  inversion ND as [|? ? NI ND']; subst. constructor; [auto|]. rewrite Forall_forall in *.
  intros y Y. apply H; [auto|]. intros ->. contradiction.
Qed.

Lemma args_nodup : forall d, doc_ok d -> NoDup (map arg_key (flat_map table_args (flat_map tdefs_of d))).
Proof.
  intros d OK.
  assert (E : flat_map tdefs_of d = tdefs d).
  { unfold tdefs. apply flat_map_ext. intros []; reflexivity. }
  rewrite E.
  assert (M : forall ts, map arg_key (flat_map table_args ts) =
                         map fst (flat_map (fun t => map (fun x => (arg_key x, x)) (table_args t)) ts)).
  { induction ts as [|t ts IH]; cbn; [reflexivity|]. rewrite !map_app, IH, map_map. reflexivity. }
  rewrite M. eapply (flat_map_keys _ _ _ (fun k => fst (fst k))).
  - apply tdefs_names. apply ok_names. exact OK.
  - intros t k v T K. apply in_map_iff in K. destruct K as (x & [= <- <-] & X).
    destruct t as [n|n impls fs|n impls fs|n vs|n vs|n fs]; cbn in X; try contradiction.
    apply in_flat_map in X. destruct X as (y & Y & X). apply in_map_iff in X. destruct X as (i & <- & _).
    rewrite to_arg_eq. reflexivity.
  - intros t T. apply tdefs_in in T. pose proof (type_ok d t OK T) as TK. rewrite map_map. cbn [fst].
    destruct t as [n|n impls fs|n impls fs|n vs|n vs|n fs]; cbn [table_args map]; try constructor.
    cbn in TK. destruct TK as (_ & ND & FO). clear - ND FO. induction fs as [|x fs IH]; [constructor|].
    cbn [flat_map]. rewrite map_app. cbn [map] in ND. inversion ND as [|? ? NI ND']; subst. inversion FO as [|? ? XO FO']; subst.
    apply nodup_app.
    + rewrite map_map. unfold field_ok in XO.
      assert (EQ : map (fun i => arg_key (to_arg n (f_name x) i)) (f_args x) = map (fun a => (n, f_name x, a)) (map i_name (f_args x))).
      { rewrite map_map. apply map_ext. intros i. rewrite to_arg_eq. reflexivity. }
      rewrite EQ. apply FinFun.Injective_map_NoDup; [|exact XO]. intros p q [= ->]. reflexivity.
    + apply IH; assumption.
    + intros k K1 K2. apply NI. rewrite map_map in K1. apply in_map_iff in K1. destruct K1 as (i & <- & _).
      rewrite to_arg_eq in K2. apply in_map_iff in K2. destruct K2 as (y & EY & Y). apply in_flat_map in Y.
      destruct Y as (z & Z & Y). apply in_map_iff in Y. destruct Y as (j & <- & _). rewrite to_arg_eq in EY. cbn in EY.
      injection EY as E1 _. rewrite <- E1. apply in_map. exact Z.
Qed.

Lemma aligned : forall a b, doc_ok a -> doc_ok b ->
  (forall n f x, (exists i, ArgOf a n f i /\ i_name i = x) <-> (exists i, ArgOf b n f i /\ i_name i = x)) ->
  map arg_key (s_args (schema_of a)) = map arg_key (s_args (schema_of b)).
Proof.
  intros a b A B H. cbn [s_args schema_of].
  set (leb := fun x y => not_gt (cmp3 x y)).
  assert (M : forall d, map arg_key (sort (fun x y => not_gt (cmp3 (arg_key x) (arg_key y))) (flat_map table_args (flat_map tdefs_of d))) =
                        sort leb (map arg_key (flat_map table_args (flat_map tdefs_of d)))).
  { intros d. apply map_sort. reflexivity. }
  rewrite !M.
  assert (ST : forall l, NoDup l -> StronglySorted (fun x y => cmp3 x y = Lt) (sort leb l)).
  { intros l ND. eapply strictly; [| |exact (table_sorted (fun x => x) leb (fun _ _ => eq_refl) l)].
    - intros x y XY NE. cbv beta in XY. unfold leb in XY. apply not_gt_spec in XY.
      destruct (cmp3 x y) eqn:E; [apply cmp3_eq in E; contradiction|reflexivity|contradiction].
    - eapply Permutation.Permutation_NoDup; [apply sort_perm|exact ND]. }
  apply (sorted_same _ (fun x y => cmp3 x y = Lt)).
  - intros x y X Y. rewrite cmp3_flip, Y in X. discriminate.
  - apply ST. apply args_nodup. exact A.
  - apply ST. apply args_nodup. exact B.
  - assert (K : forall d k, In k (map arg_key (flat_map table_args (flat_map tdefs_of d))) <->
       exists i, ArgOf d (fst (fst k)) (snd (fst k)) i /\ i_name i = snd k).
    { intros d [[n f] q]. rewrite in_map_iff. cbn [fst snd]. split.
      - intros (x & EX & X). apply args_table in X. destruct X as (n' & f' & i & X & ->). cbn in EX.
        injection EX as -> -> <-. eauto.
      - intros (i & X & <-). eexists. split; [|apply args_table; eauto 6]. reflexivity. }
    intros [[n f] q]. rewrite !sort_in, !K. apply H.
Qed.

Section Sound.
  Context (a b : doc) (A : doc_ok a) (B : doc_ok b) (CB : comparable a b).
  Context (u : usage) (l : list change) (ds : list (change * severity)).
  Context (D : diff a b = Some l) (CK : check (schema_of a) (schema_of b) (Used u) l = Some ds)
    (NE : forall c, ~ In (c, Error) ds).

  Let sa := schema_of a.
  Let sb := schema_of b.

  Lemma silent : forall c, Changed a b c ->
    check_change sa sb (Used u) c <> Panics /\ check_change sa sb (Used u) c <> Reported Error.
  Proof.
    intros c C. destruct (C50_exact a b A B) as (l' & D' & H). rewrite D in D'. injection D' as <-.
    apply (quiet sa sb (Used u) l ds CK NE). apply H. exact C.
  Qed.

  Lemma when_error : forall x, when x <> Reported Error -> x = false.
  Proof. intros []; cbn; congruence. Qed.

  Lemma used_field_counted : forall n f, counted sa u (UField n f) -> used_field sa (Used u) n f = true.
  Proof. intros n f (i & F & C). unfold used_field. rewrite F. exact C. Qed.

  Lemma used_argument_counted : forall n f q, counted sa u (UArg n f q) -> used_argument sa (Used u) n f q = true.
  Proof. intros n f q (i & F & C). unfold used_argument. rewrite F. exact C. Qed.

  Definition kept (n : string) : Prop := exists k, Defines a n k /\ Defines b n k.

  Lemma defines_kept : forall n j k, Defines a n j -> Defines b n k -> kept n.
  Proof. intros n j k J K. exists j. split; [exact J|]. rewrite (cb_kinds a b CB n j k J K). exact K. Qed.

  Lemma kept_kind : forall n k, kept n -> Defines a n k -> Defines b n k.
  Proof. intros n k (j & J & JB) K. rewrite (kind_unique a n k j A K J). exact JB. Qed.

  Lemma not_input : forall n k, Defines a n k -> k <> KInput -> has_name n (s_inputs sa) = false.
  Proof.
    intros n k K NK. destruct (has_name n (s_inputs sa)) eqn:E; [|reflexivity].
    apply has_name_spec in E. apply inputs_table in E. rewrite (kind_unique a n k KInput A K E) in NK. contradiction.
  Qed.

  Lemma output_member : forall d n f t p k, doc_ok d -> Defines d n k -> k = KObject \/ k = KInterface -> Member d n f t p ->
    exists t', t = Some t' /\ HasField d n f t'.
  Proof.
    intros d n f t p k OK K KK M. destruct (member_defines d n f t p M) as (j & J & _ & _ & W).
    rewrite (kind_unique d n j k OK J K) in W.
    destruct t as [t|]; [exists t; split; [reflexivity|apply field_member; eauto]|].
    destruct W as [[_ W]|[[W|W] _]]; [congruence| |]; destruct KK; congruence.
  Qed.

  Lemma field_kept : forall n k f t, Defines a n k -> Defines b n k -> k = KObject \/ k = KInterface ->
    HasField a n f t -> counted sa u (UField n f) -> exists t', HasField b n f t' /\ Covers t t'.
  Proof.
    intros n k f t KA KB KK T C. apply used_field_counted in C.
    assert (IN : has_name n (s_inputs sa) = false) by (apply (not_input n k KA); destruct KK; subst; discriminate).
    destruct (fields_last b n f B) as [(ot & p & _ & M)|(_ & NM)].
    - destruct (output_member b n f ot p k B KB KK M) as (t' & -> & T').
      exists t'. split; [exact T'|].
      destruct (ty_eqb t t') eqn:E; [apply ty_eqb_spec in E; subst; apply covers_refl|].
      assert (t <> t') by (intros ->; rewrite ty_eqb_refl in E; discriminate).
      destruct (silent _ (ch_field_type a b n f k t t' KA KB T T' H)) as [_ S].
      cbn [check_change c_kind c_path] in S. unfold change_field_type in S.
      destruct (find_field_has a n f t A T) as (i & FI & NI). destruct (find_field_has b n f t' B T') as (j & FJ & NJ).
      unfold sa, sb in S. rewrite FI, FJ, NI, NJ in S. fold sa in S. rewrite IN, C in S. cbn [sf_base sf_wrap] in S.
      destruct (String.eqb (named t) (named t')) eqn:EN; cbn [negb] in S; [|congruence].
      apply String.eqb_eq in EN. apply covers_spec. split; [exact EN|]. apply compare_ups. unfold ups.
      destruct (compare_wrapping (wrap t) (wrap t')); auto; congruence.
    - exfalso. apply field_member in T. destruct T as (p & T).
      assert (M : is_member a n f) by (red; eauto).
      destruct (silent _ (ch_remove_member a b n f k KA KB M NM)) as [_ S].
      assert (RK : remove_member_kind k = RemoveField) by (destruct KK; subst; reflexivity).
      rewrite RK in S. cbn [check_change c_kind c_path] in S. unfold remove_field in S. rewrite IN, C in S. apply S. reflexivity.
  Qed.

  (* Arguments are those of objects. *)
  Lemma arg_of : forall d n f i, d = a \/ d = b -> HasArg d n f i -> ArgOf d n f i.
  Proof.
    intros d n f i W H. destruct H as [impls fs x i T X E I0|impls fs x i T X E I0].
    - exists impls, fs, x. auto.
    - rewrite (cb_interfaces a b CB d n impls fs x W T X) in I0. contradiction.
  Qed.

  (* The change of the type of an argument is not reported. *)
  Lemma arg_type : forall n f x y, ArgOf a n f x -> ArgOf b n f y -> i_name x = i_name y -> i_type x <> i_type y ->
    counted sa u (UField n f) ->
    (* the rule looks at the two arguments *)
    if String.eqb (named (i_type x)) (named (i_type y)) then
      match compare_wrapping (wrap (i_type x)) (wrap (i_type y)) with
      | RemovedNonNull => True
      | AddedNonNull => has_default y = true
      | NoChange | NotCompatible => used_argument sa (Used u) n f (i_name x) = false
      end
    else used_argument sa (Used u) n f (i_name x) = false.
  Proof.
    intros n f x y X Y E NT C. apply used_field_counted in C.
    destruct (silent _ (ch_arg_type a b n f x y (object_arg _ _ _ _ X) (object_arg _ _ _ _ Y) E NT)) as [SP S].
    cbn [check_change c_kind c_path] in SP, S. rewrite <- E in SP, S. unfold change_field_argument_type in SP, S. rewrite C in SP, S.
    destruct (find_argument_has a n f x A X) as (i & FI & NI). destruct (find_argument_has b n f y B Y) as (j & FJ & NJ).
    assert (NY : nth_error (s_args sb) i = Some (mksarg n f (i_name y) (named (i_type y)) (wrap (i_type y)) (has_default y))).
    { destruct (cb_args a b CB) as [AL|AL]; [|exfalso; exact (NT (AL n f x y X Y E))].
      pose proof (aligned a b A B AL) as AK. fold sa sb in AK.
      assert (KI : nth_error (map arg_key (s_args sa)) i = Some (n, f, i_name x)).
      { unfold sa. rewrite nth_error_map, NI. reflexivity. }
      rewrite AK, nth_error_map in KI. destruct (nth_error (s_args sb) i) as [z|] eqn:Z; [|discriminate].
      cbn [option_map] in KI. assert (KJ : arg_key z = (n, f, i_name x)) by congruence. clear KI.
      assert (ZI : In z (s_args sb)) by (eapply nth_error_In; exact Z).
      apply sort_in in ZI. apply args_table in ZI. destruct ZI as (n' & f' & y' & Y' & ->).
      cbn in KJ. injection KJ as -> -> EY.
      rewrite (arg_unique b n f y y' B (object_arg _ _ _ _ Y) (object_arg _ _ _ _ Y')) by congruence. reflexivity. }
    unfold sa in SP, S. rewrite FI, NI in SP, S. fold sa in SP, S. rewrite NY in SP, S. cbn [sa_base sa_wrap sa_default] in SP, S.
    destruct (String.eqb (named (i_type x)) (named (i_type y))); cbn [negb] in SP, S.
    - destruct (compare_wrapping (wrap (i_type x)) (wrap (i_type y))).
      + apply when_error. exact S.
      + trivial.
      + apply when_error in S. destruct (has_default y); [reflexivity|discriminate].
      + apply when_error. exact S.
    - apply when_error. exact S.
  Qed.

  Lemma arg_dec : forall d n f q, doc_ok d -> (exists x, HasArg d n f x /\ i_name x = q) \/ (forall x, HasArg d n f x -> i_name x <> q).
  Proof.
    intros d n f q OK. destruct (args_last d n f q OK) as [(x & _ & X & E)|(_ & N)]; eauto.
  Qed.

  (* An argument that is given is still there, with a type of the same name. *)
  Lemma given_arg : forall n f x, is_member b n f -> HasArg a n f x -> counted sa u (UField n f) -> counted sa u (UArg n f (i_name x)) ->
    exists y, HasArg b n f y /\ i_name y = i_name x /\ named (i_type y) = named (i_type x).
  Proof.
    intros n f x M X C CA. destruct (arg_dec b n f (i_name x) B) as [(y & Y & E)|N].
    - exists y. split; [exact Y|]. split; [exact E|].
      destruct (ty_eqb (i_type x) (i_type y)) eqn:ET; [apply ty_eqb_spec in ET; congruence|].
      assert (NT : i_type x <> i_type y) by (intros EQ; rewrite EQ, ty_eqb_refl in ET; discriminate).
      pose proof (arg_type n f x y (arg_of a n f x (or_introl eq_refl) X) (arg_of b n f y (or_intror eq_refl) Y) (eq_sym E) NT C) as G.
      apply used_argument_counted in CA. rewrite CA in G.
      destruct (String.eqb (named (i_type x)) (named (i_type y))) eqn:EN; [|discriminate].
      apply String.eqb_eq in EN. congruence.
    - exfalso. destruct (silent _ (ch_remove_arg a b n f x M X N)) as [_ S].
      cbn [check_change c_kind c_path] in S. unfold remove_field_argument in S.
      apply used_argument_counted in CA. rewrite CA in S. apply S. reflexivity.
  Qed.

  (* An argument that has to be given had to be given before. *)
  Lemma required_arg : forall n f y, is_member a n f -> counted sa u (UField n f) -> HasArg b n f y -> Required y ->
    exists x, HasArg a n f x /\ i_name x = i_name y /\ Required x.
  Proof.
    intros n f y M C Y [NY DY]. pose proof (arg_of b n f y (or_intror eq_refl) Y) as YO.
    destruct (arg_dec a n f (i_name y) A) as [(x & X & E)|N].
    - exists x. split; [exact X|]. split; [exact E|].
      pose proof (arg_of a n f x (or_introl eq_refl) X) as XO.
      assert (NX : nonnull (i_type x)).
      { destruct (ty_eqb (i_type x) (i_type y)) eqn:ET; [apply ty_eqb_spec in ET; rewrite ET; exact NY|].
        assert (NT : i_type x <> i_type y) by (intros EQ; rewrite EQ, ty_eqb_refl in ET; discriminate).
        pose proof (arg_type n f x y XO YO E NT C) as G.
        assert (ND : has_default y <> true) by (rewrite has_default_spec; rewrite DY; congruence).
        apply is_nonnull_wrap. apply is_nonnull_wrap in NY.
        destruct (cb_required a b CB n f x y XO YO E (conj (proj1 (is_nonnull_wrap _) NY) DY)) as [K|K]; apply covers_spec in K; destruct K as [EN W].
        - rewrite EN, String.eqb_refl in G. pose proof (proj2 (compare_ups _ _) W) as U.
          destruct U as [U|U]; [|rewrite U in G; contradiction].
          assert (W' : wle (wrap (i_type y)) (wrap (i_type x))) by (apply compare_downs; left; exact U).
          exact (wle_nonnull _ _ W' NY).
        - exact (wle_nonnull _ _ W NY). }
      split; [exact NX|]. destruct (i_default x) eqn:DX; [|reflexivity].
      exfalso. apply (cb_defaults a b CB n f x y XO YO E NX); congruence.
    - exfalso. destruct (silent _ (ch_add_arg a b n f y M N Y)) as [SP S].
      cbn [check_change c_kind c_path] in SP, S. unfold add_field_argument in SP, S.
      apply used_field_counted in C. rewrite C in SP, S.
      destruct (find_argument_has b n f y B YO) as (j & FJ & NJ). unfold sb in S. rewrite FJ, NJ in S. cbn [sa_wrap sa_default] in S.
      apply is_nonnull_wrap in NY. unfold has_default in S. rewrite NY, DY in S. apply S. reflexivity.
  Qed.

  Lemma enum_kept : forall n v, Defines a n KEnum -> Defines b n KEnum -> HasValue a n v -> counted sa u (UEnum n v) -> HasValue b n v.
  Proof.
    intros n v KA KB V C. destruct (fields_last b n v B) as [(t & p & _ & M)|(_ & NM)].
    - destruct (member_defines b n v t p M) as (j & J & _ & _ & W). rewrite (kind_unique b n j KEnum B J KB) in W.
      apply value_member. destruct W as [[[W|[W|W]] _]|[_ ->]]; try discriminate. eauto.
    - exfalso. apply value_member in V. destruct V as (p & V). assert (M : is_member a n v) by (red; eauto).
      destruct (silent _ (ch_remove_member a b n v KEnum KA KB M NM)) as [_ S].
      cbn [check_change c_kind c_path remove_member_kind] in S. unfold remove_enum_value in S. cbn [enum_value_is_used] in S.
      cbn [counted] in C. rewrite C in S. apply S. reflexivity.
  Qed.

  (* An object that an inline fragment picks is still one of the objects. *)
  Lemma picked : forall n o, kept n -> Possible a n o -> counted sa u (UCond n o) -> Possible b n o /\ kept o.
  Proof.
    intros n o KN P C. destruct P as [K|o K KO IM|o K KO V].
    - pose proof (kept_kind n _ KN K) as KB. split; [apply po_object; exact KB|exact KN].
    - pose proof (kept_kind n _ KN K) as KB.
      destruct (defines_dec b o KObject B) as [OB|NB].
      + split; [|exists KObject; auto]. apply po_interface; auto.
        destruct (implements_dec b o n B) as [IB|NI]; [exact IB|]. exfalso.
        destruct (silent _ (ch_remove_impl a b o n (or_introl KO) (or_introl OB) IM NI)) as [_ S].
        cbn [check_change c_kind c_path] in S. unfold remove_interface_implementation in S. cbn [type_condition_is_used] in S.
        cbn [counted] in C. rewrite C in S. apply S. reflexivity.
      + exfalso. destruct (silent _ (ch_remove_type a b o KObject KO NB)) as [_ S].
        cbn [check_change c_kind c_path remove_kind] in S. unfold remove_object_type in S.
        assert (EX : existsb (fun i => type_condition_is_used (Used u) (i, o)) (iter_interface_implementations sa o) = true).
        { apply existsb_exists. exists n. split; [apply iter_impls_in; exact IM|exact C]. }
        rewrite EX in S. apply S. reflexivity.
    - pose proof (kept_kind n _ KN K) as KB.
      assert (V' : HasValue b n o).
      { destruct (fields_last b n o B) as [(t & p & _ & M)|(_ & NM)].
        - destruct (member_defines b n o t p M) as (j & J & _ & _ & W). rewrite (kind_unique b n j KUnion B J KB) in W.
          apply value_member. destruct W as [[[W|[W|W]] _]|[_ ->]]; try discriminate. eauto.
        - exfalso. apply value_member in V. destruct V as (p & V). assert (M : is_member a n o) by (red; eauto).
          destruct (silent _ (ch_remove_member a b n o KUnion K KB M NM)) as [_ S].
          cbn [check_change c_kind c_path remove_member_kind] in S. unfold remove_union_member in S. cbn [type_condition_is_used] in S.
          cbn [counted] in C. rewrite C in S. apply S. reflexivity. }
      destruct (cb_members a b CB n o KB V') as (j & J). pose proof (defines_kept o _ _ KO J) as KO'.
      split; [|exact KO']. apply po_union; auto. exact (kept_kind o _ KO' KO).
  Qed.

  Lemma kept_selectable : forall n, kept n -> Selectable a n -> Selectable b n.
  Proof.
    intros n K [H|[H|H]]; [left|right; left|right; right]; exact (kept_kind n _ K H).
  Qed.

  Lemma selectable_kept : forall n, kept n -> Selectable b n -> Selectable a n.
  Proof.
    intros n (k & KA & KB) [H|[H|H]]; [left|right; left|right; right];
      rewrite <- (kind_unique b n k _ B KB H); exact KA.
  Qed.

  Lemma selection_sound : forall fs n x, ValidSel a fs (plain a) n x ->
    (forall e, not_left e -> Touches a fs n x e -> counted sa u e) -> kept n ->
    ValidSel b fs (fun _ _ _ => True) n x.
  Proof.
    intros fs n x V. induction V as [n SE|n f args sub t KN T AR RE SU VS IH|n z on sub F SE CS PL VS IH|n on sub SE CS PL VS IH|n sub VS IH];
      intros TO K.
    - apply v_typename. exact (kept_selectable n K SE).
    - assert (CF : counted sa u (UField n f)) by (apply TO; [exact I|]; eapply t_field; exact T).
      assert (KN' : exists k, Defines a n k /\ Defines b n k /\ (k = KObject \/ k = KInterface)).
      { destruct KN as [KN|KN]; eexists; (split; [exact KN|]); (split; [exact (kept_kind n _ K KN)|auto]). }
      destruct KN' as (k & KA & KB & KK).
      destruct (field_kept n k f t KA KB KK T CF) as (t' & T' & CO).
      apply covers_spec in CO. destruct CO as [EN _].
      assert (MB : is_member b n f) by (apply field_member in T'; destruct T' as (p & T'); red; eauto).
      assert (MA : is_member a n f) by (apply field_member in T; destruct T as (p & T); red; eauto).
      eapply v_field with (t := t'); rewrite <- ?EN.
      + destruct KK; subst; auto.
      + exact T'.
      + intros q v Q. destruct (AR q v Q) as (i & II & EI & EV). subst q.
        pose proof (arg_of a n f i (or_introl eq_refl) II) as IO.
        destruct (given_arg n f i MB II CF) as (y & Y & EY & NY).
        { apply TO; [exact I|]. eapply t_arg; eauto. }
        exists y. split; [exact Y|]. split; [exact EY|]. intros e -> DE. rewrite NY in *.
        destruct (cb_old_args a b CB n f i KEnum II DE) as (j & J).
        assert (JE : Defines a (named (i_type i)) KEnum) by (rewrite <- (cb_kinds a b CB _ _ _ J DE); exact J).
        apply enum_kept; auto. apply TO; [exact I|]. eapply t_enum; eauto.
      + intros y Y RY. destruct (required_arg n f y MA CF Y RY) as (x & X & EX & RX). rewrite <- EX. auto.
      + rewrite SU. split.
        * intros SE. assert (kept (named t)); [|apply kept_selectable; auto].
          assert (DK : exists k, Defines a (named t) k) by (destruct SE as [SE|[SE|SE]]; eauto).
          destruct DK as (q & Q). destruct (cb_closed a b CB n f t' q T') as (j & J); [rewrite <- EN; exact Q|].
          rewrite <- EN in J. exact (defines_kept _ _ _ Q J).
        * intros SE. assert (DK : exists k, Defines b (named t) k) by (destruct SE as [SE|[SE|SE]]; eauto).
          destruct DK as (q & Q). destruct (cb_old_fields a b CB n f t q T Q) as (j & J).
          exact (selectable_kept _ (defines_kept _ _ _ J Q) SE).
      + intros s S. apply IH; [exact S| |].
        * intros e L TE. apply TO; [exact L|]. eapply t_sub; eauto.
        * assert (SE : Selectable a (named t)) by (apply SU; intros ->; contradiction).
          assert (DK : exists k, Defines a (named t) k) by (destruct SE as [SE|[SE|SE]]; eauto).
          destruct DK as (q & Q). destruct (cb_closed a b CB n f t' q T') as (j & J); [rewrite <- EN; exact Q|].
          rewrite <- EN in J. exact (defines_kept _ _ _ Q J).
    - assert (on = n) by (destruct PL as [E|[E _]]; [exact E|discriminate]). subst on.
      eapply v_spread; [exact F|exact (kept_selectable n K SE)|left; reflexivity|exact I|].
      intros s S. apply IH; [exact S| |exact K]. intros e L TE. apply TO; [exact L|]. eapply t_spread; eauto.
    - assert (G : kept on /\ CanSpread b n on).
      { destruct PL as [->|[_ PO]]; [split; [exact K|left; reflexivity]|].
        destruct (picked n on K PO) as [PB KO]; [apply TO; [exact I|apply t_cond]|].
        split; [exact KO|]. right. exists on. split; [exact PB|]. apply po_object.
        assert (OA : Defines a on KObject) by (destruct PO; assumption). exact (kept_kind on _ KO OA). }
      destruct G as [KO CS']. apply v_inline; [exact (kept_selectable on KO SE)|exact CS'|exact I|].
      intros s S. apply IH; [exact S| |exact KO]. intros e L TE. apply TO; [exact L|]. eapply t_inline; eauto.
    - apply v_block. intros s S. apply IH; [exact S| |exact K]. intros e L TE. apply TO; [exact L|]. eapply t_block; eauto.
  Qed.
End Sound.
