(* The input types that operations use (C49). *)
From Coq Require Import String List Bool Arith NArith Lia.
Import ListNotations.
From Verif.SchemaDiff Require Import Ast Search Diff MapFacts DocFacts DiffProps PatchFacts.
From Verif.Checks Require Import Model Spec Facts Usage Sound.
Local Open Scope string_scope.
Local Open Scope list_scope.

(** The specification: the types that can be reached from a type through fields. *)
Inductive Reaches (d : doc) (n : string) : string -> Prop :=
| re_refl : Reaches d n n
| re_step m f t : Reaches d n m -> HasField d m f t -> Reaches d n (named t).

Definition next (s : schema) (n : string) : list string := map sf_base (iter_fields s n).

Lemma next_in : forall d n m, In m (next (schema_of d) n) <-> exists f t, HasField d n f t /\ m = named t.
Proof.
  intros d n m. unfold next. rewrite in_map_iff. split.
  - intros (x & <- & X). apply iter_fields_in in X. destruct X as (f & t & T & ->). eauto.
  - intros (f & t & T & ->). eexists. split; [|apply iter_fields_in; eauto]. reflexivity.
Qed.

Section Search.
  Context (s : schema).

  Let search fuel := used_input_types_rec fuel s.

  Inductive Reach (n : string) : string -> Prop :=
  | reach_refl : Reach n n
  | reach_step m k : Reach n m -> In k (next s m) -> Reach n k.

  Lemma reach_first : forall n m k, In m (next s n) -> Reach m k -> Reach n k.
  Proof.
    intros n m k M R. induction R as [|p q R IH Q]; [eapply reach_step; [apply reach_refl|exact M]|eapply reach_step; eauto].
  Qed.

  (* What a search has done: nothing is lost, whatever is new has all its
     successors, and can be reached. *)
  Definition done (acc acc' : list string) (roots : list string) : Prop :=
    incl acc acc' /\ incl roots acc' /\
    (forall x, In x acc' -> In x acc \/ incl (next s x) acc') /\
    (forall x, In x acc' -> In x acc \/ exists r, In r roots /\ Reach r x).

  Lemma fold_done : forall fuel, (forall acc r acc', search fuel acc r = Some acc' -> done acc acc' [r]) ->
    forall l acc acc', fold_option (search fuel) l acc = Some acc' -> done acc acc' l.
  Proof.
    intros fuel H. induction l as [|r l IH]; intros acc acc' F; cbn [fold_option] in F.
    - injection F as <-. split; [apply incl_refl|]. split; [apply incl_nil_l|]. split; auto.
    - destruct (search fuel acc r) as [acc1|] eqn:E; [|discriminate].
      destruct (H _ _ _ E) as (A1 & A2 & A3 & A4). destruct (IH _ _ F) as (B1 & B2 & B3 & B4).
      split; [eapply incl_tran; eauto|]. split; [|split].
      + intros x [<-|X]; [apply B1, A2; left; reflexivity|auto].
      + intros x X. destruct (B3 x X) as [Y|Y]; [|auto]. destruct (A3 x Y) as [Z|Z]; [auto|].
        right. eapply incl_tran; eauto.
      + intros x X. destruct (B4 x X) as [Y|(q & Q & R)]; [|right; exists q; cbn; auto].
        destruct (A4 x Y) as [Z|(q & [<-|[]] & R)]; [auto|]. right. exists r. cbn. auto.
  Qed.

  Lemma has_in : forall x l, existsb (String.eqb x) l = true <-> In x l.
  Proof. intros. apply has_name_spec. Qed.

  Lemma search_done : forall fuel acc r acc', search fuel acc r = Some acc' -> done acc acc' [r].
  Proof.
    induction fuel as [|fuel IH]; intros acc r acc' H; [discriminate|].
    unfold search in H. cbn [used_input_types_rec] in H. destruct (existsb (String.eqb r) acc) eqn:E.
    - injection H as <-. apply has_in in E. split; [apply incl_refl|]. split; [|auto].
      intros x [<-|[]]. exact E.
    - change (fold_option (search fuel) (next s r) (r :: acc) = Some acc') in H.
      apply (fold_done fuel IH) in H. destruct H as (A1 & A2 & A3 & A4).
      split; [intros x X; apply A1; right; exact X|]. split; [intros x [<-|[]]; apply A1; left; reflexivity|]. split.
      + intros x X. destruct (A3 x X) as [[<-|Y]|Y]; auto.
      + intros x X. destruct (A4 x X) as [[<-|Y]|(q & Q & R)]; [|auto|].
        * right. exists r. split; [left; reflexivity|apply reach_refl].
        * right. exists r. split; [left; reflexivity|]. eapply reach_first; eauto.
  Qed.

  (* The search ends. *)
  Definition left_over (u acc : list string) : nat := length (filter (fun x => negb (existsb (String.eqb x) acc)) u).

  Lemma left_over_incl : forall u acc acc', incl acc acc' -> left_over u acc' <= left_over u acc.
  Proof.
    intros u acc acc' H. unfold left_over. induction u as [|x u IH]; [reflexivity|]. cbn [filter].
    destruct (existsb (String.eqb x) acc) eqn:E, (existsb (String.eqb x) acc') eqn:F; cbn [negb length]; try lia.
    apply has_in in E. apply H in E. apply has_in in E. congruence.
  Qed.

  Lemma left_over_cons : forall u acc r, In r u -> ~ In r acc -> left_over u (r :: acc) < left_over u acc.
  Proof.
    intros u acc r R N. unfold left_over. induction u as [|x u IH]; [contradiction|]. cbn [filter].
    pose proof (left_over_incl u acc (r :: acc) (fun y Y => or_intror Y)) as L. unfold left_over in L.
    destruct R as [->|R].
    - assert (E : existsb (String.eqb r) acc = false) by (apply not_true_is_false; rewrite has_in; exact N).
      assert (F : existsb (String.eqb r) (r :: acc) = true) by (apply has_in; left; reflexivity).
      rewrite E, F. cbn [negb length]. lia.
    - specialize (IH R). destruct (existsb (String.eqb x) acc) eqn:E.
      + assert (F : existsb (String.eqb x) (r :: acc) = true) by (apply has_in; right; apply has_in; exact E).
        rewrite F. cbn [negb length]. lia.
      + destruct (existsb (String.eqb x) (r :: acc)); cbn [negb length]; lia.
  Qed.

  Lemma search_ends : forall u, (forall n m, In m (next s n) -> In m u) ->
    forall fuel acc r, In r u -> left_over u acc < fuel -> exists acc', search fuel acc r = Some acc'.
  Proof.
    intros u U. induction fuel as [|fuel IH]; intros acc r R L; [lia|].
    unfold search. cbn [used_input_types_rec]. destruct (existsb (String.eqb r) acc) eqn:E; [eauto|].
    change (exists acc', fold_option (search fuel) (next s r) (r :: acc) = Some acc').
    assert (N : ~ In r acc) by (rewrite <- has_in; congruence).
    pose proof (left_over_cons u acc r R N) as LC.
    assert (G : forall l, (forall x, In x l -> In x u) -> forall acc1, left_over u acc1 < fuel ->
      exists acc', fold_option (search fuel) l acc1 = Some acc').
    { induction l as [|x l IHl]; intros HU acc1 L1; cbn [fold_option]; [eauto|].
      destruct (IH acc1 x) as (acc2 & E2); [apply HU; left; reflexivity|exact L1|]. rewrite E2.
      apply IHl; [intros y Y; apply HU; right; exact Y|].
      destruct (search_done _ _ _ _ E2) as (I2 & _). pose proof (left_over_incl u _ _ I2). lia. }
    apply G; [intros x; apply U|lia].
  Qed.

  Lemma next_fields : forall n m, In m (next s n) -> In m (map sf_base (s_fields s)).
  Proof.
    intros n m H. unfold next, iter_fields in H. apply in_map_iff in H. destruct H as (x & <- & X). apply in_map.
    assert (TW : forall A (p : A -> bool) l y, In y (take_while p l) -> In y l).
    { intros A p. induction l as [|z l IH]; intros y Y; cbn in Y; [contradiction|].
      destruct (p z); [destruct Y as [->|Y]; [left; reflexivity|right; auto]|contradiction]. }
    apply TW in X. set (k := partition_point _ _) in X. clearbody k.
    rewrite <- (firstn_skipn k (s_fields s)). apply in_or_app. right. exact X.
  Qed.

  Lemma filter_length : forall A (p : A -> bool) l, length (filter p l) <= length l.
  Proof. intros A p. induction l as [|x l IH]; cbn; [lia|]. destruct (p x); cbn; lia. Qed.

  Lemma search_all_ends : forall l acc, exists acc', fold_option (search (input_fuel s)) l acc = Some acc'.
  Proof.
    induction l as [|r l IH]; intros acc; cbn [fold_option]; [eauto|].
    destruct (search_ends (r :: map sf_base (s_fields s)) (fun n m M => or_intror (next_fields n m M)) (input_fuel s) acc r) as (acc1 & E).
    - left. reflexivity.
    - unfold left_over. pose proof (filter_length _ (fun x => negb (existsb (String.eqb x) acc)) (r :: map sf_base (s_fields s))) as L.
      cbn [length] in L. rewrite map_length in L. unfold input_fuel. lia.
    - rewrite E. apply IH.
  Qed.
End Search.

Lemma reach_reaches : forall d n m, Reach (schema_of d) n m <-> Reaches d n m.
Proof.
  intros d n m. split.
  - intros R. induction R as [|p q R IH Q]; [apply re_refl|]. apply next_in in Q. destruct Q as (f & t & T & ->). eapply re_step; eauto.
  - intros R. induction R as [|p f t R IH T]; [apply reach_refl|]. eapply reach_step; [exact IH|]. apply next_in. eauto.
Qed.

(* C49: the input types that count as used are exactly those that can be reached
   from the types of used arguments. *)
Theorem C49_input_types : forall d u n,
  In n (find_used_input_types (schema_of d) (Used u)) <->
  exists i x, contains Nat.eqb i (u_args u) = true /\ nth_error (s_args (schema_of d)) i = Some x /\ Reaches d (sa_base x) n.
Proof.
  intros d u n. set (s := schema_of d). unfold find_used_input_types. fold s.
  set (l := flat_map _ (u_args u)).
  assert (L : forall r, In r l <-> exists i x, contains Nat.eqb i (u_args u) = true /\ nth_error (s_args s) i = Some x /\ sa_base x = r).
  { intros r. unfold l. rewrite in_flat_map. unfold contains. split.
    - intros ([i k] & IK & R). cbn [fst] in R. destruct (nth_error (s_args s) i) as [x|] eqn:E; [|contradiction].
      destruct R as [<-|[]]. exists i, x. split; [|auto]. apply existsb_exists. exists (i, k). split; [exact IK|apply Nat.eqb_refl].
    - intros (i & x & C & X & <-). apply existsb_exists in C. destruct C as ([j k] & JK & E). cbn in E. apply Nat.eqb_eq in E. subst j.
      exists (i, k). split; [exact JK|]. cbn [fst]. rewrite X. left. reflexivity. }
  destruct (search_all_ends s l nil) as (acc & E). rewrite E.
  apply (fold_done s (input_fuel s) (search_done s (input_fuel s))) in E. destruct E as (_ & E2 & E3 & E4).
  split.
  - intros N. destruct (E4 n N) as [[]|(r & R & RN)]. apply L in R. destruct R as (i & x & C & X & <-).
    exists i, x. split; [exact C|]. split; [exact X|]. apply reach_reaches. exact RN.
  - intros (i & x & C & X & R). apply reach_reaches in R. fold s in R.
    assert (R0 : In (sa_base x) acc) by (apply E2; apply L; eauto).
    induction R as [|p q R IH Q]; [exact R0|]. destruct (E3 p IH) as [[]|H]. apply H. exact Q.
Qed.

(* The same in terms of what is counted. *)
Lemma arg_index : forall d i x, doc_ok d -> nth_error (s_args (schema_of d)) i = Some x ->
  exists n f y, ArgOf d n f y /\ x = mksarg n f (i_name y) (named (i_type y)) (wrap (i_type y)) (has_default y) /\
    find_argument (schema_of d) n f (i_name y) = Some i.
Proof.
  intros d i x OK X. assert (XI : In x (s_args (schema_of d))) by (eapply nth_error_In; exact X).
  apply sort_in in XI. apply args_table in XI. destruct XI as (n & f & y & Y & ->).
  exists n, f, y. split; [exact Y|]. split; [reflexivity|].
  destruct (find_argument_has d n f y OK Y) as (j & J & NJ). rewrite J. f_equal.
  assert (ND : NoDup (map arg_key (s_args (schema_of d)))).
  { eapply Permutation.Permutation_NoDup; [|exact (args_nodup d OK)]. apply Permutation.Permutation_map. apply sort_perm. }
  rewrite NoDup_nth_error in ND. apply ND.
  - apply nth_error_Some. rewrite nth_error_map, NJ. discriminate.
  - rewrite !nth_error_map, X, NJ. reflexivity.
Qed.

Lemma used_input_counted : forall d u n, doc_ok d -> (In n (find_used_input_types (schema_of d) (Used u)) <->
  exists m f y, ArgOf d m f y /\ counted (schema_of d) u (UArg m f (i_name y)) /\ Reaches d (named (i_type y)) n).
Proof.
  intros d u n OK. rewrite C49_input_types. split.
  - intros (i & x & C & X & R). destruct (arg_index d i x OK X) as (m & f & y & Y & -> & F).
    exists m, f, y. split; [exact Y|]. split; [exists i; auto|exact R].
  - intros (m & f & y & Y & (i & F & C) & R). destruct (find_argument_inv d m f (i_name y) i F) as (z & Z & EZ & N).
    rewrite (arg_unique d m f y z OK (object_arg _ _ _ _ Y) (object_arg _ _ _ _ Z) (eq_sym EZ)) in R.
    exists i. eexists. split; [exact C|]. split; [exact N|exact R].
Qed.

(** Values that clients send. *)
Inductive value :=
| VNull
| VLeaf (text : string)
| VEnum (v : string)
| VList (l : list value)
| VObject (fs : list (string * value)).

Definition InputField (d : doc) (n : string) (x : input) : Prop := exists fs, HasType d (TInput n fs) /\ In x fs.

(* The values of a type; `leaf` are those of scalars. *)
Inductive Fits (leaf : string -> string -> Prop) (d : doc) : ty -> value -> Prop :=
| fit_nonnull t v : v <> VNull -> Fits leaf d t v -> Fits leaf d (TNonNull t) v
| fit_null t : ~ nonnull t -> Fits leaf d t VNull
| fit_list t l : (forall v, In v l -> Fits leaf d t v) -> Fits leaf d (TList t) (VList l)
| fit_one t v : v <> VNull -> (forall l, v <> VList l) -> Fits leaf d t v -> Fits leaf d (TList t) v
| fit_leaf n x : (forall k, Defines d n k -> k = KScalar) -> leaf n x -> Fits leaf d (TName n) (VLeaf x)
| fit_enum n v : Defines d n KEnum -> HasValue d n v -> Fits leaf d (TName n) (VEnum v)
| fit_object n fs : Defines d n KInput ->
    (forall x v, In (x, v) fs -> exists t, HasField d n x t /\ Fits leaf d t v) ->
    (forall i, InputField d n i -> Required i -> In (i_name i) (map fst fs)) ->
    Fits leaf d (TName n) (VObject fs).

Section FitsInd.
  Context (leaf : string -> string -> Prop) (d : doc) (P : ty -> value -> Prop).
  Context (H1 : forall t v, v <> VNull -> Fits leaf d t v -> P t v -> P (TNonNull t) v)
    (H2 : forall t, ~ nonnull t -> P t VNull)
    (H3 : forall t l, (forall v, In v l -> Fits leaf d t v) -> (forall v, In v l -> P t v) -> P (TList t) (VList l))
    (H4 : forall t v, v <> VNull -> (forall l, v <> VList l) -> Fits leaf d t v -> P t v -> P (TList t) v)
    (H5 : forall n x, (forall k, Defines d n k -> k = KScalar) -> leaf n x -> P (TName n) (VLeaf x))
    (H6 : forall n v, Defines d n KEnum -> HasValue d n v -> P (TName n) (VEnum v))
    (H7 : forall n fs, Defines d n KInput ->
      (forall x v, In (x, v) fs -> exists t, HasField d n x t /\ Fits leaf d t v /\ P t v) ->
      (forall i, InputField d n i -> Required i -> In (i_name i) (map fst fs)) -> P (TName n) (VObject fs)).

  Fixpoint fits_ind' (t : ty) (v : value) (F : Fits leaf d t v) {struct F} : P t v :=
    match F with
    | fit_nonnull _ _ t v N G => H1 t v N G (fits_ind' t v G)
    | fit_null _ _ t N => H2 t N
    | fit_list _ _ t l G => H3 t l G (fun v IN => fits_ind' t v (G v IN))
    | fit_one _ _ t v N L G => H4 t v N L G (fits_ind' t v G)
    | fit_leaf _ _ n x K L => H5 n x K L
    | fit_enum _ _ n v K V => H6 n v K V
    | fit_object _ _ n fs K G R =>
        H7 n fs K (fun x v IN => match G x v IN with
                                 | ex_intro _ t (conj A B) => ex_intro _ t (conj A (conj B (fits_ind' t v B)))
                                 end) R
    end.
End FitsInd.

(* The changes that are left to the caller: those of the values of enums and of
   the defaults of input fields, and types that are replaced by others. *)
Record inputs_comparable (a b : doc) : Prop := {
  ic_kinds : forall n j k, Defines a n j -> Defines b n k -> j = k;
  ic_closed : forall n f t k, HasField b n f t -> Defines a (named t) k -> exists j, Defines b (named t) j;
  ic_old : forall n f t k, HasField a n f t -> Defines b (named t) k -> exists j, Defines a (named t) j;
  ic_enums : forall n v, Defines a n KEnum -> Defines b n KEnum -> HasValue a n v -> HasValue b n v;
  ic_defaults : forall n x y, InputField a n x -> InputField b n y -> i_name x = i_name y ->
    nonnull (i_type x) -> i_default x <> None -> i_default y <> None }.

Lemma covers_null : forall t u, Covers t u -> nonnull t -> nonnull u.
Proof.
  induction 1 as [n|t u C IH|t u C IH|t u C IH|t u C IH]; intros [q E]; try discriminate.
  - eexists. reflexivity.
  - eexists. reflexivity.
  - apply IH. eexists. reflexivity.
Qed.

Section Inputs.
  Context (a b : doc) (A : doc_ok a) (B : doc_ok b) (IC : inputs_comparable a b).
  Context (u : usage) (l : list change) (ds : list (change * severity)).
  Context (D : diff a b = Some l) (CK : check (schema_of a) (schema_of b) (Used u) l = Some ds)
    (ND : forall c s n f, In (c, s) ds -> c_path c = PField n f -> ~ Defines a n KInput).

  Let sa := schema_of a.
  Let sb := schema_of b.

  Lemma reported_in : forall src target p m es, check src target p m = Some es ->
    forall c s, In c m -> check_change src target p c = Reported s -> In (c, s) es.
  Proof.
    intros src target p. induction m as [|x m IH]; intros es H c s C R; [contradiction|].
    cbn [check] in H. destruct (check_change src target p x) eqn:E; [| |discriminate].
    - destruct (check src target p m) as [fs|] eqn:F; [|discriminate]. injection H as <-.
      destruct C as [->|C]; [congruence|]. eauto.
    - destruct (check src target p m) as [fs|] eqn:F; [|discriminate]. injection H as <-.
      destruct C as [->|C]; [left; congruence|right; eauto].
  Qed.

  Lemma unreported : forall c n f s, Changed a b c -> c_path c = PField n f -> Defines a n KInput ->
    check_change sa sb (Used u) c <> Reported s.
  Proof.
    intros c n f s C P K R. destruct (C50_exact a b A B) as (l' & D' & H). rewrite D in D'. injection D' as <-.
    apply (ND c s n f); auto. apply (reported_in sa sb (Used u) l ds CK); auto. apply H. exact C.
  Qed.

  Context (m g : string) (q : input) (Q : ArgOf a m g q) (CQ : counted sa u (UArg m g (i_name q))).

  Lemma is_used : forall n, Reaches a (named (i_type q)) n -> has_name n (find_used_input_types sa (Used u)) = true.
  Proof.
    intros n R. apply has_name_spec. apply (used_input_counted a u n A). exists m, g, q. auto.
  Qed.

  Definition stable (n : string) : Prop := forall k, Defines a n k <-> Defines b n k.

  Lemma inputs_name : forall n, Defines a n KInput -> has_name n (s_inputs sa) = true.
  Proof. intros n K. apply has_name_spec. apply inputs_table. exact K. Qed.

  Lemma input_member : forall d n f t p, doc_ok d -> Defines d n KInput -> Member d n f t p -> exists t', t = Some t' /\ HasField d n f t'.
  Proof.
    intros d n f t p OK K M. destruct (member_defines d n f t p M) as (j & J & _ & _ & W).
    rewrite (kind_unique d n j KInput OK J K) in W.
    destruct t as [t|]; [exists t; split; [reflexivity|apply field_member; eauto]|].
    destruct W as [[_ W]|[[W|W] _]]; congruence.
  Qed.

  Lemma input_field_kept : forall n f t, Defines a n KInput -> Defines b n KInput -> Reaches a (named (i_type q)) n ->
    HasField a n f t -> exists t', HasField b n f t' /\ Covers t' t.
  Proof.
    intros n f t KA KB R T. pose proof (is_used n R) as US. pose proof (inputs_name n KA) as IN.
    destruct (fields_last b n f B) as [(ot & p & _ & M)|(_ & NM)].
    - destruct (input_member b n f ot p B KB M) as (t' & -> & T'). exists t'. split; [exact T'|].
      destruct (ty_eqb t t') eqn:E; [apply ty_eqb_spec in E; subst; apply covers_refl|].
      assert (NT : t <> t') by (intros ->; rewrite ty_eqb_refl in E; discriminate).
      pose proof (fun s => unreported _ n f s (ch_field_type a b n f KInput t t' KA KB T T' NT) eq_refl KA) as S.
      cbn [check_change c_kind c_path] in S. unfold change_field_type in S.
      destruct (find_field_has a n f t A T) as (i & FI & NI). destruct (find_field_has b n f t' B T') as (j & FJ & NJ).
      unfold sa, sb in S. rewrite FI, FJ, NI, NJ in S. fold sa in S. rewrite IN, US in S. cbn [sf_base sf_wrap] in S.
      destruct (String.eqb (named t) (named t')) eqn:EN; cbn [negb] in S; [|exfalso; exact (S _ eq_refl)].
      apply String.eqb_eq in EN. apply covers_spec. split; [auto|]. apply compare_downs. unfold downs.
      destruct (compare_wrapping (wrap t) (wrap t')); auto; exfalso; exact (S _ eq_refl).
    - exfalso. apply field_member in T. destruct T as (p & T). assert (M : is_member a n f) by (red; eauto).
      pose proof (fun s => unreported _ n f s (ch_remove_member a b n f KInput KA KB M NM) eq_refl KA) as S.
      cbn [check_change c_kind c_path remove_member_kind] in S. unfold remove_field in S. rewrite IN, US in S. exact (S _ eq_refl).
  Qed.

  Lemma input_field : forall d n x, InputField d n x -> HasField d n (i_name x) (i_type x).
  Proof. intros d n x (fs & T & X). eapply has_input; eauto. Qed.

  Lemma field_input : forall d n f t, doc_ok d -> Defines d n KInput -> HasField d n f t ->
    exists x, InputField d n x /\ i_name x = f /\ i_type x = t.
  Proof.
    intros d n f t OK K H.
    assert (G : forall td, HasType d td -> tdef_name td = n -> Defines d n (tdef_kind td)).
    { intros td [T|T] <-; [eapply defines_type|eapply defines_ext]; eauto. }
    destruct H as [impls fs x T X E|impls fs x T X E|fs x T X E].
    - pose proof (kind_unique d n _ _ OK (G _ T eq_refl) K). discriminate.
    - pose proof (kind_unique d n _ _ OK (G _ T eq_refl) K). discriminate.
    - exists x. split; [exists fs; auto|auto].
  Qed.

  Lemma input_required : forall n y, Defines a n KInput -> Defines b n KInput -> Reaches a (named (i_type q)) n ->
    InputField b n y -> Required y -> exists x, InputField a n x /\ i_name x = i_name y /\ Required x.
  Proof.
    intros n y KA KB R Y [NY DY]. pose proof (is_used n R) as US.
    pose proof (input_field b n y Y) as TY.
    destruct (fields_last a n (i_name y) A) as [(ot & p & _ & M)|(_ & NM)].
    - destruct (input_member a n (i_name y) ot p A KA M) as (t & -> & T).
      destruct (field_input a n (i_name y) t A KA T) as (x & X & EX & TX).
      exists x. split; [exact X|]. split; [exact EX|].
      destruct (input_field_kept n (i_name y) t KA KB R T) as (t' & T' & C).
      rewrite (field_unique b n (i_name y) t' (i_type y) B T' TY) in C.
      assert (NX : nonnull (i_type x)) by (rewrite TX; exact (covers_null _ _ C NY)).
      split; [exact NX|]. destruct (i_default x) eqn:DX; [|reflexivity].
      exfalso. apply (ic_defaults a b IC n x y X Y EX NX); congruence.
    - exfalso. apply field_member in TY. destruct TY as (p & M).
      pose proof (fun s => unreported _ n (i_name y) s (ch_add_member a b n (i_name y) KInput (Some (i_type y)) p KA KB NM M) eq_refl KA) as S.
      cbn [check_change c_kind c_path add_member_kind] in S. unfold add_field in S.
      destruct (find_field_has b n (i_name y) (i_type y) B (input_field b n y Y)) as (j & FJ & NJ).
      unfold sb in S. rewrite FJ, NJ in S. cbn [sf_wrap] in S. apply is_nonnull_wrap in NY. rewrite NY, US in S. exact (S _ eq_refl).
  Qed.

  Lemma field_stable : forall n f t t', HasField a n f t -> HasField b n f t' -> named t' = named t -> stable (named t).
  Proof.
    intros n f t t' T T' E k. split; intros K.
    - destruct (ic_closed a b IC n f t' k T') as (j & J); [rewrite E; exact K|]. rewrite E in J.
      rewrite (ic_kinds a b IC _ k j K J). exact J.
    - destruct (ic_old a b IC n f t k T K) as (j & J). rewrite <- (ic_kinds a b IC _ j k J K). exact J.
  Qed.

  Lemma fits_kept : forall leaf t v, Fits leaf a t v -> forall t', Covers t' t ->
    Reaches a (named (i_type q)) (named t) -> stable (named t) -> Fits leaf b t' v.
  Proof.
    intros leaf t v F. induction F as [t v NV F IH|t NN|t vs F IH|t v NV NL F IH|n x K L|n v K V|n fs K FS RE] using fits_ind';
      intros t' C R ST.
    - remember (TNonNull t) as T eqn:ET. revert ET R ST. induction C as [n|p r C IHC|p r C IHC|p r C IHC|p r C IHC]; intros ET R ST; try discriminate.
      + injection ET as ->. apply fit_nonnull; [exact NV|]. apply IH; auto.
      + injection ET as ->. apply IH; auto.
      + apply fit_nonnull; [exact NV|]. apply IHC; auto.
    - apply fit_null. intros NN'. apply NN. exact (covers_null _ _ C NN').
    - inversion C as [|p r C'| | |p r C']; subst.
      + apply fit_list. intros v V. apply IH; auto.
      + exfalso. apply covers_null in C'; [|eexists; reflexivity]. destruct C' as [z Z]. discriminate.
    - inversion C as [|p r C'| | |p r C']; subst.
      + apply fit_one; auto.
      + exfalso. apply covers_null in C'; [|eexists; reflexivity]. destruct C' as [z Z]. discriminate.
    - inversion C as [p| | | |p r C']; subst.
      + apply fit_leaf; [|exact L]. intros k KB. apply K. apply ST. exact KB.
      + exfalso. apply covers_null in C'; [|eexists; reflexivity]. destruct C' as [z Z]. discriminate.
    - inversion C as [p| | | |p r C']; subst.
      + apply fit_enum; [apply ST; exact K|]. apply (ic_enums a b IC); auto. apply ST. exact K.
      + exfalso. apply covers_null in C'; [|eexists; reflexivity]. destruct C' as [z Z]. discriminate.
    - inversion C as [p| | | |p r C']; subst.
      2: { exfalso. apply covers_null in C'; [|eexists; reflexivity]. destruct C' as [z Z]. discriminate. }
      cbn [named] in R, ST. assert (KB : Defines b n KInput) by (apply ST; exact K).
      apply fit_object; [exact KB| |].
      + intros x v XV. destruct (FS x v XV) as (t & T & F & IH).
        destruct (input_field_kept n x t K KB R T) as (t' & T' & C'). exists t'. split; [exact T'|].
        apply IH; [exact C'| |].
        * eapply re_step; eauto.
        * apply covers_spec in C'. destruct C' as [E _]. exact (field_stable n x t t' T T' E).
      + intros y Y RY. destruct (input_required n y K KB R Y RY) as (x & X & EX & RX). rewrite <- EX. auto.
  Qed.
End Inputs.

(* C49: if nothing is reported about the fields of input objects, then every
   value that was accepted for a used argument, or for a type below it, still
   is.  Partial: no value of an enum and no default of a required input field
   is removed, and no type is replaced by one of another kind. *)
Theorem C49_inputs_partial : forall a b fuel ops u ds, doc_ok a -> doc_ok b -> inputs_comparable a b -> roots_once a ->
  (forall n o, In (n, o) ops -> op_ok o) ->
  aggregate_all fuel (schema_of a) ops = Some u ->
  check_docs a b (Used u) = Some ds ->
  (forall c s n f, In (c, s) ds -> c_path c = PField n f -> ~ Defines a n KInput) ->
  forall n o m f i, In (n, o) ops -> ArgOf a m f i -> OpTouches a o (UArg m f (i_name i)) ->
  forall leaf t t' v, Reaches a (named (i_type i)) (named t) -> (forall k, Defines a (named t) k <-> Defines b (named t) k) ->
  Covers t' t -> Fits leaf a t v -> Fits leaf b t' v.
Proof.
  intros a b fuel ops u ds A B IC RO OPS AG CK ND n o m f i O I0 TO leaf t t' v R ST C F.
  unfold check_docs in CK. destruct (diff a b) as [l|] eqn:D; [|discriminate].
  eapply (fits_kept a b A B IC u l ds D CK ND m f i I0); eauto.
  destruct (C49_usage a fuel ops u A RO OPS AG (UArg m f (i_name i))) as [_ H]. apply H; [exact I|eauto].
Qed.
