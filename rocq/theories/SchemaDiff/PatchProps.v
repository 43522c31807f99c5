(* Properties of the application of changes (C51). *)
From Coq Require Import String Ascii List Bool Arith Lia Sorted Permutation.
Import ListNotations.
From Verif.SchemaDiff Require Import Ast Search Diff MapFacts DocFacts DiffProps Patch PatchFacts.
Local Open Scope string_scope.
Local Open Scope list_scope.

(** The specification. *)

(* The names of GraphQL. *)
Definition first_char (c : ascii) : bool := word_char c && negb (Nat.leb 48 (nat_of_ascii c) && Nat.leb (nat_of_ascii c) 57).

Fixpoint all_chars (p : ascii -> bool) (s : string) : bool :=
  match s with
  | EmptyString => true
  | String c s' => p c && all_chars p s'
  end.

Definition is_name (s : string) : bool :=
  match s with
  | EmptyString => false
  | String c s' => first_char c && all_chars word_char s'
  end.

Definition field_names (x : field) : list string := f_name x :: map i_name (f_args x).

Definition tdef_names (t : tdef) : list string :=
  tdef_name t ::
  match t with
  | TScalar _ => nil
  | TObject _ impls fs | TInterface _ impls fs => impls ++ flat_map field_names fs
  | TUnion _ vs | TEnum _ vs => vs
  | TInput _ fs => map i_name fs
  end.

Definition def_names (x : def) : list string :=
  match x with
  | DSchema _ | DSchemaExt _ => nil
  | DDirective n => [n]
  | DType t | DTypeExt t => tdef_names t
  end.

(* All names in the document are names. *)
Definition names_ok (d : doc) : Prop := forallb is_name (flat_map def_names d) = true.

(* The last argument of the field `f` of `n`. *)
Inductive LastArg (d : doc) (n f : string) (y : input) : Prop :=
| last_object impls fs x l :
    HasType d (TObject n impls fs) -> In x fs -> f_name x = f -> f_args x = l ++ [y] -> LastArg d n f y
| last_interface impls fs x l :
    HasType d (TInterface n impls fs) -> In x fs -> f_name x = f -> f_args x = l ++ [y] -> LastArg d n f y.

(* What has to hold of the two schemas for the patch to be right. *)
Record patchable (a b : doc) : Prop := {
  (* arguments are only added or removed *)
  pa_args : forall n f x y, HasArg a n f x -> HasArg b n f y -> i_name x = i_name y -> x = y;
  (* the last argument of a field isn't new, or its text doesn't end in a word *)
  pa_last : forall n f y, is_member a n f -> LastArg b n f y ->
    (exists x, HasArg a n f x /\ i_name x = i_name y) \/ ends_in_word y = false;
  (* the interfaces of a type come before its fields in the order of names *)
  pa_impls : forall n i f, Implements a n i -> ~ Implements b n i -> is_member a n f \/ is_member b n f ->
    String.compare i f = Lt;
  (* schema extensions are only added, or all removed *)
  pa_exts : length (schema_exts a) <= length (schema_exts b) \/ schema_exts b = nil;
}.

(** Names *)
Lemma names_in : forall d s, names_ok d -> In s (flat_map def_names d) -> is_name s = true.
Proof. intros d s H I. unfold names_ok in H. rewrite forallb_forall in H. auto. Qed.

Lemma type_names : forall d t s, HasType d t -> In s (tdef_names t) -> In s (flat_map def_names d).
Proof. intros d t s [H|H] I; apply in_flat_map; eexists; (split; [exact H|exact I]). Qed.

Lemma defines_name : forall d n k, names_ok d -> Defines d n k -> is_name n = true.
Proof.
  intros d n k OK D. apply (names_in d n OK). destruct D as [D|t D E|t D E].
  - apply in_flat_map. exists (DDirective n). split; [exact D|cbn; auto].
  - subst. apply (type_names d t); [left; exact D|left; reflexivity].
  - subst. apply (type_names d t); [right; exact D|left; reflexivity].
Qed.

Lemma member_name : forall d n f t p, names_ok d -> Member d n f t p -> is_name f = true.
Proof.
  intros d n f t p OK M. apply (names_in d f OK).
  destruct M as [impls fs x T X E|impls fs x T X E|fs x T X E|vs T V|vs T V]; eapply type_names; try exact T; right.
  - apply in_or_app. right. apply in_flat_map. exists x. split; [exact X|]. left. exact E.
  - apply in_or_app. right. apply in_flat_map. exists x. split; [exact X|]. left. exact E.
  - apply in_map_iff. exists x. auto.
  - exact V.
  - exact V.
Qed.

Lemma impl_name : forall d n i, names_ok d -> Implements d n i -> is_name i = true.
Proof.
  intros d n i OK I. apply (names_in d i OK).
  destruct I as [impls fs T X|impls fs T X]; eapply type_names; try exact T; right; apply in_or_app; auto.
Qed.

Lemma arg_name : forall d n f x, names_ok d -> HasArg d n f x -> is_name (i_name x) = true.
Proof.
  intros d n f x OK H. apply (names_in d _ OK).
  destruct H as [impls fs y i T Y E I|impls fs y i T Y E I]; eapply type_names; try exact T; right; apply in_or_app; right;
    apply in_flat_map; exists y; (split; [exact Y|]); right; apply in_map_iff; eauto.
Qed.

Lemma name_first : forall s, is_name s = true -> exists c s', s = String c s' /\ first_char c = true.
Proof.
  intros [|c s'] H; [discriminate|]. cbn in H. apply andb_true_iff in H. exists c, s'. tauto.
Qed.

Lemma name_nonempty : forall s, is_name s = true -> is_empty s = false.
Proof. intros [|c s]; [discriminate|reflexivity]. Qed.

Lemma name_trim : forall s, is_name s = true -> trim s = s.
Proof.
  intros s H. destruct (name_first s H) as (c & s' & -> & F).
  destruct c as [[|] [|] [|] [|] [|] [|] [|] [|]]; try reflexivity. discriminate F.
Qed.

Lemma trim_amp : forall s, trim (String.append "&" s) = trim s.
Proof. reflexivity. Qed.

Lemma name_schema : forall s, is_name s = true -> s <> ":schema" /\ s <> ":schema[0]".
Proof. intros s H. split; intros ->; discriminate H. Qed.

Lemma name_amp : forall s, is_name s = true -> String.compare "&" s = Lt /\ forall i, String.compare (String.append "&" i) s = Lt.
Proof.
  intros s H. destruct (name_first s H) as (c & s' & -> & F). clear H.
  assert (C : Ascii.compare "&"%char c = Lt).
  { destruct c as [[|] [|] [|] [|] [|] [|] [|] [|]]; try discriminate F; reflexivity. }
  split; [|intros i; cbn [String.append]]; cbn [String.compare]; rewrite C; reflexivity.
Qed.

(** The changes of the patch. *)
Section Patched.
  Context (a b : doc) (l : list change).
  Hypothesis (A : doc_ok a) (B : doc_ok b) (NA : names_ok a) (NB : names_ok b) (D : diff a b = Some l).
  Let ps := new_paths (resolve_spans b l).

  Lemma ps_sorted : psorted ps.
  Proof. apply new_paths_sorted. Qed.

  Lemma ps_in : forall r, In r ps <-> Changed a b (fst r) /\ snd r = separated b (fst r).
  Proof.
    intros r. unfold ps, new_paths, resolve_spans. rewrite sort_in, in_map_iff.
    destruct (C50_exact a b A B) as (l' & E & H). rewrite D in E. injection E as <-. split.
    - intros (c & <- & C). cbn. split; [apply H; exact C|reflexivity].
    - intros [C E]. exists (fst r). split; [destruct r; cbn in *; congruence|apply H; exact C].
  Qed.

  Lemma ps_change : forall c, Changed a b c -> In (c, separated b c) ps.
  Proof. intros c C. apply ps_in. auto. Qed.

  Ltac cases C :=
    destruct C as [x y X Y NE|x y X Y NE|x y X Y NE|y NX Y|x X NY|i y Y L|L|n k x IX NX KX ND|n k DA ND|n i CA CB N I|n i CA CB I N|n f k t p DA DB N M|n f k DA DB M N|n f k t u DA DB T U NE|n f y M N Y|n f x M X N|n f x y X Y E NE|n f x y v X Y E DX DY|n f x y v X Y E DX DY|n f x y u v X Y E DX DY NE].

  Ltac by_kind K := try discriminate K; try (match goal with j : kind |- _ => destruct j; discriminate K end).

  Lemma inv_add_member : forall r k, In r ps -> rkind r = add_member_kind k -> 
    exists n f j t, c_path (fst r) = PField n f /\ Defines a n j /\ Defines b n j /\ add_member_kind j = add_member_kind k /\
      no_member a n f /\ Member b n f t (rtext r).
  Proof.
    intros [c s] k0 R K. apply ps_in in R. destruct R as [C _]. cbn in C. unfold rkind, rtext in *. cbn in *.
    cases C; cbn in K; try (destruct k0; discriminate K); try (destruct k, k0; discriminate K).
    exists n, f, k, t. auto 8.
  Qed.

  Lemma inv_remove_member : forall r k, In r ps -> rkind r = remove_member_kind k ->
    exists n f j, c_path (fst r) = PField n f /\ Defines a n j /\ Defines b n j /\
      is_member a n f /\ no_member b n f.
  Proof.
    intros [c s] k0 R K. apply ps_in in R. destruct R as [C _]. cbn in C. unfold rkind, rtext in *. cbn in *.
    cases C; cbn in K; try (destruct k0; discriminate K); try (destruct k, k0; discriminate K).
    exists n, f, k. auto 8.
  Qed.

  Lemma inv_field_type : forall r, In r ps -> rkind r = ChangeFieldType ->
    exists n f k t u, c_path (fst r) = PField n f /\ rtext r = TypeText u /\ Defines a n k /\ Defines b n k /\
      HasField a n f t /\ HasField b n f u /\ t <> u.
  Proof.
    intros [c s] R K. apply ps_in in R. destruct R as [C _]. cbn in C. unfold rkind, rtext in *. cbn in *.
    cases C; cbn in K; by_kind K. exists n, f, k, t, u. auto 10.
  Qed.

  Lemma inv_add_arg : forall r, In r ps -> rkind r = AddFieldArgument ->
    exists n f y, c_path (fst r) = PArg n f (i_name y) /\ rtext r = InputText y /\ snd r = separated b (fst r) /\
      is_member a n f /\ (forall x, HasArg a n f x -> i_name x <> i_name y) /\ HasArg b n f y.
  Proof.
    intros [c s] R K. apply ps_in in R. destruct R as [C SE]. cbn in C, SE. unfold rkind, rtext in *. cbn in *.
    cases C; cbn in K; by_kind K. exists n, f, y. auto 10.
  Qed.

  Lemma inv_remove_arg : forall r, In r ps -> rkind r = RemoveFieldArgument ->
    exists n f x, c_path (fst r) = PArg n f (i_name x) /\
      is_member b n f /\ HasArg a n f x /\ (forall y, HasArg b n f y -> i_name y <> i_name x).
  Proof.
    intros [c s] R K. apply ps_in in R. destruct R as [C _]. cbn in C. unfold rkind, rtext in *. cbn in *.
    cases C; cbn in K; by_kind K. exists n, f, x. auto 10.
  Qed.

  Lemma inv_add_impl : forall r, In r ps -> rkind r = AddInterfaceImplementation ->
    exists n i, c_path (fst r) = PImpl n i /\ ~ Implements a n i /\ Implements b n i.
  Proof.
    intros [c s] R K. apply ps_in in R. destruct R as [C _]. cbn in C. unfold rkind, rtext in *. cbn in *.
    cases C; cbn in K; by_kind K. exists n, i. auto 10.
  Qed.

  Lemma inv_remove_impl : forall r, In r ps -> rkind r = RemoveInterfaceImplementation ->
    exists n i, c_path (fst r) = PImpl n i /\ Implements a n i /\ ~ Implements b n i.
  Proof.
    intros [c s] R K. apply ps_in in R. destruct R as [C _]. cbn in C. unfold rkind, rtext in *. cbn in *.
    cases C; cbn in K; by_kind K. exists n, i. auto 10.
  Qed.

  (* What the second segment of a path is. *)
  Lemma inv_second : forall r, In r ps ->
    is_empty (seg2 r) = true \/
    (exists n i, seg r = (n, String.append "&" i, "") /\ is_name i = true /\
       (rkind r = AddInterfaceImplementation \/ rkind r = RemoveInterfaceImplementation)) \/
    (is_name (seg2 r) = true /\ (is_member a (seg1 r) (seg2 r) \/ is_member b (seg1 r) (seg2 r))).
  Proof.
    intros [c s] R. apply ps_in in R. destruct R as [C _]. cbn in C. unfold seg2, seg1, seg, rkind. cbn [fst].
    cases C; cbn; auto.
    - right; left. exists n, i. pose proof (impl_name b n i NB I). auto.
    - right; left. exists n, i. pose proof (impl_name a n i NA I). auto.
    - right; right. split; [exact (member_name b n f t p NB M)|right; exists t, p; exact M].
    - right; right. assert (M' := M). destruct M' as (t & p & M'). split; [exact (member_name a n f t p NA M')|auto].
    - right; right. apply field_member in T. destruct T as (p & T). split; [exact (member_name a n f _ p NA T)|].
      left. eexists; eexists; exact T.
    - right; right. assert (M' := M). destruct M' as (t & p & M'). split; [exact (member_name a n f t p NA M')|auto].
    - right; right. assert (M' := M). destruct M' as (t & p & M'). split; [exact (member_name b n f t p NB M')|auto].
    - right; right. apply arg_member in X. destruct X as (t & p & X). split; [exact (member_name a n f _ p NA X)|].
      left. eexists; eexists; exact X.
    - right; right. apply arg_member in X. destruct X as (t & p & X). split; [exact (member_name a n f _ p NA X)|].
      left. eexists; eexists; exact X.
    - right; right. apply arg_member in X. destruct X as (t & p & X). split; [exact (member_name a n f _ p NA X)|].
      left. eexists; eexists; exact X.
    - right; right. apply arg_member in X. destruct X as (t & p & X). split; [exact (member_name a n f _ p NA X)|].
      left. eexists; eexists; exact X.
  Qed.

  (** The second level of the changes of a type. *)
  Lemma second_in : forall n r, In r (iter_second_level ps n) <-> In r ps /\ seg1 r = n /\ is_empty (seg2 r) = false.
  Proof.
    intros n r. unfold iter_second_level. rewrite filter_In, andb_true_iff, String.eqb_eq, negb_true_iff. tauto.
  Qed.

  Lemma removed_in : forall n k f, is_name f = true -> Defines a n k -> Defines b n k ->
    (In f (names_of (remove_member_kind k) (iter_second_level ps n)) <-> is_member a n f /\ no_member b n f).
  Proof.
    intros n k f NF DA DB. unfold names_of. rewrite in_map_iff. split.
    - intros (r & E & H). rewrite filter_In, second_in, ckind_eqb_spec in H. destruct H as [(R & N & _) K].
      destruct (inv_remove_member r k R K) as (n' & f' & j & P & _ & _ & M & M').
      unfold seg1, seg2, seg in *. rewrite P in *. cbn in *. subst. auto.
    - intros [M M'].
      pose proof (ps_change _ (ch_remove_member a b n f k DA DB M M')) as R.
      eexists. rewrite filter_In, second_in, ckind_eqb_spec. split; [|split; [split; [exact R|split]|]]; try reflexivity.
      cbn. apply name_nonempty. exact NF.
  Qed.

  Lemma type_changed : forall n k f t u, Defines a n k -> Defines b n k -> HasField a n f t -> HasField b n f u ->
    patch_type (changed_types (iter_second_level ps n)) f t = u.
  Proof.
    intros n k f t u DA DB T U.
    assert (NF : is_name f = true).
    { apply field_member in T. destruct T as (p & T). exact (member_name a n f _ p NA T). }
    assert (UN : forall t u, HasField b n f t -> HasField b n f u -> t = u).
    { intros t' u' T' U'. apply field_member in T', U'. destruct T' as (p & T'), U' as (q & U').
      destruct (member_unique _ _ _ _ _ _ _ B T' U'). congruence. }
    destruct (ty_eqb t u) eqn:E.
    - apply ty_eqb_spec in E. subst u. apply patch_type_miss. intros r R N F K.
      destruct (inv_field_type r R K) as (n' & f' & k' & t' & u' & P & _ & _ & _ & T' & U' & NE).
      unfold seg1, seg2, seg in *. rewrite P in *. cbn in *. subst n' f'. apply NE.
      transitivity t; [|apply UN; auto].
      apply field_member in T, T'. destruct T as (p & T), T' as (q & T').
      destruct (member_unique _ _ _ _ _ _ _ A T T'). congruence.
    - assert (NE : t <> u) by (intros ->; rewrite ty_eqb_refl in E; discriminate).
      pose proof (ps_change _ (ch_field_type a b n f k t u DA DB T U NE)) as R.
      eapply patch_type_hit; [apply ps_sorted|exact R|reflexivity|reflexivity|apply name_nonempty; exact NF|reflexivity|reflexivity|].
      intros r R' N F K. destruct (inv_field_type r R' K) as (n' & f' & k' & t' & u' & P & TX & _ & _ & T' & U' & NE').
      unfold seg1, seg2, seg in *. rewrite P in *. cbn in *. subst n' f'. rewrite TX. cbn. f_equal. apply UN; auto.
  Qed.

  (** The implemented interfaces. *)
  Lemma impl_removed : forall n i, patchable a b -> Composite a n -> Composite b n ->
    (is_interface_impl_removed ps n i = true <-> Implements a n i /\ ~ Implements b n i).
  Proof.
    intros n i P CA CB. unfold is_interface_impl_removed.
    assert (HIT : forall r, In r ps -> impl_cmp n i r = Eq -> rkind r = RemoveInterfaceImplementation /\ c_path (fst r) = PImpl n i).
    { intros r R C. unfold impl_cmp in C.
      destruct (String.compare (seg1 r) n) eqn:C1; try discriminate.
      destruct (String.compare (trim (seg2 r)) i) eqn:C2; try discriminate.
      apply compare_eq in C1, C2. apply Nat.compare_eq in C.
      assert (K : rkind r = RemoveInterfaceImplementation) by (apply ckind_rank_inj; exact C).
      split; [exact K|]. destruct (inv_remove_impl r R K) as (n' & i' & PA & I & _).
      unfold seg1, seg2, seg in *. rewrite PA in *. cbn in C1, C2. rewrite (name_trim i') in C2 by exact (impl_name a n' i' NA I).
      congruence. }
    destruct (bsearch (impl_cmp n i) ps) as [j|j] eqn:E.
    - split; [intros _|reflexivity]. destruct (bsearch_hit _ _ _ _ E) as (r & R & _ & C).
      destruct (HIT r R C) as [K PA]. destruct (inv_remove_impl r R K) as (n' & i' & PA' & I & N).
      rewrite PA in PA'. injection PA' as -> ->. auto.
    - split; [discriminate|]. intros [I N]. exfalso.
      pose proof (ps_change _ (ch_remove_impl a b n i CA CB I N)) as R.
      assert (NI : is_name i = true) by exact (impl_name a n i NA I).
      destruct (bsearch_hits _ (impl_cmp n i) ps (mkchange (PImpl n i) RemoveInterfaceImplementation NoText,
        separated b (mkchange (PImpl n i) RemoveInterfaceImplementation NoText))) as (j' & E').
      + (* the list is ordered for this comparison *)
        eapply sorted_ordered; [apply ps_sorted|]. cbn beta. intros x y X Y LE. unfold impl_cmp.
        change (String.compare (seg1 x) n) with (String.compare (fst (fst (seg x))) n).
        change (String.compare (seg1 y) n) with (String.compare (fst (fst (seg y))) n).
        unfold cmp3 in LE. destruct (String.compare (fst (fst (seg x))) (fst (fst (seg y)))) eqn:C1; [|clear LE|contradiction].
        2:{ destruct (String.compare (fst (fst (seg y))) n) eqn:C2.
            - apply compare_eq in C2. subst n. rewrite C1. cbn. lia.
            - rewrite (compare_trans_lt _ _ _ C1 C2). cbn. lia.
            - destruct (String.compare (fst (fst (seg x))) n); cbn; try lia.
              destruct (String.compare (trim (seg2 x)) i); cbn; try lia. destruct (Nat.compare _ _); cbn; lia. }
        apply compare_eq in C1. rewrite <- C1.
        destruct (String.compare (fst (fst (seg x))) n) eqn:C2; [|lia|lia]. apply compare_eq in C2.
        assert (N1 : seg1 x = n) by exact C2. assert (N2 : seg1 y = n) by (unfold seg1; congruence).
        fold (seg2 x) (seg2 y) in LE.
        (* the second segments, without the `&` *)
        assert (SEC : forall r, In r ps -> seg1 r = n ->
                  String.compare (trim (seg2 r)) i = Lt /\ seg2 r = "" \/
                  (exists q, seg2 r = String.append "&" q /\ trim (seg2 r) = q /\
                     (rkind r = AddInterfaceImplementation \/ rkind r = RemoveInterfaceImplementation)) \/
                  String.compare (trim (seg2 r)) i = Gt /\ is_name (seg2 r) = true).
        { intros r R' NR. destruct (inv_second r R') as [H|[(n' & q & S' & NQ & K)|[H M]]].
          - left. destruct (seg2 r); [|discriminate]. split; [|reflexivity].
            destruct (name_first i NI) as (c & s' & -> & _). reflexivity.
          - right; left. exists q. unfold seg2. rewrite S'. cbn [fst snd]. rewrite trim_amp, (name_trim q NQ). auto.
          - right; right. split; [|exact H]. rewrite (name_trim _ H), compare_flip.
            rewrite NR in M. rewrite (pa_impls a b P n i (seg2 r) I N M). reflexivity. }
        destruct (SEC x X N1) as [[H1 _]|[(q & H1 & H2 & K1)|[H1 H2]]].
        * rewrite H1. cbn. lia.
        * destruct (SEC y Y N2) as [[_ G2]|[(q' & G1 & G2 & K2)|[G1 G2]]].
          -- exfalso. rewrite H1, G2 in LE. cbn in LE. congruence.
          -- rewrite H1, G1 in LE. rewrite H2, G2.
             change (String.append "&" q) with (String "&" q) in LE. change (String.append "&" q') with (String "&" q') in LE.
             assert (LE' : String.compare q q' <> Gt).
             { cbn in LE. destruct (String.compare q q'); [congruence|congruence|]. exact LE. }
             clear LE. pose proof (compare_mono q q' i LE') as M.
             destruct (String.compare q i) eqn:Q1, (String.compare q' i) eqn:Q2; cbn in M; try lia; cbn [rank]; try lia.
             ++ apply compare_eq in Q1, Q2. subst q q'.
                assert (KR : forall r, In r ps -> seg1 r = n -> trim (seg2 r) = i ->
                          (rkind r = AddInterfaceImplementation \/ rkind r = RemoveInterfaceImplementation) ->
                          rkind r = RemoveInterfaceImplementation).
                { intros r R' NR TR [K|K]; [|exact K]. exfalso.
                  destruct (inv_add_impl r R' K) as (n' & i' & PA & NI' & I').
                  unfold seg1, seg2, seg in *. rewrite PA in *. cbn in NR, TR.
                  rewrite (name_trim i') in TR by exact (impl_name b n' i' NB I'). subst. contradiction. }
                rewrite (KR x X N1 Q1 K1), (KR y Y N2 Q2 K2). lia.
             ++ destruct (Nat.compare _ _); cbn; lia.
          -- rewrite G1. cbn [rank].
             destruct (String.compare (trim (seg2 x)) i); cbn; try lia. destruct (Nat.compare _ _); cbn; lia.
        * destruct (SEC y Y N2) as [[_ G2]|[(q' & G1 & G2 & K2)|[G1 G2]]].
          -- exfalso. rewrite G2 in LE. destruct (seg2 x); [discriminate H2|]. apply LE. reflexivity.
          -- exfalso. apply LE. rewrite G1. rewrite compare_flip. destruct (name_amp (seg2 x) H2) as [_ AM]. rewrite AM. reflexivity.
          -- rewrite H1, G1. lia.
      + exact R.
      + unfold impl_cmp, seg1, seg2, seg. cbn [fst snd c_path segments rkind c_kind].
        rewrite compare_refl, trim_amp, (name_trim i NI), compare_refl. reflexivity.
      + congruence.
  Qed.

  Lemma implements_patched : forall n, patchable a b -> Composite a n -> Composite b n ->
    forall impls, In (n, impls) (impls_of a) -> forall i, In i (patch_implements ps n impls) <-> Implements b n i.
  Proof.
    intros n P CA CB impls IM i. unfold patch_implements. rewrite dedup_in, sort_in, filter_In, in_app_iff, negb_true_iff.
    rewrite <- (implements_in a n i A impls IM).
    assert (AD : In i (added_interface_impls ps n) <-> ~ Implements a n i /\ Implements b n i).
    { rewrite (added_impls_in ps n ps_sorted). split.
      - intros (r & R & N & K & T). destruct (inv_add_impl r R K) as (n' & i' & PA & NI & I).
        unfold seg1, seg2, seg in *. rewrite PA in *. cbn in N, T.
        rewrite (name_trim i') in T by exact (impl_name b n' i' NB I). subst. auto.
      - intros [N I]. pose proof (ps_change _ (ch_add_impl a b n i CA CB N I)) as R.
        eexists. split; [exact R|]. split; [reflexivity|]. split; [reflexivity|].
        change (trim (String.append "&" i) = i). rewrite trim_amp. apply name_trim. exact (impl_name b n i NB I). }
    rewrite AD. pose proof (impl_removed n i P CA CB) as RE.
    assert (RF : is_interface_impl_removed ps n i = false <-> ~ (Implements a n i /\ ~ Implements b n i)).
    { rewrite <- RE. destruct (is_interface_impl_removed ps n i); split; congruence. }
    rewrite RF. destruct (implements_dec a n i A), (implements_dec b n i B); tauto.
  Qed.

  (** The arguments of a field. *)
  Lemma run_together_false : forall q, (forall e, In e q -> negb (snd e) && ends_in_word (fst e) = false) ->
    run_together q = false.
  Proof.
    induction q as [|[x s] q IH]; intros H; [reflexivity|]. cbn. destruct q as [|e q]; [reflexivity|].
    pose proof (H (x, s) (or_introl eq_refl)) as H0. cbn in H0. rewrite H0. apply IH. intros; apply H; right; auto.
  Qed.

  Lemma flat_map_single : forall X Y (h : X -> list Y) q x, NoDup q -> In x q ->
    (forall y, In y q -> y <> x -> h y = nil) -> flat_map h q = h x.
  Proof.
    induction q as [|y q IH]; intros x ND X0 H; [contradiction|]. inversion ND as [|? ? NIN ND']; subst. cbn.
    destruct X0 as [->|X0].
    - assert (Z : flat_map h q = nil).
      { clear IH ND ND'. assert (G : forall z, In z q -> h z = nil).
        { intros z Z. apply H; [right; exact Z|]. intros ->. contradiction. }
        clear H NIN. induction q as [|z q IH]; [reflexivity|]. cbn. rewrite G by (left; reflexivity). apply IH.
        intros; apply G; right; auto. }
      rewrite Z, app_nil_r. reflexivity.
    - rewrite (H y (or_introl eq_refl)) by (intros ->; contradiction). cbn. apply IH; auto.
      intros z Z. apply H. right. exact Z.
  Qed.

  Lemma filter_flat_map : forall X Y (p : Y -> bool) (g : X -> list Y) q,
    filter p (flat_map g q) = flat_map (fun x => filter p (g x)) q.
  Proof. induction q as [|x q IH]; cbn; [reflexivity|]. rewrite filter_app, IH. reflexivity. Qed.

  Lemma NoDup_of_map : forall X Y (g : X -> Y) q, NoDup (map g q) -> NoDup q.
  Proof.
    induction q as [|x q IH]; intros H; [constructor|]. cbn in H. inversion H; subst. constructor; auto.
    intros X0. apply H2. apply in_map. exact X0.
  Qed.

  Lemma last_arg_spec : forall n f q, last_arg b n f = Some q -> forall y, HasArg b n f y -> i_name y = q -> LastArg b n f y.
  Proof.
    intros n f q LA y H E. unfold last_arg in LA.
    assert (FIND : exists t fs x, HasType b t /\ tdef_name t = n /\ (exists impls, t = TObject n impls fs \/ t = TInterface n impls fs) /\
              In x fs /\ f_name x = f /\ In y (f_args x)).
    { destruct H as [impls fs x i T X F I|impls fs x i T X F I].
      - exists (TObject n impls fs), fs, x. split; [exact T|]. split; [reflexivity|]. split; [eauto|auto].
      - exists (TInterface n impls fs), fs, x. split; [exact T|]. split; [reflexivity|]. split; [eauto|auto]. }
    destruct FIND as (t & fs & x & T & TN & (impls & SH) & X & F & I).
    assert (OK : tdef_ok t) by exact (type_ok b t B T).
    assert (OKF : NoDup (map f_name fs) /\ field_ok x).
    { destruct SH as [-> | ->]; cbn in OK; destruct OK as (_ & O1 & O2); rewrite Forall_forall in O2; auto. }
    destruct OKF as [OF OX].
    assert (EQ : filter (fun e => key2_eqb (fst (fst e)) (n, f)) (args_of b) = map (fun z => (((n, f), i_name z), z)) (f_args x)).
    { unfold args_of. rewrite filter_flat_map.
      rewrite (flat_map_single _ _ _ _ t).
      - assert (TA : tdef_args t = flat_map (fun x => map (fun z => (((n, f_name x), i_name z), z)) (f_args x)) fs)
          by (destruct SH as [-> | ->]; reflexivity).
        rewrite TA, filter_flat_map, (flat_map_single _ _ _ _ x).
        + rewrite F. clear. induction (f_args x) as [|z r IH]; cbn; [reflexivity|].
          rewrite (proj2 (key2_eqb_spec (n, f) (n, f)) eq_refl). f_equal. exact IH.
        + eapply NoDup_of_map. exact OF.
        + exact X.
        + intros z Z NE. assert (FN : f_name z <> f).
          { intros Q. apply NE. clear - OF Z X Q F. induction fs as [|w r IH]; [contradiction|].
            cbn in OF. inversion OF; subst. destruct Z as [->|Z], X as [->|X]; auto.
            - exfalso. apply H1. rewrite Q. apply in_map. exact X.
            - exfalso. apply H1. rewrite <- Q. apply in_map. exact Z. }
          induction (f_args z) as [|w r IH]; cbn; [reflexivity|].
          destruct (key2_eqb (n, f_name z) (n, f)) eqn:K; [|exact IH].
          apply key2_eqb_spec in K. congruence.
      - apply NoDup_of_map with (g := tdef_name). apply tdefs_names. apply ok_names. exact B.
      - apply tdefs_in. exact T.
      - intros u U NE.
        assert (UN : tdef_name u <> n).
        { intros Q. apply NE. apply (type_unique b u t B); [apply tdefs_in; exact U|exact T|congruence]. }
        assert (ALL : forall e, In e (tdef_args u) -> fst (fst (fst e)) = tdef_name u).
        { intros e EI. destruct u; cbn in EI; try contradiction; apply in_flat_map in EI; destruct EI as (w & _ & W);
            apply in_map_iff in W; destruct W as (z & <- & _); reflexivity. }
        induction (tdef_args u) as [|e r IH]; cbn; [reflexivity|].
        match goal with |- (if ?c then _ else _) = _ => destruct c eqn:K end.
        + exfalso. apply key2_eqb_spec in K. apply UN. pose proof (ALL e (or_introl eq_refl)) as Q.
          destruct e as [[[e1 e2] e3] e4]. cbn in K, Q. congruence.
        + apply IH. intros; apply ALL; right; auto. }
    rewrite EQ, map_map in LA. cbn in LA.
    destruct (exists_last (l := f_args x)) as (pre & z & EZ); [intros Q; rewrite Q in I; contradiction|].
    rewrite EZ, map_app in LA. cbn in LA. rewrite last_last in LA. injection LA as LA.
    assert (y = z).
    { unfold field_ok in OX. rewrite EZ in OX, I. assert (LA' : i_name z = i_name y) by congruence. clear - OX I LA'.
      apply in_app_or in I. destruct I as [I|[->|[]]]; [|reflexivity]. exfalso.
      rewrite map_app in OX. cbn in OX. apply NoDup_remove_2 in OX. apply OX. rewrite app_nil_r.
      rewrite LA'. apply in_map. exact I. }
    subst z. destruct SH as [-> | ->]; [eapply last_object|eapply last_interface]; eauto.
  Qed.

  Lemma args_patched : forall n f args args1, patchable a b -> is_name n = true ->
    is_member a n f -> is_member b n f ->
    (forall x, HasArg a n f x <-> In x args) -> (forall y, HasArg b n f y <-> In y args1) ->
    exists args', patch_args (iter_second_level ps n) f args = Some args' /\ forall i, In i args' <-> In i args1.
  Proof.
    intros n f args args1 P NN MA MB HA HB.
    assert (NF : is_name f = true) by (destruct MA as (t & p & M); exact (member_name a n f t p NA M)).
    unfold patch_args.
    set (kept := filter _ args). set (added := flat_map _ (iter_second_level ps n)).
    assert (KEPT : forall x, In x kept <-> In x args /\ exists y, In y args1 /\ i_name y = i_name x).
    { intros x. unfold kept. rewrite filter_In, negb_true_iff. split.
      - intros [X NO]. split; [exact X|].
        destruct (args_last b n f (i_name x) B) as [(y & _ & Y & E)|(_ & Y)].
        + exists y. split; [apply HB; exact Y|congruence].
        + exfalso. apply HA in X. pose proof (ps_change _ (ch_remove_arg a b n f x MB X Y)) as R.
          apply not_true_iff_false in NO. apply NO. apply existsb_exists.
          eexists. split; [apply second_in; split; [exact R|split; [reflexivity|apply name_nonempty; exact NF]]|].
          unfold rkind, seg2, seg3, seg. cbn. rewrite !String.eqb_refl. reflexivity.
      - intros [X (y & Y & E)]. split; [exact X|]. apply not_true_iff_false. intros EX.
        apply existsb_exists in EX. destruct EX as (r & R & C). apply second_in in R. destruct R as (R & N & _).
        rewrite !andb_true_iff, !String.eqb_eq, ckind_eqb_spec in C. destruct C as [[K F] Q].
        destruct (inv_remove_arg r R K) as (n' & f' & x' & PA & _ & _ & NO).
        unfold seg1, seg2, seg3, seg in *. rewrite PA in *. cbn in N, F, Q. subst.
        apply (NO y); [apply HB; exact Y|congruence]. }
    assert (ADDED : forall e, In e added <-> In (fst e) args1 /\ (forall x, In x args -> i_name x <> i_name (fst e)) /\
              snd e = separated b (mkchange (PArg n f (i_name (fst e))) AddFieldArgument (InputText (fst e)))).
    { intros [y s]. unfold added. rewrite in_flat_map. cbn [fst snd]. split.
      - intros (r & R & C). apply second_in in R. destruct R as (R & N & _).
        destruct (ckind_eqb (rkind r) AddFieldArgument && String.eqb (seg2 r) f) eqn:G; [|contradiction].
        apply andb_true_iff in G. destruct G as [K F]. apply ckind_eqb_spec in K. apply String.eqb_eq in F.
        destruct (inv_add_arg r R K) as (n' & f' & y' & PA & TX & SE & _ & NO & Y).
        rewrite TX in C. destruct C as [C|[]]. injection C as -> <-.
        unfold seg1, seg2, seg in *. rewrite PA in *. cbn in N, F. subst n' f'.
        split; [apply HB; exact Y|]. split; [intros x X; apply NO, HA, X|].
        rewrite SE. unfold separated. rewrite PA. reflexivity.
      - intros (Y & NO & ->).
        assert (NO' : forall x, HasArg a n f x -> i_name x <> i_name y) by (intros x X; apply NO, HA, X).
        pose proof (ps_change _ (ch_add_arg a b n f y MA NO' (proj2 (HB y) Y))) as R.
        eexists. split; [apply second_in; split; [exact R|split; [reflexivity|apply name_nonempty; exact NF]]|].
        unfold rkind, seg2, seg, rtext. cbn. rewrite String.eqb_refl. left. reflexivity. }
    rewrite run_together_false.
    - eexists. split; [reflexivity|]. intros i. rewrite map_app, map_map, map_id, in_app_iff, in_map_iff, KEPT. split.
      + intros [(e & <- & E)|[X (y & Y & E)]].
        * apply ADDED in E. tauto.
        * assert (i = y); [|congruence]. apply (pa_args a b P n f); [apply HA; exact X|apply HB; exact Y|congruence].
      + intros Y. destruct (args_last a n f (i_name i) A) as [(x & _ & X & E)|(_ & X)].
        * right. assert (x = i). { apply (pa_args a b P n f); [exact X|apply HB; exact Y|exact E]. }
          subst x. split; [apply HA; exact X|eauto].
        * left. eexists (i, _). split; [reflexivity|]. apply ADDED. cbn. split; [exact Y|]. split; [|reflexivity].
          intros x X' E. apply (X x); [apply HA; exact X'|exact E].
    - intros [y s] E. apply in_app_or in E. destruct E as [E|E].
      + apply ADDED in E. cbn in E. destruct E as (Y & NO & ->). cbn [fst snd].
        match goal with |- negb ?s && _ = false => destruct s eqn:SE end; [reflexivity|]. cbn. unfold separated in SE. cbn in SE.
        apply negb_false_iff in SE. destruct (last_arg b n f) as [q|] eqn:LA; [|discriminate].
        apply String.eqb_eq in SE. subst q.
        pose proof (last_arg_spec n f _ LA y (proj2 (HB y) Y) eq_refl) as LS.
        destruct (pa_last a b P n f y MA LS) as [(x & X & E)|E]; [|exact E].
        exfalso. apply (NO x); [apply HA; exact X|exact E].
      + apply in_map_iff in E. destruct E as (x & E & _). injection E as -> <-. reflexivity.
  Qed.

  (** The fields of an object or interface. *)
  Record Fields (d : doc) (n : string) (k : kind) (fs : list field) : Prop := {
    fl_def : Defines d n k;
    fl_kind : k = KObject \/ k = KInterface;
    fl_in : forall x, In x fs -> Member d n (f_name x) (Some (f_type x)) (FieldText x);
    fl_all : forall f t p, Member d n f t p -> exists x, In x fs /\ f_name x = f /\ t = Some (f_type x) /\ p = FieldText x;
    fl_args : forall x, In x fs -> forall i, HasArg d n (f_name x) i <-> In i (f_args x);
  }.

  Lemma object_fields : forall d n impls fs, doc_ok d -> HasType d (TObject n impls fs) -> Fields d n KObject fs.
  Proof.
    intros d n impls fs OK T.
    assert (UN : forall u, HasType d u -> tdef_name u = n -> u = TObject n impls fs).
    { intros u U E. apply (type_unique d u _ OK U T). exact E. }
    pose proof (type_ok d _ OK T) as (_ & ND & _).
    constructor.
    - destruct T as [T|T]; [apply (defines_type d n _ T eq_refl)|apply (defines_ext d n _ T eq_refl)].
    - auto.
    - intros x X. eapply member_object; eauto.
    - intros f t p M. destruct M as [i' f' x U X E|i' f' x U X E|f' x U X E|vs U X|vs U X];
        pose proof (UN _ U eq_refl) as Q; try discriminate. injection Q as -> ->. eauto.
    - intros x X i. split.
      + intros H. destruct H as [i' f' y z U Y E Z|i' f' y z U Y E Z]; pose proof (UN _ U eq_refl) as Q; try discriminate.
        injection Q as -> ->. assert (y = x); [|congruence].
        clear - ND X Y E. induction fs as [|w r IH]; [contradiction|]. cbn in ND. inversion ND; subst.
        destruct X as [->|X], Y as [->|Y]; auto.
        * exfalso. apply H1. rewrite <- E. apply in_map. exact Y.
        * exfalso. apply H1. rewrite E. apply in_map. exact X.
      + intros I. eapply arg_object; eauto.
  Qed.

  Lemma interface_fields : forall d n impls fs, doc_ok d -> HasType d (TInterface n impls fs) -> Fields d n KInterface fs.
  Proof.
    intros d n impls fs OK T.
    assert (UN : forall u, HasType d u -> tdef_name u = n -> u = TInterface n impls fs).
    { intros u U E. apply (type_unique d u _ OK U T). exact E. }
    pose proof (type_ok d _ OK T) as (_ & ND & _).
    constructor.
    - destruct T as [T|T]; [apply (defines_type d n _ T eq_refl)|apply (defines_ext d n _ T eq_refl)].
    - auto.
    - intros x X. eapply member_interface; eauto.
    - intros f t p M. destruct M as [i' f' x U X E|i' f' x U X E|f' x U X E|vs U X|vs U X];
        pose proof (UN _ U eq_refl) as Q; try discriminate. injection Q as -> ->. eauto.
    - intros x X i. split.
      + intros H. destruct H as [i' f' y z U Y E Z|i' f' y z U Y E Z]; pose proof (UN _ U eq_refl) as Q; try discriminate.
        injection Q as -> ->. assert (y = x); [|congruence].
        clear - ND X Y E. induction fs as [|w r IH]; [contradiction|]. cbn in ND. inversion ND; subst.
        destruct X as [->|X], Y as [->|Y]; auto.
        * exfalso. apply H1. rewrite <- E. apply in_map. exact Y.
        * exfalso. apply H1. rewrite E. apply in_map. exact X.
      + intros I. eapply arg_interface; eauto.
  Qed.

  Definition feq (x y : field) : Prop :=
    f_name x = f_name y /\ f_type x = f_type y /\ forall i, In i (f_args x) <-> In i (f_args y).

  Definition fields_eq (xs ys : list field) : Prop :=
    (forall x, In x xs -> exists y, In y ys /\ feq x y) /\ (forall y, In y ys -> exists x, In x xs /\ feq x y).

  Lemma traverse_some : forall X Y (g : X -> option Y) q, (forall x, In x q -> exists y, g x = Some y) ->
    exists r, traverse g q = Some r /\ forall y, In y r <-> exists x, In x q /\ g x = Some y.
  Proof.
    induction q as [|x q IH]; intros H; cbn.
    - exists nil. split; [reflexivity|]. intros y. split; [contradiction|]. intros (x & [] & _).
    - destruct (H x (or_introl eq_refl)) as (y & GY). rewrite GY.
      destruct IH as (r & R & RI); [intros; apply H; right; auto|]. rewrite R. eexists. split; [reflexivity|].
      intros z. cbn. rewrite RI. split.
      + intros [->|(w & W & E)]; eauto.
      + intros (w & [->|W] & E); [left; congruence|right; eauto].
  Qed.

  Lemma fields_patched : forall n k fs fs1, patchable a b -> Fields a n k fs -> Fields b n k fs1 ->
    exists fs', patch_fields ps n fs = Some fs' /\ fields_eq fs' fs1.
  Proof.
    intros n k fs fs1 P FA FB. unfold patch_fields.
    assert (NN : is_name n = true) by exact (defines_name a n k NA (fl_def _ _ _ _ FA)).
    assert (AK : add_member_kind k = AddField /\ remove_member_kind k = RemoveField)
      by (destruct (fl_kind _ _ _ _ FA) as [-> | ->]; auto).
    destruct AK as [AK RK].
    set (l2 := iter_second_level ps n).
    set (added := flat_map _ l2).
    assert (ADDED : forall y, In y added <-> In y fs1 /\ no_member a n (f_name y)).
    { intros y. unfold added. rewrite in_flat_map. split.
      - intros (r & R & C). apply second_in in R. destruct R as (R & N & _).
        destruct (ckind_eqb (rkind r) AddField) eqn:K; [|contradiction]. apply ckind_eqb_spec in K.
        rewrite <- AK in K. destruct (inv_add_member r k R K) as (n' & f' & j & t & PA & _ & _ & _ & NM & M).
        destruct (rtext r) eqn:TX; try contradiction. destruct C as [->|[]].
        unfold seg1, seg in N. rewrite PA in N. cbn in N. subst n'.
        destruct (fl_all _ _ _ _ FB _ _ _ M) as (x & X & E & _ & Q). injection Q as ->. subst f'. auto.
      - intros [Y NM]. pose proof (fl_in _ _ _ _ FB y Y) as M.
        pose proof (ps_change _ (ch_add_member a b n (f_name y) k _ _ (fl_def _ _ _ _ FA) (fl_def _ _ _ _ FB) NM M)) as R.
        eexists. split; [apply second_in; split; [exact R|split; [reflexivity|]]|].
        + apply name_nonempty. exact (member_name b n _ _ _ NB M).
        + unfold rkind, rtext. cbn [fst c_kind c_text]. rewrite AK. cbn. auto. }
    assert (EACH : forall x, In x fs -> forall y, In y fs1 -> f_name x = f_name y ->
              exists z, patch_field l2 x = Some z /\ feq z y).
    { intros x X y Y E. unfold patch_field.
      pose proof (fl_in _ _ _ _ FA x X) as MX. pose proof (fl_in _ _ _ _ FB y Y) as MY.
      destruct (args_patched n (f_name x) (f_args x) (f_args y) P NN) as (args' & EA & HA).
      - eexists; eexists; exact MX.
      - rewrite E. eexists; eexists; exact MY.
      - apply (fl_args _ _ _ _ FA x X).
      - rewrite E. apply (fl_args _ _ _ _ FB y Y).
      - fold l2 in EA. rewrite EA. eexists. split; [reflexivity|]. split; [cbn; exact E|]. split; [|cbn; exact HA]. cbn.
        apply (type_changed n k); [apply (fl_def _ _ _ _ FA)|apply (fl_def _ _ _ _ FB)| |].
        + apply field_member. eauto.
        + rewrite E. apply field_member. eauto. }
    assert (NR : forall x, In x fs -> (searched (names_of RemoveField l2) (f_name x) = false <-> exists y, In y fs1 /\ f_name x = f_name y)).
    { intros x X. pose proof (fl_in _ _ _ _ FA x X) as MX. rewrite searched_false, <- RK. unfold l2.
      rewrite (removed_in n k (f_name x) (member_name a n _ _ _ NA MX) (fl_def _ _ _ _ FA) (fl_def _ _ _ _ FB)). split.
      - intros NO. destruct (fields_last b n (f_name x) B) as [(t & p & _ & M)|(_ & M)].
        + destruct (fl_all _ _ _ _ FB _ _ _ M) as (y & Y & E & _). eauto.
        + exfalso. apply NO. split; [eexists; eexists; exact MX|exact M].
      - intros (y & Y & E) [_ NM]. apply (NM (Some (f_type y)) (FieldText y)). rewrite E. apply (fl_in _ _ _ _ FB y Y). }
    destruct (traverse_some _ _ (patch_field l2) (filter (fun x => negb (searched (names_of RemoveField l2) (f_name x))) fs)) as (r & TR & RI).
    { intros x X. apply filter_In in X. destruct X as [X S1]. apply negb_true_iff in S1. apply NR in S1; [|exact X].
      destruct S1 as (y & Y & E). destruct (EACH x X y Y E) as (z & Z & _). eauto. }
    rewrite TR. eexists. split; [reflexivity|]. split.
    - intros z Z. apply in_app_or in Z. destruct Z as [Z|Z].
      + apply ADDED in Z. exists z. split; [tauto|]. split; [reflexivity|]. split; [reflexivity|]. reflexivity.
      + apply RI in Z. destruct Z as (x & X & E). apply filter_In in X. destruct X as [X S1]. apply negb_true_iff in S1.
        apply NR in S1; [|exact X]. destruct S1 as (y & Y & EN). destruct (EACH x X y Y EN) as (z' & Z' & Q).
        exists y. split; [exact Y|]. congruence.
    - intros y Y. destruct (fields_last a n (f_name y) A) as [(t & p & _ & M)|(_ & M)].
      + destruct (fl_all _ _ _ _ FA _ _ _ M) as (x & X & E & _). destruct (EACH x X y Y E) as (z & Z & Q).
        exists z. split; [|exact Q]. apply in_or_app. right. apply RI. exists x. split; [|exact Z].
        apply filter_In. split; [exact X|]. apply negb_true_iff. apply NR; eauto.
      + exists y. split; [|split; [reflexivity|split; [reflexivity|reflexivity]]]. apply in_or_app. left. apply ADDED. auto.
  Qed.

  (** The fields of an input object, the values of an enum and the members of a
      union. *)
  Lemma inputs_patched : forall n fs fs1, HasType a (TInput n fs) -> HasType b (TInput n fs1) ->
    forall f t, (exists x, In x (patch_input_object ps n fs) /\ i_name x = f /\ i_type x = t) <->
                (exists y, In y fs1 /\ i_name y = f /\ i_type y = t).
  Proof.
    intros n fs fs1 TA TB f t.
    assert (DA : Defines a n KInput) by (destruct TA as [T|T]; [apply (defines_type a n _ T eq_refl)|apply (defines_ext a n _ T eq_refl)]).
    assert (DB : Defines b n KInput) by (destruct TB as [T|T]; [apply (defines_type b n _ T eq_refl)|apply (defines_ext b n _ T eq_refl)]).
    assert (MA : forall f t p, Member a n f t p -> exists x, In x fs /\ i_name x = f /\ t = Some (i_type x) /\ p = InputText x).
    { intros f' t' p M. destruct M as [i' fs' x U X E|i' fs' x U X E|fs' x U X E|vs U X|vs U X];
        pose proof (type_unique a _ _ A U TA eq_refl) as Q; try discriminate. injection Q as ->. eauto. }
    assert (MB : forall f t p, Member b n f t p -> exists x, In x fs1 /\ i_name x = f /\ t = Some (i_type x) /\ p = InputText x).
    { intros f' t' p M. destruct M as [i' fs' x U X E|i' fs' x U X E|fs' x U X E|vs U X|vs U X];
        pose proof (type_unique b _ _ B U TB eq_refl) as Q; try discriminate. injection Q as ->. eauto. }
    assert (IA : forall x, In x fs -> Member a n (i_name x) (Some (i_type x)) (InputText x)) by (intros; eapply member_input; eauto).
    assert (IB : forall x, In x fs1 -> Member b n (i_name x) (Some (i_type x)) (InputText x)) by (intros; eapply member_input; eauto).
    unfold patch_input_object. set (l2 := iter_second_level ps n).
    set (added := flat_map _ l2).
    assert (ADDED : forall y, In y added <-> In y fs1 /\ no_member a n (i_name y)).
    { intros y. unfold added. rewrite in_flat_map. split.
      - intros (r & R & C). apply second_in in R. destruct R as (R & N & _).
        destruct (ckind_eqb (rkind r) AddField) eqn:K; [|contradiction]. apply ckind_eqb_spec in K.
        destruct (inv_add_member r KInput R K) as (n' & f' & j & t' & PA & _ & _ & _ & NM & M).
        destruct (rtext r) eqn:TX; try contradiction. destruct C as [->|[]].
        unfold seg1, seg in N. rewrite PA in N. cbn in N. subst n'.
        destruct (MB _ _ _ M) as (x & X & E & _ & Q). injection Q as ->. subst f'. auto.
      - intros [Y NM]. pose proof (IB y Y) as M.
        pose proof (ps_change _ (ch_add_member a b n (i_name y) KInput _ _ DA DB NM M)) as R.
        eexists. split; [apply second_in; split; [exact R|split; [reflexivity|]]|].
        + apply name_nonempty. exact (member_name b n _ _ _ NB M).
        + unfold rkind, rtext. cbn. auto. }
    assert (NR : forall x, In x fs -> (searched (names_of RemoveField l2) (i_name x) = false <-> exists y, In y fs1 /\ i_name x = i_name y)).
    { intros x X. pose proof (IA x X) as MX. rewrite searched_false. change RemoveField with (remove_member_kind KInput). unfold l2.
      rewrite (removed_in n KInput (i_name x) (member_name a n _ _ _ NA MX) DA DB). split.
      - intros NO. destruct (fields_last b n (i_name x) B) as [(t' & p & _ & M)|(_ & M)].
        + destruct (MB _ _ _ M) as (y & Y & E & _). eauto.
        + exfalso. apply NO. split; [eexists; eexists; exact MX|exact M].
      - intros (y & Y & E) [_ NM]. apply (NM (Some (i_type y)) (InputText y)). rewrite E. apply (IB y Y). }
    assert (TC : forall x, In x fs -> forall y, In y fs1 -> i_name x = i_name y ->
              patch_type (changed_types l2) (i_name x) (i_type x) = i_type y).
    { intros x X y Y E. apply (type_changed n KInput); auto.
      - apply field_member. eauto.
      - rewrite E. apply field_member. eauto. }
    split.
    - intros (z & Z & <- & <-). apply in_app_or in Z. destruct Z as [Z|Z].
      + apply ADDED in Z. exists z. tauto.
      + apply in_map_iff in Z. destruct Z as (x & <- & X). apply filter_In in X. destruct X as [X S1].
        apply negb_true_iff in S1. apply NR in S1; [|exact X]. destruct S1 as (y & Y & E).
        exists y. cbn. rewrite (TC x X y Y E). auto.
    - intros (y & Y & <- & <-). destruct (fields_last a n (i_name y) A) as [(t' & p & _ & M)|(_ & M)].
      + destruct (MA _ _ _ M) as (x & X & E & _).
        exists (mkinput (i_name x) (patch_type (changed_types l2) (i_name x) (i_type x)) None). split.
        * apply in_or_app. right. apply in_map_iff. exists x. split; [reflexivity|]. apply filter_In. split; [exact X|].
          apply negb_true_iff. apply NR; eauto.
        * cbn. rewrite (TC x X y Y E). auto.
      + exists y. split; [|auto]. apply in_or_app. left. apply ADDED. auto.
  Qed.

  Lemma values_kept : forall n k vs, Defines a n k -> Defines b n k ->
    (forall v, In v vs -> Member a n v None (ValueText v)) ->
    forall v, In v (filter (fun v => negb (searched (names_of (remove_member_kind k) (iter_second_level ps n)) v)) vs) <->
              In v vs /\ is_member b n v.
  Proof.
    intros n k vs DA DB MA v. rewrite filter_In, negb_true_iff, searched_false. split.
    - intros [V NO]. split; [exact V|]. rewrite (removed_in n k v (member_name a n v _ _ NA (MA v V)) DA DB) in NO.
      destruct (fields_last b n v B) as [(t & p & _ & M)|(_ & M)]; [exists t, p; exact M|].
      exfalso. apply NO. split; [|exact M]. eexists; eexists; exact (MA v V).
    - intros [V (t & p & M)]. split; [exact V|]. rewrite (removed_in n k v (member_name a n v _ _ NA (MA v V)) DA DB).
      intros [_ NM]. exact (NM _ _ M).
  Qed.

  Lemma enum_patched : forall n vs vs1, HasType a (TEnum n vs) -> HasType b (TEnum n vs1) ->
    forall v, In v (patch_enum_values ps n vs) <-> In v vs1.
  Proof.
    intros n vs vs1 TA TB v.
    assert (DA : Defines a n KEnum) by (destruct TA as [T|T]; [apply (defines_type a n _ T eq_refl)|apply (defines_ext a n _ T eq_refl)]).
    assert (DB : Defines b n KEnum) by (destruct TB as [T|T]; [apply (defines_type b n _ T eq_refl)|apply (defines_ext b n _ T eq_refl)]).
    assert (MA : forall f t p, Member a n f t p -> In f vs).
    { intros f' t' p M. destruct M as [i' fs' x U X E|i' fs' x U X E|fs' x U X E|vs' U X|vs' U X];
        pose proof (type_unique a _ _ A U TA eq_refl) as Q; try discriminate. injection Q as ->. exact X. }
    assert (MB : forall f t p, Member b n f t p -> In f vs1 /\ p = ValueText f).
    { intros f' t' p M. destruct M as [i' fs' x U X E|i' fs' x U X E|fs' x U X E|vs' U X|vs' U X];
        pose proof (type_unique b _ _ B U TB eq_refl) as Q; try discriminate. injection Q as ->. auto. }
    assert (IB : forall x, In x vs1 -> Member b n x None (ValueText x)) by (intros; eapply member_enum; eauto).
    unfold patch_enum_values. rewrite in_app_iff. change RemoveEnumValue with (remove_member_kind KEnum).
    rewrite (values_kept n KEnum vs DA DB) by (intros w W; eapply member_enum; eauto).
    rewrite in_flat_map. split.
    - intros [(r & R & C)|[_ (t & p & M)]]; [|exact (proj1 (MB _ _ _ M))].
      apply second_in in R. destruct R as (R & N & _).
      destruct (ckind_eqb (rkind r) AddEnumValue) eqn:K; [|contradiction]. apply ckind_eqb_spec in K.
      destruct (inv_add_member r KEnum R K) as (n' & f' & j & t' & PA & _ & _ & _ & NM & M).
      destruct (rtext r) eqn:TX; try contradiction. destruct C as [->|[]].
      unfold seg1, seg in N. rewrite PA in N. cbn in N. subst n'.
      destruct (MB _ _ _ M) as [V Q]. injection Q as ->. exact V.
    - intros V. destruct (fields_last a n v A) as [(t & p & _ & M)|(_ & M)].
      + right. split; [exact (MA _ _ _ M)|]. eexists; eexists; exact (IB v V).
      + left. pose proof (ps_change _ (ch_add_member a b n v KEnum _ _ DA DB M (IB v V))) as R.
        eexists. split; [apply second_in; split; [exact R|split; [reflexivity|]]|].
        * apply name_nonempty. exact (member_name b n _ _ _ NB (IB v V)).
        * unfold rkind, rtext. cbn. auto.
  Qed.

  Lemma union_patched : forall n vs vs1, HasType a (TUnion n vs) -> HasType b (TUnion n vs1) ->
    forall v, In v (patch_union ps n vs) <-> In v vs1.
  Proof.
    intros n vs vs1 TA TB v.
    assert (DA : Defines a n KUnion) by (destruct TA as [T|T]; [apply (defines_type a n _ T eq_refl)|apply (defines_ext a n _ T eq_refl)]).
    assert (DB : Defines b n KUnion) by (destruct TB as [T|T]; [apply (defines_type b n _ T eq_refl)|apply (defines_ext b n _ T eq_refl)]).
    assert (MA : forall f t p, Member a n f t p -> In f vs).
    { intros f' t' p M. destruct M as [i' fs' x U X E|i' fs' x U X E|fs' x U X E|vs' U X|vs' U X];
        pose proof (type_unique a _ _ A U TA eq_refl) as Q; try discriminate. injection Q as ->. exact X. }
    assert (MB : forall f t p, Member b n f t p -> In f vs1 /\ p = ValueText f).
    { intros f' t' p M. destruct M as [i' fs' x U X E|i' fs' x U X E|fs' x U X E|vs' U X|vs' U X];
        pose proof (type_unique b _ _ B U TB eq_refl) as Q; try discriminate. injection Q as ->. auto. }
    assert (IB : forall x, In x vs1 -> Member b n x None (ValueText x)) by (intros; eapply member_union; eauto).
    unfold patch_union. rewrite in_app_iff. change RemoveUnionMember with (remove_member_kind KUnion).
    rewrite (values_kept n KUnion vs DA DB) by (intros w W; eapply member_union; eauto).
    unfold names_of. rewrite in_map_iff. split.
    - intros [[_ (t & p & M)]|(r & E & C)]; [exact (proj1 (MB _ _ _ M))|].
      apply filter_In in C. destruct C as [R K]. apply second_in in R. destruct R as (R & N & _). apply ckind_eqb_spec in K.
      destruct (inv_add_member r KUnion R K) as (n' & f' & j & t' & PA & _ & _ & _ & NM & M).
      unfold seg1, seg2, seg in *. rewrite PA in *. cbn in N, E. subst n' f'.
      exact (proj1 (MB _ _ _ M)).
    - intros V. destruct (fields_last a n v A) as [(t & p & _ & M)|(_ & M)].
      + left. split; [exact (MA _ _ _ M)|]. eexists; eexists; exact (IB v V).
      + right. pose proof (ps_change _ (ch_add_member a b n v KUnion _ _ DA DB M (IB v V))) as R.
        eexists. rewrite filter_In, second_in. split; [|split; [split; [exact R|split; [reflexivity|]]|]].
        * reflexivity.
        * apply name_nonempty. exact (member_name b n _ _ _ NB (IB v V)).
        * reflexivity.
  Qed.

  (** Types *)

  (* The two definitions say the same, apart from default values in input
     objects. *)
  Inductive teq : tdef -> tdef -> Prop :=
  | teq_scalar n : teq (TScalar n) (TScalar n)
  | teq_object n im im' fs fs' : (forall i, In i im <-> In i im') -> fields_eq fs fs' -> teq (TObject n im fs) (TObject n im' fs')
  | teq_interface n im im' fs fs' : (forall i, In i im <-> In i im') -> fields_eq fs fs' -> teq (TInterface n im fs) (TInterface n im' fs')
  | teq_union n vs vs' : (forall v, In v vs <-> In v vs') -> teq (TUnion n vs) (TUnion n vs')
  | teq_enum n vs vs' : (forall v, In v vs <-> In v vs') -> teq (TEnum n vs) (TEnum n vs')
  | teq_input n fs fs' :
      (forall f t, (exists x, In x fs /\ i_name x = f /\ i_type x = t) <-> (exists y, In y fs' /\ i_name y = f /\ i_type y = t)) ->
      teq (TInput n fs) (TInput n fs').

  Lemma teq_refl : forall t, teq t t.
  Proof.
    assert (F : forall fs, fields_eq fs fs).
    { intros fs. split; intros x X; exists x; (split; [exact X|]); split; try reflexivity; split; reflexivity. }
    destruct t; constructor; auto; reflexivity.
  Qed.

  Lemma has_defines : forall d t, HasType d t -> Defines d (tdef_name t) (tdef_kind t).
  Proof. intros d t [T|T]; [apply (defines_type d _ t T eq_refl)|apply (defines_ext d _ t T eq_refl)]. Qed.

  Lemma defines_has : forall d n k, Defines d n k -> k <> KDirective -> exists t, HasType d t /\ tdef_name t = n /\ tdef_kind t = k.
  Proof.
    intros d n k [H|t H E|t H E] NK; [contradiction| |]; exists t; unfold HasType; auto.
  Qed.

  Lemma tdef_kind_type : forall t, tdef_kind t <> KDirective.
  Proof. destruct t; discriminate. Qed.

  Lemma type_removed : forall t0, HasType a t0 ->
    (existsb (fun r => removes_type (rkind r)) (iter_exact ps (tdef_name t0, "", "")) = true <->
     ~ Defines b (tdef_name t0) (tdef_kind t0)).
  Proof.
    intros t0 T0. rewrite existsb_exists. pose proof (has_defines a t0 T0) as DT. split.
    - intros (r & R & K). rewrite (iter_exact_in ps _ ps_sorted) in R. destruct R as [R SE].
      destruct r as [c s]. apply ps_in in R. destruct R as [C _]. cbn in C. unfold rkind, seg in *. cbn [fst] in *.
      cases C; cbn in K; try discriminate K; try (destruct k; discriminate K).
      cbn in SE. injection SE as ->. rewrite (kind_unique a _ k (tdef_kind t0) A DA DT) in ND. exact ND.
    - intros ND. pose proof (ps_change _ (ch_remove_type a b _ _ DT ND)) as R.
      eexists. split; [apply (iter_exact_in ps _ ps_sorted); split; [exact R|reflexivity]|].
      unfold rkind. cbn. destruct t0; reflexivity.
  Qed.

  Lemma tdef_patched : forall t t1, patchable a b -> HasType a t -> HasType b t1 ->
    tdef_name t = tdef_name t1 -> tdef_kind t = tdef_kind t1 ->
    exists t', patch_tdef ps t = Some [t'] /\ teq t' t1.
  Proof.
    intros t t1 P T T1 EN EK. unfold patch_tdef.
    destruct (existsb _ (iter_exact ps (tdef_name t, "", ""))) eqn:E.
    - exfalso. apply (type_removed t T) in E. apply E. rewrite EN, EK. apply has_defines. exact T1.
    - clear E. destruct t as [n|n im fs|n im fs|n vs|n vs|n fs], t1 as [n1|n1 im1 fs1|n1 im1 fs1|n1 vs1|n1 vs1|n1 fs1];
        try discriminate EK; cbn in EN; subst n1.
      + eexists. split; [reflexivity|constructor].
      + destruct (fields_patched n KObject fs fs1 P (object_fields a n im fs A T) (object_fields b n im1 fs1 B T1)) as (fs' & -> & F).
        eexists. split; [reflexivity|]. constructor; [|exact F]. intros i.
        rewrite (implements_patched n P).
        * rewrite (implements_in b n i B im1); [reflexivity|]. apply impls_in. eauto.
        * left. exact (has_defines a _ T).
        * left. exact (has_defines b _ T1).
        * apply impls_in. eauto.
      + destruct (fields_patched n KInterface fs fs1 P (interface_fields a n im fs A T) (interface_fields b n im1 fs1 B T1)) as (fs' & -> & F).
        eexists. split; [reflexivity|]. constructor; [|exact F]. intros i.
        rewrite (implements_patched n P).
        * rewrite (implements_in b n i B im1); [reflexivity|]. apply impls_in. eauto.
        * right. exact (has_defines a _ T).
        * right. exact (has_defines b _ T1).
        * apply impls_in. eauto.
      + eexists. split; [reflexivity|]. constructor. apply union_patched; auto.
      + eexists. split; [reflexivity|]. constructor. apply enum_patched; auto.
      + eexists. split; [reflexivity|]. constructor. apply inputs_patched; auto.
  Qed.

  (* Each definition of the source is patched. *)
  Lemma tdef_case : forall t, patchable a b -> HasType a t ->
    (exists t' t1, patch_tdef ps t = Some [t'] /\ HasType b t1 /\ tdef_name t = tdef_name t1 /\ tdef_kind t = tdef_kind t1 /\ teq t' t1) \/
    patch_tdef ps t = Some nil /\ ~ Defines b (tdef_name t) (tdef_kind t).
  Proof.
    intros t P T. destruct (defines_dec b (tdef_name t) (tdef_kind t) B) as [DB|ND].
    - left. destruct (defines_has b _ _ DB (tdef_kind_type t)) as (t1 & T1 & EN & EK).
      destruct (tdef_patched t t1 P T T1 (eq_sym EN) (eq_sym EK)) as (t' & E & Q). exists t', t1. auto.
    - right. split; [|exact ND]. unfold patch_tdef. rewrite (proj2 (type_removed t T) ND). reflexivity.
  Qed.

  Lemma patched_some : patchable a b -> forall x, In x a -> patch_def ps x <> None.
  Proof.
    intros P x X. destruct x as [r|r|n|t|t]; cbn; try discriminate.
    - destruct (tdef_case t P (or_introl X)) as [(t' & t1 & -> & _)|[-> _]]; discriminate.
    - destruct (tdef_case t P (or_intror X)) as [(t' & t1 & -> & _)|[-> _]]; discriminate.
  Qed.

  (** The added definitions. *)
  Lemma added_in : forall z, In z (added_defs ps) <->
    (exists y, z = DSchema y /\ (forall r, ~ In (DSchema r) a) /\ In z b) \/
    (exists i y, z = DSchemaExt y /\ nth_error (schema_exts b) i = Some y /\ length (schema_exts a) <= i) \/
    (exists n k, In z b /\ In n (def_name z) /\ def_kind z = Some k /\ ~ Defines a n k).
  Proof.
    intros z. unfold added_defs. rewrite in_flat_map. split.
    - intros (r & R & C). unfold iter_top_level in R. apply filter_In in R. destruct R as [R _].
      destruct r as [c s]. apply ps_in in R. destruct R as [CH _]. cbn in CH. unfold rkind, rtext in C. cbn [fst] in C.
      cases CH; cbn in C; try contradiction; try (destruct k; contradiction).
      + left. destruct C as [<-|[]]. eauto.
      + right; left. destruct C as [<-|[]]. eauto.
      + right; right. assert (x = z) by (destruct k; destruct C as [C|[]]; exact C). subst. eauto 8.
    - intros [(y & -> & NX & Y)|[(i & y & -> & Y & L)|(n & k & X & NX & K & ND)]].
      + pose proof (ps_change _ (ch_add_schema a b y NX Y)) as R.
        eexists. split; [apply filter_In; split; [exact R|reflexivity]|]. cbn. auto.
      + pose proof (ps_change _ (ch_add_ext a b i y Y L)) as R.
        eexists. split; [apply filter_In; split; [exact R|reflexivity]|]. cbn. auto.
      + pose proof (ps_change _ (ch_add_type a b n k z X NX K ND)) as R.
        eexists. split; [apply filter_In; split; [exact R|reflexivity]|]. unfold rkind, rtext. cbn. destruct k; cbn; auto.
  Qed.

  (** The schema definition *)
  Lemma new_root_spec : forall k (pick : roots -> option string) q,
    (forall r, In r q -> rkind r = k -> exists n, rtext r = NameText n) ->
    match new_root k q with
    | Some n => exists r, In r q /\ rkind r = k /\ rtext r = NameText n
    | None => forall r, In r q -> rkind r <> k
    end.
  Proof.
    intros k _ q. unfold new_root.
    set (step := fun (acc : option (option string)) (r : rchange) => _).
    assert (G : forall q acc, (forall r, In r q -> rkind r = k -> exists n, rtext r = NameText n) ->
      match fold_left step q acc with
      | Some n => acc = Some n \/ exists r, In r q /\ rkind r = k /\ rtext r = NameText n
      | None => acc = None /\ forall r, In r q -> rkind r <> k
      end).
    { clear q. induction q as [|r q IH]; intros acc H.
      - cbn. destruct acc; auto.
      - cbn [fold_left]. specialize (IH (step acc r) (fun x X => H x (or_intror X))).
        destruct (fold_left step q (step acc r)) as [n|].
        + destruct IH as [E|(x & X & K & T)]; [|right; exists x; split; [right; exact X|auto]].
          unfold step in E. destruct (ckind_eqb (rkind r) k) eqn:K; [|auto]. apply ckind_eqb_spec in K.
          destruct (H r (or_introl eq_refl) K) as (m & T). rewrite T in E. injection E as ->.
          right. exists r. split; [left; reflexivity|auto].
        + destruct IH as [E H1]. unfold step in E. destruct (ckind_eqb (rkind r) k) eqn:K.
          * destruct (rtext r); discriminate.
          * split; [exact E|]. intros x [<-|X]; [|auto]. intros Q. apply ckind_eqb_spec in Q. congruence. }
    intros H. specialize (G q None H). destruct (fold_left step q None); [destruct G as [G|G]; [discriminate|exact G]|tauto].
  Qed.

  Lemma root_patched : forall k (pick : roots -> option string) x y,
    In (DSchema x) a -> In (DSchema y) b ->
    (forall r, In r ps -> rkind r = k -> c_path (fst r) = PSchema /\ pick x <> pick y /\ rtext r = NameText (pick y)) ->
    (pick x <> pick y -> In (mkchange PSchema k (NameText (pick y)), true) ps) ->
    pick_root (new_root k (iter_exact ps (":schema", "", ""))) (pick x) = pick y.
  Proof.
    intros k pick x y X Y H1 H2.
    pose proof (new_root_spec k pick (iter_exact ps (":schema", "", ""))) as N.
    assert (HT : forall r, In r (iter_exact ps (":schema", "", "")) -> rkind r = k -> exists n, rtext r = NameText n).
    { intros r R K. apply (iter_exact_in ps _ ps_sorted) in R. destruct (H1 r (proj1 R) K) as (_ & _ & T). eauto. }
    specialize (N HT). destruct (new_root k _) as [n|]; cbn.
    - destruct N as (r & R & K & T). apply (iter_exact_in ps _ ps_sorted) in R. destruct (H1 r (proj1 R) K) as (_ & _ & T').
      congruence.
    - destruct (name_eqb (pick x) (pick y)) eqn:E; [apply name_eqb_spec; exact E|]. exfalso.
      assert (NE : pick x <> pick y) by (intros Q; apply name_eqb_spec in Q; congruence).
      apply (N _ (proj2 (iter_exact_in ps _ ps_sorted _) (conj (H2 NE) eq_refl))). reflexivity.
  Qed.

  Lemma schema_unique : forall d x y, doc_ok d -> In (DSchema x) d -> In (DSchema y) d -> x = y.
  Proof.
    intros d x y OK X Y. apply (last_schema_spec d x OK) in X. apply (last_schema_spec d y OK) in Y. congruence.
  Qed.

  Lemma schema_patched : forall xa, In (DSchema xa) a -> forall r,
    In (DSchema r) (patch_schema_definition ps false xa) <-> In (DSchema r) b.
  Proof.
    intros xa XA r. unfold patch_schema_definition.
    destruct (existsb _ _) eqn:EX.
    - split; [contradiction|]. intros YB. exfalso. apply existsb_exists in EX. destruct EX as (c & C & K).
      apply (iter_exact_in ps _ ps_sorted) in C. destruct C as [C _]. apply ckind_eqb_spec in K.
      destruct c as [c s]. apply ps_in in C. destruct C as [CH _]. unfold rkind in K. cbn in CH, K.
      cases CH; cbn in K; try discriminate K; try (destruct k; discriminate K). exact (NY _ YB).
    - destruct (last_schema b) as [yb|] eqn:LY.
      + apply (last_schema_spec b yb B) in LY.
        assert (RY : forall z, In (DSchema z) b -> z = yb) by (intros z Z; exact (schema_unique b z yb B Z LY)).
        rewrite (root_patched ChangeQueryType r_query xa yb XA LY), (root_patched ChangeMutationType r_mutation xa yb XA LY),
          (root_patched ChangeSubscriptionType r_subscription xa yb XA LY).
        * split.
          -- intros [H|[]]. injection H as <-. destruct yb; exact LY.
          -- intros H. left. rewrite (RY r H). destruct yb; reflexivity.
        * intros [c s] C K. apply ps_in in C. destruct C as [CH _]. unfold rkind, rtext in *. cbn in CH, K |- *.
          cases CH; cbn in K; try discriminate K; try (destruct k; discriminate K).
          rewrite <- (schema_unique a xa x A XA X), (RY y Y) in *. cbn. auto.
        * intros NE. exact (ps_change _ (ch_subscription a b xa yb XA LY NE)).
        * intros [c s] C K. apply ps_in in C. destruct C as [CH _]. unfold rkind, rtext in *. cbn in CH, K |- *.
          cases CH; cbn in K; try discriminate K; try (destruct k; discriminate K).
          rewrite <- (schema_unique a xa x A XA X), (RY y Y) in *. cbn. auto.
        * intros NE. exact (ps_change _ (ch_mutation a b xa yb XA LY NE)).
        * intros [c s] C K. apply ps_in in C. destruct C as [CH _]. unfold rkind, rtext in *. cbn in CH, K |- *.
          cases CH; cbn in K; try discriminate K; try (destruct k; discriminate K).
          rewrite <- (schema_unique a xa x A XA X), (RY y Y) in *. cbn. auto.
        * intros NE. exact (ps_change _ (ch_query a b xa yb XA LY NE)).
      + exfalso. pose proof (proj1 (last_schema_none b) LY) as NY.
        pose proof (ps_change _ (ch_remove_schema a b xa XA NY)) as R.
        apply not_true_iff_false in EX. apply EX. apply existsb_exists.
        eexists. split; [apply (iter_exact_in ps _ ps_sorted); split; [exact R|reflexivity]|reflexivity].
  Qed.

  (** The number of schema extensions. *)
  Definition is_add_ext (c : change) : bool := ckind_eqb (c_kind c) AddSchemaExtension.

  Lemma perm_filter : forall X (p : X -> bool) q r, Permutation q r -> length (filter p q) = length (filter p r).
  Proof.
    intros X p q r H. induction H; cbn; auto.
    - destruct (p x); cbn; auto.
    - destruct (p x), (p y); reflexivity.
    - congruence.
  Qed.

  Lemma filter_none : forall X (p : X -> bool) q, (forall x, In x q -> p x = false) -> filter p q = nil.
  Proof.
    induction q as [|x q IH]; intros H; [reflexivity|]. cbn. rewrite (H x (or_introl eq_refl)). apply IH.
    intros; apply H; right; auto.
  Qed.

  Ltac one C := first [contradiction | destruct C as [<-|[]]; reflexivity].

  Lemma add_exts_count : length (filter is_add_ext l) = length (schema_exts b) - length (schema_exts a).
  Proof.
    pose proof D as D0. unfold diff in D0.
    destruct (concat_map (field_changes (types_map a b)) (fields_map a b)) as [fs|] eqn:EF; [|discriminate].
    destruct (concat_map (arg_changes (fields_map a b)) (args_map a b)) as [args|] eqn:EA; [|discriminate].
    injection D0 as <-.
    rewrite <- (perm_filter _ is_add_ext _ _ (sort_perm change change_leb _)).
    rewrite !filter_app, !app_length.
    assert (H1 : filter is_add_ext (schema_changes (last_schema a) (last_schema b)) = nil).
    { apply filter_none. intros c C. unfold schema_changes in C.
      destruct (last_schema a) as [x|], (last_schema b) as [y|]; try contradiction.
      - rewrite !in_app_iff in C. destruct C as [C|[C|C]].
        + destruct (name_eqb (r_query x) (r_query y)); one C.
        + destruct (name_eqb (r_mutation x) (r_mutation y)); one C.
        + destruct (name_eqb (r_subscription x) (r_subscription y)); one C.
      - one C.
      - one C. }
    assert (H2 : filter is_add_ext (flat_map impl_changes (impls_map a b)) = nil).
    { apply filter_none. intros c C. apply in_flat_map in C. destruct C as ([n [[src|] [target|]]] & _ & C); try contradiction.
      cbn in C. apply in_app_or in C. destruct C as [C|C]; apply in_flat_map in C; destruct C as (i & _ & C).
      - destruct (mem i target); one C.
      - destruct (mem i src); one C. }
    assert (HK : forall k, ckind_eqb (add_kind k) AddSchemaExtension = false /\ ckind_eqb (remove_kind k) AddSchemaExtension = false)
      by (destruct k; split; reflexivity).
    assert (H3 : filter is_add_ext (flat_map type_changes (types_map a b)) = nil).
    { apply filter_none. intros c C. apply in_flat_map in C. destruct C as ([n e] & _ & C).
      assert (HA : forall x, In c (added_type n x) -> is_add_ext c = false).
      { intros x X. unfold added_type in X. destruct (def_kind x) as [k|]; try contradiction; destruct X as [<-|[]]; apply HK. }
      assert (HR : forall x, In c (removed_type n x) -> is_add_ext c = false).
      { intros x X. unfold removed_type in X. destruct (def_kind x) as [k|]; try contradiction; destruct X as [<-|[]]; apply HK. }
      destruct e as [[x|] [y|]]; cbn in C.
      - destruct (same_kind x y); [contradiction|]. apply in_app_or in C. destruct C; eauto.
      - eauto.
      - eauto.
      - contradiction. }
    assert (H4 : filter is_add_ext fs = nil).
    { apply filter_none. intros c C. apply (proj2 (concat_map_in _ _ _ _ _ EF)) in C.
      destruct C as ([[n f] [s t]] & u & _ & E & C). unfold field_changes in E.
      destruct (lookup String.eqb n (types_map a b)) as [[[x|] [y|]]|]; try discriminate; try (injection E as <-; contradiction).
      destruct (same_kind x y); [|injection E as <-; contradiction].
      destruct (def_kind x) as [k|]; [|discriminate].
      destruct s as [[ta pa]|], t as [[tb pb]|]; try (destruct k; discriminate).
      - destruct k; try discriminate; try (injection E as <-; contradiction);
          (destruct (oty_eqb ta tb); [injection E as <-; contradiction|]; destruct tb as [tb|]; [|discriminate];
           injection E as <-; one C).
      - destruct k; try discriminate; injection E as <-; one C.
      - destruct k; try discriminate; injection E as <-; one C. }
    assert (H5 : filter is_add_ext args = nil).
    { apply filter_none. intros c C. apply (proj2 (concat_map_in _ _ _ _ _ EA)) in C.
      destruct C as ([[[n f] q] [s t]] & u & _ & E & C). unfold arg_changes in E.
      destruct (lookup key2_eqb (n, f) (fields_map a b)) as [fe|]; [|discriminate].
      assert (E' : u = nil \/ match s, t with
        | None, None => False
        | None, Some y => u = [mkchange (PArg n f q) AddFieldArgument (InputText y)]
        | Some _, None => u = nil \/ u = [mkchange (PArg n f q) RemoveFieldArgument NoText]
        | Some x, Some y => u = ((if ty_eqb (i_type x) (i_type y) then nil
                 else [mkchange (PArg n f q) ChangeFieldArgumentType (TypeText (i_type y))]) ++
                match i_default x, i_default y with
                | None, Some v => [mkchange (PArg n f q) AddFieldArgumentDefault (DefaultText v)]
                | Some _, None => [mkchange (PArg n f q) RemoveFieldArgumentDefault NoText]
                | Some u, Some v =>
                    if String.eqb u v then nil else [mkchange (PArg n f q) ChangeFieldArgumentDefault (DefaultText v)]
                | None, None => nil
                end)
        end).
      { destruct fe as [[fa|] [fb|]]; destruct s as [x|], t as [y|]; cbn in E; try discriminate; injection E as <-; auto. }
      destruct E' as [->|E']; [contradiction|].
      destruct s as [x|], t as [y|]; try contradiction.
      - subst u. apply in_app_or in C. destruct C as [C|C].
        + destruct (ty_eqb (i_type x) (i_type y)); one C.
        + destruct (i_default x) as [v|], (i_default y) as [w|]; try contradiction; try (one C).
          destruct (String.eqb v w); one C.
      - destruct E' as [->| ->]; [contradiction|]. one C.
      - subst u. one C. }
    rewrite H1, H2, H3, H4, H5. cbn [length]. rewrite !Nat.add_0_r. cbn [Nat.add].
    unfold ext_changes. rewrite filter_app, app_length.
    assert (F1 : forall q, filter is_add_ext (map (fun _ : roots => mkchange PSchemaExt RemoveSchemaExtension NoText) q) = nil).
    { intros q. apply filter_none. intros c C. apply in_map_iff in C. destruct C as (r & <- & _). reflexivity. }
    assert (F2 : forall q, length (filter is_add_ext (map (fun y => mkchange PSchemaExt AddSchemaExtension (DefText (DSchemaExt y))) q)) = length q).
    { induction q as [|y q IH]; [reflexivity|]. cbn. f_equal. exact IH. }
    rewrite F1, F2, skipn_length. reflexivity.
  Qed.

  Lemma schema_exts_app : forall x y : doc, schema_exts (x ++ y) = schema_exts x ++ schema_exts y.
  Proof. intros. apply flat_map_app. Qed.

  Lemma added_exts : length (schema_exts (added_defs ps)) = length (schema_exts b) - length (schema_exts a).
  Proof.
    rewrite <- add_exts_count.
    assert (EQ0 : length (filter is_add_ext l) = length (filter (fun r : rchange => is_add_ext (fst r)) ps)).
    { unfold ps, new_paths. rewrite <- (perm_filter _ _ _ _ (sort_perm rchange seg_leb _)). unfold resolve_spans.
      clear. induction l as [|c q IH]; [reflexivity|]. cbn. destruct (is_add_ext c); cbn; rewrite IH; reflexivity. }
    rewrite EQ0. clear EQ0. unfold added_defs, iter_top_level.
    assert (ALL : forall r, In r ps ->
              schema_exts (if is_empty (seg2 r) && is_empty (seg3 r)
                           then (if adds_definition (rkind r) then match rtext r with DefText z => [z] | _ => nil end else nil)
                           else nil) = nil /\ is_add_ext (fst r) = false \/
              (exists y, is_empty (seg2 r) && is_empty (seg3 r) = true /\ rkind r = AddSchemaExtension /\ rtext r = DefText (DSchemaExt y)) /\
              is_add_ext (fst r) = true).
    { intros [c s] R. apply ps_in in R. destruct R as [C _]. cbn in C. unfold rkind, rtext, seg2, seg3, seg, is_add_ext. cbn [fst].
      cases C; cbn; try (left; split; reflexivity).
      - right. split; [exists y; auto|reflexivity].
      - left. split; [|destruct k; reflexivity]. destruct (adds_definition (add_kind k)); [|reflexivity].
        destruct x; cbn in NX; try contradiction; reflexivity.
      - left. split; [|destruct k; reflexivity]. destruct (adds_definition (remove_kind k)); reflexivity.
      - left. split; [|destruct k; reflexivity]. destruct (is_empty f); cbn; [|reflexivity].
        destruct (adds_definition (add_member_kind k)) eqn:AD; [destruct k; discriminate AD|reflexivity].
      - left. split; [|destruct k; reflexivity]. destruct (is_empty f); cbn; [|reflexivity].
        destruct (adds_definition (remove_member_kind k)); reflexivity.
      - left. split; [|reflexivity]. destruct (is_empty f); reflexivity.
      - left. split; [|reflexivity]. destruct (is_empty f && is_empty (i_name y)); reflexivity.
      - left. split; [|reflexivity]. destruct (is_empty f && is_empty (i_name x)); reflexivity.
      - left. split; [|reflexivity]. destruct (is_empty f && is_empty (i_name y)); reflexivity.
      - left. split; [|reflexivity]. destruct (is_empty f && is_empty (i_name y)); reflexivity.
      - left. split; [|reflexivity]. destruct (is_empty f && is_empty (i_name y)); reflexivity.
      - left. split; [|reflexivity]. destruct (is_empty f && is_empty (i_name y)); reflexivity. }
    revert ALL. generalize ps as qs. clear. intros qs. induction qs as [|r q IH]; intros ALL; [reflexivity|].
    specialize (IH (fun x X => ALL x (or_intror X))).
    destruct (ALL r (or_introl eq_refl)) as [[H1 H2]|[(y & H1 & H2 & H3) H4]].
    - cbn [filter]. rewrite H2. destruct (is_empty (seg2 r) && is_empty (seg3 r)); [|exact IH].
      cbn [flat_map]. rewrite schema_exts_app, app_length, <- IH.
      apply (f_equal (@length roots)) in H1. cbn [length] in H1. rewrite <- Nat.add_0_l. f_equal. exact H1.
    - cbn [filter]. rewrite H1, H4. cbn [flat_map]. rewrite H2, H3. cbn. f_equal. exact IH.
  Qed.

  Lemma ext_removed :
    existsb (fun c => ckind_eqb (rkind c) RemoveSchemaExtension) (iter_exact ps (":schema[0]", "", "")) = true <->
    length (schema_exts b) < length (schema_exts a).
  Proof.
    rewrite existsb_exists. split.
    - intros (r & R & K). apply (iter_exact_in ps _ ps_sorted) in R. destruct R as [R _]. apply ckind_eqb_spec in K.
      destruct r as [c s]. apply ps_in in R. destruct R as [C _]. unfold rkind in K. cbn in C, K.
      cases C; cbn in K; try discriminate K; try (destruct k; discriminate K). exact L.
    - intros LT. eexists. split; [apply (iter_exact_in ps _ ps_sorted); split; [exact (ps_change _ (ch_remove_ext a b LT))|reflexivity]|reflexivity].
  Qed.

  Lemma patched_exts : forall q ds, concat_map (patch_def ps) q = Some ds ->
    length (schema_exts ds) = if Nat.ltb (length (schema_exts b)) (length (schema_exts a)) then 0 else length (schema_exts q).
  Proof.
    assert (RE : existsb (fun c => ckind_eqb (rkind c) RemoveSchemaExtension) (iter_exact ps (":schema[0]", "", "")) =
                 Nat.ltb (length (schema_exts b)) (length (schema_exts a))).
    { apply eq_true_iff_eq. rewrite ext_removed, Nat.ltb_lt. reflexivity. }
    assert (NT : forall ts, schema_exts (map DType ts) = nil) by (induction ts; auto).
    assert (NE : forall ts, schema_exts (map DTypeExt ts) = nil) by (induction ts; auto).
    revert RE. generalize (Nat.ltb (length (schema_exts b)) (length (schema_exts a))) as rm. intros rm RE.
    induction q as [|x q IH]; intros ds E; cbn [concat_map] in E.
    - injection E as <-. destruct rm; reflexivity.
    - destruct (patch_def ps x) as [u|] eqn:PX; [|discriminate].
      destruct (concat_map (patch_def ps) q) as [v|]; [|discriminate]. injection E as <-. specialize (IH v eq_refl).
      change (schema_exts (x :: q)) with (schema_exts ([x] ++ q)).
      rewrite !schema_exts_app, !app_length, IH. clear IH.
      destruct x as [r|r|n|t|t]; cbn in PX.
      + injection PX as <-. unfold patch_schema_definition.
        match goal with |- context [if existsb ?f ?z then _ else _] => destruct (existsb f z) end; destruct rm; reflexivity.
      + injection PX as <-. unfold patch_schema_definition. rewrite RE. destruct rm; reflexivity.
      + injection PX as <-. unfold patch_directive. match goal with |- context [if existsb ?f ?z then _ else _] => destruct (existsb f z) end; destruct rm; reflexivity.
      + destruct (patch_tdef ps t) as [ts|]; [|discriminate]. injection PX as <-. rewrite NT. destruct rm; reflexivity.
      + destruct (patch_tdef ps t) as [ts|]; [|discriminate]. injection PX as <-. rewrite NE. destruct rm; reflexivity.
  Qed.

  (** The patched document. *)
  Lemma directive_patched : forall n, In (DDirective n) a ->
    (patch_directive ps n = [DDirective n] /\ In (DDirective n) b \/ patch_directive ps n = nil /\ ~ In (DDirective n) b).
  Proof.
    intros m DM. assert (DA0 : Defines a m KDirective) by (apply defines_directive; exact DM).
    unfold patch_directive. destruct (existsb _ _) eqn:EX.
    - right. split; [reflexivity|]. intros DB0. apply existsb_exists in EX. destruct EX as (r & R & K).
      apply (iter_exact_in ps _ ps_sorted) in R. destruct R as [R SE]. apply ckind_eqb_spec in K.
      destruct r as [c s]. apply ps_in in R. destruct R as [C _]. unfold rkind, seg in *. cbn in C, K, SE.
      cases C; cbn in K; try discriminate K; try (destruct k; discriminate K).
      destruct k; try discriminate K. cbn in SE. injection SE as ->. apply ND. apply defines_directive. exact DB0.
    - left. split; [reflexivity|]. destruct (defines_dec b m KDirective B) as [DB0|ND0].
      + inversion DB0 as [H|t H E K|t H E K]; [exact H|destruct t; discriminate|destruct t; discriminate].
      + exfalso. apply not_true_iff_false in EX. apply EX. apply existsb_exists. eexists.
        split; [apply (iter_exact_in ps _ ps_sorted); split; [exact (ps_change _ (ch_remove_type a b m KDirective DA0 ND0))|reflexivity]|reflexivity].
  Qed.

  Lemma teq_sym : forall t u, teq t u -> teq u t.
  Proof.
    assert (F : forall xs ys, fields_eq xs ys -> fields_eq ys xs).
    { intros xs ys [H1 H2]. split.
      - intros y Y. destruct (H2 y Y) as (x & X & E1 & E2 & E3). exists x. split; [exact X|]. split; [auto|]. split; [auto|].
        intros i. symmetry. apply E3.
      - intros x X. destruct (H1 x X) as (y & Y & E1 & E2 & E3). exists y. split; [exact Y|]. split; [auto|]. split; [auto|].
        intros i. symmetry. apply E3. }
    intros t u []; constructor; auto; intros; symmetry; auto.
  Qed.

  (* What is said in one document is said in another one. *)
  Lemma transfer : forall d e, (forall t, HasType d t -> exists u, HasType e u /\ teq t u) ->
    (forall n k, k <> KDirective -> Defines d n k -> Defines e n k) /\
    (forall n f t, HasField d n f t -> HasField e n f t) /\
    (forall n v, HasValue d n v -> HasValue e n v) /\
    (forall n f i, HasArg d n f i -> HasArg e n f i) /\
    (forall n i, Implements d n i -> Implements e n i).
  Proof.
    intros d e H. split; [|split; [|split; [|split]]].
    - intros n k NK DD. destruct (defines_has d n k DD NK) as (t & T & <- & <-).
      destruct (H t T) as (u & U & Q). pose proof (has_defines e u U) as X. destruct Q; exact X.
    - intros n f t [im fs x T X E|im fs x T X E|fs x T X E]; destruct (H _ T) as (u & U & Q); inversion Q; subst.
      + match goal with F : fields_eq _ _ |- _ => destruct F as [F1 _]; destruct (F1 x X) as (y & Y & E1 & E2 & _) end.
        rewrite E2, E1. eapply has_object; eauto.
      + match goal with F : fields_eq _ _ |- _ => destruct F as [F1 _]; destruct (F1 x X) as (y & Y & E1 & E2 & _) end.
        rewrite E2, E1. eapply has_interface; eauto.
      + match goal with F : forall f t, _ <-> _ |- _ => destruct (proj1 (F (i_name x) (i_type x))) as (y & Y & E1 & E2); [eauto|] end.
        rewrite <- E1, <- E2. eapply has_input; eauto.
    - intros n v [vs T X|vs T X]; destruct (H _ T) as (u & U & Q); inversion Q; subst.
      + eapply has_member; eauto. match goal with F : forall v, _ <-> _ |- _ => apply F; exact X end.
      + eapply has_value; eauto. match goal with F : forall v, _ <-> _ |- _ => apply F; exact X end.
    - intros n f i [im fs x z T X E I|im fs x z T X E I]; destruct (H _ T) as (u & U & Q); inversion Q; subst;
        match goal with F : fields_eq _ _ |- _ => destruct F as [F1 _]; destruct (F1 x X) as (y & Y & E1 & _ & E3) end.
      + eapply arg_object; eauto. apply E3. exact I.
      + eapply arg_interface; eauto. apply E3. exact I.
    - intros n i [im fs T X|im fs T X]; destruct (H _ T) as (u & U & Q); inversion Q; subst;
        [eapply impl_object|eapply impl_interface]; eauto; match goal with F : forall i, _ <-> _ |- _ => apply F; exact X end.
  Qed.

  Lemma patched_same : patchable a b -> exists d, patch a (resolve_spans b l) = Some d /\ Same d b.
  Proof.
    intros P. unfold patch. fold ps.
    destruct (concat_map_some _ _ (patch_def ps) a (patched_some P)) as (ds & E & HI). rewrite E.
    eexists. split; [reflexivity|]. set (d := added_defs ps ++ ds).
    assert (S1 : forall t, HasType d t -> exists u, HasType b u /\ teq t u).
    { intros t T. unfold d, HasType in T. rewrite !in_app_iff in T.
      assert (G : forall x, (x = DType t \/ x = DTypeExt t) -> In x (added_defs ps) -> HasType b t).
      { intros x EX X. apply added_in in X.
        destruct X as [(y & -> & _)|[(i & y & -> & _)|(n & k & X & _)]]; [destruct EX; discriminate|destruct EX; discriminate|].
        destruct EX as [-> | ->]; [left|right]; exact X. }
      assert (G' : forall x, (x = DType t \/ x = DTypeExt t) -> In x ds -> exists u, HasType b u /\ teq t u).
      { intros x EX X. apply HI in X. destruct X as (w & u & W & PW & X).
        assert (TT : exists t0, (w = DType t0 \/ w = DTypeExt t0) /\ exists ts, patch_tdef ps t0 = Some ts /\ In t ts).
        { destruct w as [r|r|n|t0|t0]; cbn in PW.
          - injection PW as <-. unfold patch_schema_definition in X. destruct (existsb _ _); [contradiction|].
            destruct X as [<-|[]]. destruct EX; discriminate.
          - injection PW as <-. unfold patch_schema_definition in X. destruct (existsb _ _); [contradiction|].
            destruct X as [<-|[]]. destruct EX; discriminate.
          - injection PW as <-. unfold patch_directive in X. destruct (existsb _ _); [contradiction|].
            destruct X as [<-|[]]. destruct EX; discriminate.
          - exists t0. split; [auto|]. destruct (patch_tdef ps t0) as [ts|]; [|discriminate]. injection PW as <-.
            exists ts. split; [reflexivity|]. apply in_map_iff in X. destruct X as (z & <- & Z).
            destruct EX as [EX|EX]; [|discriminate]. injection EX as ->. exact Z.
          - exists t0. split; [auto|]. destruct (patch_tdef ps t0) as [ts|]; [|discriminate]. injection PW as <-.
            exists ts. split; [reflexivity|]. apply in_map_iff in X. destruct X as (z & <- & Z).
            destruct EX as [EX|EX]; [discriminate|]. injection EX as ->. exact Z. }
        destruct TT as (t0 & WT & ts & PT & TI).
        assert (HT0 : HasType a t0) by (destruct WT as [-> | ->]; [left|right]; exact W).
        destruct (tdef_case t0 P HT0) as [(t' & t1 & E1 & T1 & _ & _ & Q)|[E1 _]]; rewrite E1 in PT; injection PT as <-.
        - destruct TI as [<-|[]]. eauto.
        - contradiction. }
      destruct T as [[T|T]|[T|T]]; eauto using teq_refl. }
    assert (S2 : forall t, HasType b t -> exists u, HasType d u /\ teq t u).
    { intros t T. destruct (defines_dec a (tdef_name t) (tdef_kind t) A) as [DA|ND].
      - destruct (defines_has a _ _ DA (tdef_kind_type t)) as (t0 & T0 & EN & EK).
        destruct (tdef_patched t0 t P T0 T EN EK) as (t' & E1 & Q). exists t'. split; [|apply teq_sym; exact Q].
        unfold d, HasType. rewrite !in_app_iff. destruct T0 as [T0|T0].
        + left. right. apply HI. exists (DType t0), [DType t']. cbn. rewrite E1. auto.
        + right. right. apply HI. exists (DTypeExt t0), [DTypeExt t']. cbn. rewrite E1. auto.
      - exists t. split; [|apply teq_refl]. unfold d, HasType. rewrite !in_app_iff.
        destruct T as [T|T].
        + left. left. apply added_in. right; right. exists (tdef_name t), (tdef_kind t). cbn. auto.
        + right. left. apply added_in. right; right. exists (tdef_name t), (tdef_kind t). cbn. auto. }
    assert (S3 : forall n, In (DDirective n) d <-> In (DDirective n) b).
    { intros n. unfold d. rewrite in_app_iff, added_in, HI. split.
      - intros [[(y & ? & _)|[(i & y & ? & _)|(m & k & X & _)]]|(x & u & X & PX & XU)]; try discriminate; [exact X|].
        destruct x as [r|r|m|t|t]; cbn in PX.
        + injection PX as <-. unfold patch_schema_definition in XU. destruct (existsb _ _); [contradiction|].
          destruct XU as [XU|[]]. discriminate.
        + injection PX as <-. unfold patch_schema_definition in XU. destruct (existsb _ _); [contradiction|].
          destruct XU as [XU|[]]. discriminate.
        + injection PX as <-. destruct (directive_patched m X) as [[Q M]|[Q _]]; rewrite Q in XU; [|contradiction].
          destruct XU as [XU|[]]. injection XU as <-. exact M.
        + destruct (patch_tdef ps t); [|discriminate]. injection PX as <-. apply in_map_iff in XU. destruct XU as (z & Z & _). discriminate.
        + destruct (patch_tdef ps t); [|discriminate]. injection PX as <-. apply in_map_iff in XU. destruct XU as (z & Z & _). discriminate.
      - intros N. destruct (defines_dec a n KDirective A) as [DA|ND].
        + right. exists (DDirective n), [DDirective n].
          assert (IA : In (DDirective n) a).
          { inversion DA as [H|t H E0 K|t H E0 K]; [exact H|destruct t; discriminate|destruct t; discriminate]. }
          split; [exact IA|]. cbn. destruct (directive_patched n IA) as [[Q M]|[Q M]]; [rewrite Q; auto|contradiction].
        + left. right; right. exists n, KDirective. cbn. auto. }
    destruct (transfer d b S1) as (A1 & A2 & A3 & A4 & A5).
    destruct (transfer b d S2) as (B1 & B2 & B3 & B4 & B5).
    assert (DK : forall e n, Defines e n KDirective <-> In (DDirective n) e).
    { intros e n. split; [|apply defines_directive]. intros X.
      inversion X as [H|t H E0 K|t H E0 K]; [exact H|destruct t; discriminate|destruct t; discriminate]. }
    constructor; try (intros; split; auto; fail).
    - intros n k. destruct (kind_eqb k KDirective) eqn:K.
      + apply kind_eqb_spec in K. subst. rewrite !DK. apply S3.
      + assert (k <> KDirective) by (intros ->; discriminate K). split; auto.
    - intros r. unfold d. rewrite in_app_iff, added_in, HI.
      destruct (last_schema a) as [x|] eqn:LX.
      + apply (last_schema_spec a x A) in LX. split.
        * intros [[(y & _ & NX & _)|[(i & y & ? & _)|(m & k & X & X1 & _)]]|(z & u & Z & PZ & ZU)]; try discriminate.
          -- exfalso. exact (NX _ LX).
          -- contradiction.
          -- destruct z as [r'|r'|m|t|t]; cbn in PZ.
             ++ injection PZ as <-. apply (schema_patched r' Z r). exact ZU.
             ++ injection PZ as <-. unfold patch_schema_definition in ZU. destruct (existsb _ _); [contradiction|].
                destruct ZU as [ZU|[]]. discriminate.
             ++ injection PZ as <-. unfold patch_directive in ZU. destruct (existsb _ _); [contradiction|].
                destruct ZU as [ZU|[]]. discriminate.
             ++ destruct (patch_tdef ps t); [|discriminate]. injection PZ as <-. apply in_map_iff in ZU. destruct ZU as (w & W & _). discriminate.
             ++ destruct (patch_tdef ps t); [|discriminate]. injection PZ as <-. apply in_map_iff in ZU. destruct ZU as (w & W & _). discriminate.
        * intros R. right. exists (DSchema x), (patch_schema_definition ps false x). split; [exact LX|]. split; [reflexivity|].
          apply (schema_patched x LX r). exact R.
      + pose proof (proj1 (last_schema_none a) LX) as NX. split.
        * intros [[(y & _ & _ & Y)|[(i & y & ? & _)|(m & k & X & X1 & _)]]|(z & u & Z & PZ & ZU)]; try discriminate; [exact Y|exact X|].
          destruct z as [r'|r'|m|t|t]; cbn in PZ.
          -- exfalso. exact (NX _ Z).
          -- injection PZ as <-. unfold patch_schema_definition in ZU. destruct (existsb _ _); [contradiction|].
             destruct ZU as [ZU|[]]. discriminate.
          -- injection PZ as <-. unfold patch_directive in ZU. destruct (existsb _ _); [contradiction|].
             destruct ZU as [ZU|[]]. discriminate.
          -- destruct (patch_tdef ps t); [|discriminate]. injection PZ as <-. apply in_map_iff in ZU. destruct ZU as (w & W & _). discriminate.
          -- destruct (patch_tdef ps t); [|discriminate]. injection PZ as <-. apply in_map_iff in ZU. destruct ZU as (w & W & _). discriminate.
        * intros R. left. left. exists r. auto.
    - unfold d, schema_exts. rewrite flat_map_app, app_length. fold (schema_exts (added_defs ps)) (schema_exts ds) (schema_exts b).
      rewrite added_exts, (patched_exts a ds E).
      destruct (Nat.ltb (length (schema_exts b)) (length (schema_exts a))) eqn:L1.
      + apply Nat.ltb_lt in L1. destruct (pa_exts a b P) as [L2|L2]; [lia|]. rewrite L2. reflexivity.
      + apply Nat.ltb_ge in L1. lia.
  Qed.
End Patched.

(** C51: applying the differences between two schemas to the first gives a
    schema that says what the second one does. *)
Theorem C51_patch : forall a b, doc_ok a -> doc_ok b -> names_ok a -> names_ok b -> patchable a b ->
  exists l d, diff a b = Some l /\ patch a (resolve_spans b l) = Some d /\ Same d b.
Proof.
  intros a b A B NA NB P. destruct (C50_exact a b A B) as (l & D & _).
  destruct (patched_same a b l A B NA NB D P) as (d & E & S1). exists l, d. auto.
Qed.

(** An example of two such schemas. *)
Ltac in_doc T :=
  cbn in T;
  repeat match type of T with
         | _ \/ _ => destruct T as [T|T]
         | False => contradiction
         end;
  try discriminate T.

Ltac has T := destruct T as [T|T]; in_doc T.

Definition before : doc :=
  [DSchema (mkroots (Some "Query") (Some "Mutation") None);
   DType (TObject "Syrup" ["Product"]
            [mkfield "price" [mkinput "details" (TName "Args") None; mkinput "currency" (TNonNull (TName "String")) None]
               (TNonNull (TName "Float"));
             mkfield "id" nil (TName "ID")]);
   DType (TInput "Args" [mkinput "quantity" (TName "Int") None]);
   DType (TEnum "Grade" ["GOLDEN"; "DARK"])].

Definition after : doc :=
  [DSchema (mkroots (Some "Root") None None);
   DSchemaExt (mkroots None None None);
   DType (TEnum "Grade" ["GOLDEN"]);
   DType (TObject "Syrup" ["Node"]
            [mkfield "price" [mkinput "date" (TName "Date") None; mkinput "details" (TName "Args") None] (TName "Float");
             mkfield "name" nil (TName "String")]);
   DType (TInterface "Args" nil [mkfield "quantity" nil (TName "String")])].

Lemma C51_example_ok : doc_ok before /\ doc_ok after /\ names_ok before /\ names_ok after /\ patchable before after.
Proof.
  split; [ok_doc|]. split; [ok_doc|]. split; [reflexivity|]. split; [reflexivity|]. constructor.
  - intros n f x y H K. destruct H as [im fs z x T Z E I1|im fs z x T Z E I1]; has T.
    inversion T; clear T; subst. in_doc Z; subst z; cbn in *; in_doc I1; subst x;
      (destruct K as [im' fs' z y T Z E' I2|im' fs' z y T Z E' I2]; has T; inversion T; clear T; subst; in_doc Z; subst z; cbn in E'; try discriminate E';
       in_doc I2; subst y; cbn; intros EQ; try discriminate EQ; reflexivity).
  - intros n f y M H. destruct H as [im fs z q T Z E I1|im fs z q T Z E I1]; has T.
    + inversion T; clear T; subst. in_doc Z; subst z; cbn in *.
      * destruct q as [|q1 [|q2 [|q3 q]]]; try discriminate I1. injection I1 as <- <-. left.
        exists (mkinput "details" (TName "Args") None). split; [|reflexivity].
        eapply arg_object; [left; cbn; auto|cbn; left; reflexivity|reflexivity|cbn; auto].
      * destruct q; discriminate I1.
    + inversion T; clear T; subst. in_doc Z. subst z. cbn in *. destruct q; discriminate I1.
  - intros n i f H _ M. destruct H as [im fs T I1|im fs T I1]; has T. inversion T; clear T; subst. in_doc I1. subst i.
    assert (MM : In f ["price"; "id"; "name"]).
    { destruct M as [(t & p & M)|(t & p & M)].
      - destruct M as [im fs x T X E|im fs x T X E|fs x T X E|vs T X|vs T X]; has T; inversion T; clear T; subst; in_doc X; subst; cbn; auto.
      - destruct M as [im fs x T X E|im fs x T X E|fs x T X E|vs T X|vs T X]; has T; inversion T; clear T; subst; in_doc X; subst; cbn; auto. }
    in_doc MM; subst f; reflexivity.
  - left. cbn. lia.
Qed.

Example C51_example : exists l d,
  diff before after = Some l /\ length l = 13 /\ patch before (resolve_spans after l) = Some d /\ Same d after.
Proof.
  destruct C51_example_ok as (A & B & NA & NB & P). destruct (C51_patch _ _ A B NA NB P) as (l & d & D & E & S1).
  exists l, d. split; [exact D|]. split; [|auto]. vm_compute in D. injection D as <-. reflexivity.
Qed.

(** What the restrictions leave out. *)

(* The type of an argument is changed in the second schema, and the change is
   in the list, but the patch keeps the type. *)
Theorem C51_arg_change_refuted : exists a b l d n f x,
  doc_ok a /\ doc_ok b /\ names_ok a /\ names_ok b /\ diff a b = Some l /\ patch a (resolve_spans b l) = Some d /\
  HasArg b n f x /\ ~ HasArg d n f x /\ (exists c, In c l /\ c_kind c = ChangeFieldArgumentType).
Proof.
  set (fld := fun t => [mkfield "user" [mkinput "id" t None; mkinput "tag" (TName "Int") (Some "[]")] (TName "User")]).
  exists [DType (TObject "Query" nil (fld (TName "ID")))], [DType (TObject "Query" nil (fld (TNonNull (TName "ID"))))].
  eexists. eexists. exists "Query", "user", (mkinput "id" (TNonNull (TName "ID")) None).
  split; [ok_doc|]. split; [ok_doc|]. split; [reflexivity|]. split; [reflexivity|].
  split; [vm_compute; reflexivity|]. split; [vm_compute; reflexivity|].
  split; [eapply arg_object; [left; cbn; left; reflexivity|cbn; left; reflexivity|reflexivity|cbn; auto]|].
  split.
  - intros H. inversion H as [im fs z x T Z E K|im fs z x T Z E K]; subst; has T.
    inversion T; clear T; subst. in_doc Z. subst z. in_doc K.
  - eexists. split; [left; reflexivity|reflexivity].
Qed.

(* The default values of the fields of input objects are lost, even if there is
   nothing to change. *)
Theorem C51_input_default_refuted : exists a d n x,
  doc_ok a /\ names_ok a /\ diff a a = Some nil /\ patch a (resolve_spans a nil) = Some d /\
  HasType a (TInput n [x]) /\ i_default x <> None /\
  HasType d (TInput n [mkinput (i_name x) (i_type x) None]).
Proof.
  exists [DType (TInput "Filter" [mkinput "limit" (TName "Int") (Some "10")])]. eexists.
  exists "Filter", (mkinput "limit" (TName "Int") (Some "10")).
  split; [ok_doc|]. split; [reflexivity|]. split; [vm_compute; reflexivity|]. split; [vm_compute; reflexivity|].
  split; [left; cbn; auto|]. split; [discriminate|]. left. cbn. auto.
Qed.

(* An argument is added at the end: its text doesn't end in a separator, and
   the argument that the patch writes after it is joined to it. *)
Theorem C51_added_last_arg_refuted : exists a b l,
  doc_ok a /\ doc_ok b /\ names_ok a /\ names_ok b /\ diff a b = Some l /\ patch a (resolve_spans b l) = None /\
  (forall n f x, HasArg a n f x -> HasArg b n f x).
Proof.
  exists [DType (TObject "Query" nil [mkfield "user" [mkinput "id" (TName "ID") None] (TName "User")])],
         [DType (TObject "Query" nil [mkfield "user" [mkinput "id" (TName "ID") None; mkinput "by" (TName "Int") None] (TName "User")])].
  eexists.
  split; [ok_doc|]. split; [ok_doc|]. split; [reflexivity|]. split; [reflexivity|].
  split; [vm_compute; reflexivity|]. split; [vm_compute; reflexivity|].
  intros n f x H. inversion H as [im fs z y T Z E K|im fs z y T Z E K]; subst; has T.
  inversion T; clear T; subst. in_doc Z. subst z. in_doc K. subst.
  eapply arg_object; [left; cbn; left; reflexivity|cbn; left; reflexivity|reflexivity|cbn; auto].
Qed.

(* A type no longer implements an interface: the patch doesn't find the change
   if a changed field has a name before that of the interface. *)
Theorem C51_interface_refuted : exists a b l d n i,
  doc_ok a /\ doc_ok b /\ names_ok a /\ names_ok b /\ diff a b = Some l /\ patch a (resolve_spans b l) = Some d /\
  In (mkchange (PImpl n i) RemoveInterfaceImplementation NoText) l /\ ~ Implements b n i /\ Implements d n i.
Proof.
  exists [DType (TObject "User" ["Node"] [mkfield "Age" nil (TName "Int"); mkfield "id" nil (TName "ID")])],
         [DType (TObject "User" nil [mkfield "id" nil (TName "ID")])].
  eexists. eexists. exists "User", "Node".
  split; [ok_doc|]. split; [ok_doc|]. split; [reflexivity|]. split; [reflexivity|].
  split; [vm_compute; reflexivity|]. split; [vm_compute; reflexivity|].
  split; [cbn; auto 8|].
  split.
  - intros [im fs T K|im fs T K]; has T. inversion T; clear T; subst. contradiction.
  - eapply impl_object; [left; cbn; left; reflexivity|cbn; auto].
Qed.

(* One of two schema extensions is removed: the patch removes both. *)
Theorem C51_schema_ext_refuted : exists a b l d r,
  doc_ok a /\ doc_ok b /\ names_ok a /\ names_ok b /\ diff a b = Some l /\ patch a (resolve_spans b l) = Some d /\
  In (DSchemaExt r) a /\ In (DSchemaExt r) b /\ schema_exts d = nil.
Proof.
  set (r1 := mkroots None (Some "Mutation") None). set (r2 := mkroots None None (Some "Subscription")).
  exists [DSchema (mkroots (Some "Query") None None); DSchemaExt r1; DSchemaExt r2],
         [DSchema (mkroots (Some "Query") None None); DSchemaExt r1].
  eexists. eexists. exists r1.
  split; [ok_doc|]. split; [ok_doc|]. split; [reflexivity|]. split; [reflexivity|].
  split; [vm_compute; reflexivity|]. split; [vm_compute; reflexivity|].
  split; [cbn; auto|]. split; [cbn; auto|]. reflexivity.
Qed.
