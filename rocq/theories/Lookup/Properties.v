(** C95: the arguments detected for a lookup are valid.  C96: which argument takes which field of
    the key. *)

From Coq Require Import String List Arith Lia ZArith Bool Permutation.
From Verif Require Import Response.Model Response.Spec Views.Model Views.Spec Lookup.Model Lookup.Spec Lookup.Store
  Lookup.Detect Lookup.Values Lookup.Rendering Lookup.Choice.
Import ListNotations.
Local Open Scope nat_scope.

(** ** C95 *)

Lemma distinct_of_names : forall g leaf, sound_schema g leaf -> forall o, NoDup (o_inputs (g_object g o)).
Proof. intros g leaf S o. exact (NoDup_map_inv _ _ (names _ _ S o)). Qed.

(** Whenever arguments are detected for a key, they are stored, and for all objects having the
    key, values are written for them which are valid for the field: all of their type, and none
    required missing.  Restricted to schemas where several fields of a oneof input object can't
    compete for a key, and where oneof input objects aren't nested and take flat, non-null keys
    (C95_lost_refuted, C95_oneof_refuted). *)
Theorem C95_valid_partial : forall g leaf n batch keys args st c st' ps fuel r who,
  sound_schema g leaf -> good_store st -> NoDup args ->
  one_choice g batch keys args -> oneof_on_top g keys args ->
  sorted_reqs r -> has_set r keys -> looked_up g leaf ps fuel r keys batch who ->
  detect g n batch keys args st = (Some c, st') ->
  exists l, means_args g st' (fst c) (snd c) l /\ (forall m, means_args g st' (fst c) (snd c) m -> m = l) /\
    exists es, arguments ps fuel r who l = VOk es /\ valid_arguments g leaf args es.
Proof.
  intros g leaf n batch keys args st c st' ps fuel r who So G Nd One Top Sr Hs W E.
  destruct (detect_ok g (distinct_of_names _ _ So) n batch keys args st _ _ G Nd One E) as (_ & _ & H).
  destruct (H c eq_refl) as (l & M & Ga). exists l. split; [exact M|]. split; [intros m M'; exact (args_same _ _ _ _ _ M' _ M)|].
  exact (given_args_ok g leaf So ps fuel r keys batch who args Sr Hs W Top l Ga).
Qed.

(** What was stored before keeps its meaning, and a key for which nothing is detected leaves no
    trace. *)
Theorem C95_store : forall g n batch keys args st c st',
  (forall o, NoDup (o_inputs (g_object g o))) -> good_store st -> NoDup args ->
  detect g n batch keys args st = (c, st') ->
  good_store st' /\
  (forall a m l, means_args g st a m l -> means_args g st' a m l) /\
  (c = None -> st' = st).
Proof.
  intros g n batch keys args st c st' Di G Nd E. destruct (detect_grown g Di n batch keys args st c st' G Nd E) as (Gr & N).
  split; [exact (good_grown _ _ G Gr)|]. split; [|exact N]. intros a m l. apply args_grown, Gr.
Qed.

(** An example: a schema, and an object with its key. *)
Definition tID := DScalar 0.
Definition tStr := DScalar 1.
Definition req_ (d : def) : ty := MkTy d (MkWrap [] true).
Definition opt_ (d : def) : ty := MkTy d (MkWrap [] false).

Definition ex_field (n : nat) : field :=
  match n with
  | 20 => MkField 100 (req_ tID)
  | 21 => MkField 101 (req_ tStr)
  | 22 => MkField 102 (req_ (DOutput 0))
  | 23 => MkField 103 (opt_ tID)
  | 24 => MkField 150 (opt_ (DOutput 0))
  | 25 => MkField 151 (req_ (DOutput 0))
  | 30 => MkField 110 (req_ tStr)
  | _ => MkField 111 (req_ tStr)
  end.
Definition ex_input (n : nat) : input :=
  match n with
  | 0 => MkInput 100 (req_ tID) None
  | 1 => MkInput 101 (opt_ tStr) None
  | 2 => MkInput 120 (req_ (DScalar 2)) (Some (OStr "10"))
  | 3 => MkInput 102 (req_ (DInput 0)) None
  | 4 => MkInput 110 (req_ tStr) None
  | 5 => MkInput 111 (opt_ tStr) None
  | 6 => MkInput 130 (req_ (DInput 1)) None
  | 7 => MkInput 131 (opt_ (DInput 2)) None
  | 8 => MkInput 132 (opt_ (DInput 3)) None
  | 9 | 12 => MkInput 100 (req_ tID) None
  | 10 | 13 => MkInput 101 (req_ tStr) None
  | 11 => MkInput 133 (req_ (DScalar 2)) None
  | 14 => MkInput 102 (req_ (DInput 4)) None
  | 15 => MkInput 110 (opt_ tStr) None
  | 16 => MkInput 111 (opt_ tStr) None
  | 17 => MkInput 140 (req_ (DInput 5)) None
  | 18 => MkInput 103 (opt_ tID) None
  | 19 => MkInput 141 (req_ (DInput 6)) None
  | 20 => MkInput 142 (MkTy tID (MkWrap [false] true)) None
  | 21 => MkInput 143 (MkTy tID (MkWrap [false] false)) None
  | 22 => MkInput 144 (MkTy tID (MkWrap [true] true)) None
  | 23 => MkInput 145 (MkTy tID (MkWrap [false] false)) None
  | 24 => MkInput 151 (opt_ (DInput 7)) None
  | 25 => MkInput 152 (req_ (DInput 8)) None
  | _ => MkInput 110 (req_ tStr) None
  end.
Definition ex_object (n : nat) : object :=
  match n with
  | 0 => MkObject false [4; 5]
  | 1 => MkObject true [7; 8]
  | 2 => MkObject false [9; 10]
  | 3 => MkObject false [11]
  | 4 => MkObject true [15; 16]
  | 5 => MkObject true [18]
  | 6 => MkObject true [20; 21]
  | 7 => MkObject false [26]
  | 8 => MkObject false [27]
  | _ => MkObject false []
  end.
Definition ex_g : graph := MkGraph ex_field ex_input ex_object.
Definition ex_st : store := MkStore [] [IdentityV] [].
Definition ex_leaf (d : def) (x : out) : Prop := match d, x with DScalar _, OStr _ => True | _, _ => False end.

Lemma ex_sound : sound_schema ex_g ex_leaf.
Proof.
  constructor.
  - assert (D : valid_for ex_g ex_leaf (req_ (DScalar 2)) (OStr "10")).
    { constructor; [discriminate|]. constructor. exact Logic.I. }
    intros id x E.
    do 28 (destruct id as [|id]; [cbn in E; solve [discriminate E|injection E as <-; exact D]|]). discriminate E.
  - intros o. do 9 (destruct o as [|o]; [cbn; repeat constructor; cbn; intuition discriminate|]). constructor.
  - intros o id. do 9 (destruct o as [|o]; [cbn; try discriminate; intros _ J; intuition (subst; auto)|]). discriminate.
  - intros d x L. destruct d; destruct x; try destruct L; eauto.
Qed.

Definition ex_key : list item := [Item 20 []; Item 21 []; Item 22 [Item 30 []; Item 31 []]].
Definition ex_parts : list part :=
  [ {| p_objs := [MkObj (Some 0) [((1, 1), VStr "a"); ((2, 2), VStr "eu"); ((3, 3), VObj (0, 1)); ((4, 4), VNull)];
                  MkObj (Some 7) [((1, 5), VStr "p"); ((2, 6), VStr "q")]];
       p_lists := []; p_inacc := [] |} ].
Definition ex_req : list req :=
  [Req 20 1 100 (EObj 0) []; Req 21 2 101 (EObj 0) [];
   Req 22 3 102 (EObj 0) [Req 30 5 110 (EObj 7) []; Req 31 6 111 (EObj 7) []]; Req 23 4 103 (EObj 0) []].
Definition ex_inner : list (rkey * tree) := [((1, 5), TLeaf (VStr "p")); ((2, 6), TLeaf (VStr "q"))].
Definition ex_fields : list (rkey * tree) :=
  [((1, 1), TLeaf (VStr "a")); ((2, 2), TLeaf (VStr "eu")); ((3, 3), TObj (0, 1) (Some 7) ex_inner); ((4, 4), TLeaf VNull)].

Lemma ex_carried : forall k, In k (ex_key ++ [Item 23 []]) -> carried ex_g ex_leaf ex_req ex_fields k.
Proof.
  assert (Leaf : forall r s n b x, conforms ex_g ex_leaf r s (DScalar n) [] b (TLeaf (VStr x))).
  { intros. apply CoPlain with (OStr x); [constructor|]. constructor; [discriminate|exact Logic.I]. }
  intros k [<-|[<-|[<-|[<-|[]]]]].
  1: apply Carried with (q := Req 20 1 100 (EObj 0) []) (t := TLeaf (VStr "a")).
  5: apply Carried with (q := Req 21 2 101 (EObj 0) []) (t := TLeaf (VStr "eu")).
  9: apply Carried with (q := Req 22 3 102 (EObj 0) [Req 30 5 110 (EObj 7) []; Req 31 6 111 (EObj 7) []]) (t := TObj (0, 1) (Some 7) ex_inner).
  13: apply Carried with (q := Req 23 4 103 (EObj 0) []) (t := TLeaf VNull).
  all: try reflexivity; try (cbn; auto 6; fail); try (eexists; cbn; auto 6; fail); cbn.
  - apply Leaf.
  - apply Leaf.
  - apply CoObj; [discriminate|]. intros k [<-|[<-|[]]].
    + eapply Carried with (q := Req 30 5 110 (EObj 7) []); [left; reflexivity|reflexivity|eexists; left; reflexivity|apply Leaf].
    + eapply Carried with (q := Req 31 6 111 (EObj 7) []); [right; left; reflexivity|reflexivity|eexists; right; left; reflexivity|apply Leaf].
  - apply CoPlain with ONull; constructor.
Qed.

Lemma ex_entity : forall keys, incl keys (ex_key ++ [Item 23 []]) -> entity_at ex_g ex_leaf ex_parts 9 ex_req keys (VObj (0, 0)).
Proof.
  intros keys Inc. exists (TObj (0, 0) (Some 0) ex_fields). split; [|split; [|split]].
  - eapply RObj; [reflexivity|reflexivity|]. cbn. repeat (constructor; [first [constructor; reflexivity|idtac]|]); [|constructor].
    eapply RObj; [reflexivity|reflexivity|]. cbn. repeat (constructor; [constructor; reflexivity|]). constructor.
  - apply DsObj; cbn; [repeat constructor; cbn; intuition discriminate|].
    do 2 (constructor; [apply DsLeaf|]). constructor; [|constructor; [apply DsLeaf|constructor]].
    apply DsObj; cbn; [repeat constructor; cbn; intuition discriminate|]. do 2 (constructor; [apply DsLeaf|]). constructor.
  - cbn. lia.
  - eexists. eexists. eexists. split; [reflexivity|]. intros k J. apply ex_carried, Inc, J.
Qed.

(** The key [id region loc { x y }] is taken by [(id: ID!, region: String, limit: .. = "10",
    loc: Loc!)]. *)
Example C95_valid_ex :
  exists c st', detect ex_g 5 false ex_key [0; 1; 2; 3] ex_st = (Some c, st') /\
    exists l, means_args ex_g st' (fst c) (snd c) l /\
      arguments ex_parts 9 ex_req (POne (VObj (0, 0))) l =
        VOk [(0, OStr "a"); (1, OStr "eu"); (2, OStr "10"); (3, OObj [(110, OStr "p"); (111, OStr "q")])].
Proof.
  eexists. eexists. split; [vm_compute; reflexivity|].
  exists [(0, ArgValue (ISelect 20 IIdentity)); (1, ArgValue (ISelect 21 IIdentity)); (2, ArgValue (IDefault (OStr "10")));
          (3, ArgValue (ISelect 22 (IObject [(110, ISelect 30 IIdentity); (111, ISelect 31 IIdentity)])))].
  split; [|vm_compute; reflexivity]. cbn.
  repeat (eapply MaValue; [reflexivity|repeat (econstructor; try reflexivity)|]). constructor.
Qed.

Lemma ex_has : forall keys, incl keys (ex_key ++ [Item 23 []]) -> increasing (map i_field keys) -> has_set ex_req keys.
Proof.
  assert (Nil : forall r, has_set r []) by (intros; constructor; [constructor|intros i []]).
  intros keys Inc I. constructor; [exact I|]. intros i J. apply Inc in J. destruct J as [<-|[<-|[<-|[<-|[]]]]].
  - exists (Req 20 1 100 (EObj 0) []). split; [split; cbn; auto|apply Nil].
  - exists (Req 21 2 101 (EObj 0) []). split; [split; cbn; auto|apply Nil].
  - exists (Req 22 3 102 (EObj 0) [Req 30 5 110 (EObj 7) []; Req 31 6 111 (EObj 7) []]). split; [split; cbn; auto|].
    constructor; [cbn; repeat constructor|]. intros i [<-|[<-|[]]].
    + exists (Req 30 5 110 (EObj 7) []). split; [split; cbn; auto|apply Nil].
    + exists (Req 31 6 111 (EObj 7) []). split; [split; cbn; auto|apply Nil].
  - exists (Req 23 4 103 (EObj 0) []). split; [split; cbn; auto 6|apply Nil].
Qed.
Lemma ex_sorted : sorted_reqs ex_req.
Proof. constructor; [cbn; repeat (constructor; auto)|]. cbn. repeat (constructor; [constructor; cbn; repeat (constructor; auto)|]). constructor. Qed.

(** The hypotheses of C95_valid_partial hold for the example. *)
Example C95_valid_hyps :
  one_choice ex_g false ex_key [0; 1; 2; 3] /\
  (forall id o k, In id [0; 1; 2; 3] -> t_def (i_ty (g_input ex_g id)) = DInput o -> o_oneof (g_object ex_g o) = true -> In k ex_key -> False) /\
  sorted_reqs ex_req /\ has_set ex_req ex_key /\ looked_up ex_g ex_leaf ex_parts 9 ex_req ex_key false (POne (VObj (0, 0))).
Proof.
  assert (No : forall id o, In id [0; 1; 2; 3] -> t_def (i_ty (g_input ex_g id)) = DInput o -> o_oneof (g_object ex_g o) = true -> False).
  { intros id o [<-|[<-|[<-|[<-|[]]]]] D Oo; try discriminate D. injection D as <-. discriminate Oo. }
  split; [|split; [|split; [exact ex_sorted|split]]].
  - intros id o a b oa ob _ J D Oo. destruct (No _ _ J D Oo).
  - intros id o k J D Oo _. exact (No _ _ J D Oo).
  - apply ex_has; [intros x J; apply in_or_app; left; exact J|cbn; repeat constructor].
  - split; [reflexivity|]. apply ex_entity. intros x J. apply in_or_app. left. exact J.
Qed.

(** ** Where it fails *)

(** With a key of two fields and [(by: By!)], [input By @oneOf { both: Both, code: Code }], the
    selections for [both] are dropped when [code] doesn't match: what was detected isn't stored.
    The next lookup takes its place, and the first one then sends an argument of the second. *)
Theorem C95_lost_refuted : exists g leaf keys args args' st c st1 c' st2 l,
  sound_schema g leaf /\ good_store st /\ NoDup args /\ NoDup args' /\
  detect g 5 false keys args st = (Some c, st1) /\
  (forall m, ~ means_args g st1 (fst c) (snd c) m) /\
  detect g 5 false keys args' st1 = (Some c', st2) /\
  means_args g st2 (fst c) (snd c) l /\ l <> [] /\ (forall id, In id (map fst l) -> ~ In id args).
Proof.
  exists ex_g, ex_leaf, [Item 20 []; Item 21 []], [6], [12; 13], ex_st.
  eexists. eexists. eexists. eexists. exists [(13, ArgValue (ISelect 21 IIdentity))].
  split; [exact ex_sound|]. split; [reflexivity|]. split; [repeat constructor; cbn; intuition discriminate|].
  split; [repeat constructor; cbn; intuition discriminate|].
  split; [vm_compute; reflexivity|]. split; [|split; [vm_compute; reflexivity|split; [|split; [discriminate|]]]].
  - intros m M. inversion M; subst; discriminate.
  - cbn. eapply MaValue; [reflexivity|econstructor; [reflexivity|constructor]|constructor].
  - intros id [<-|[]]. cbn. intuition discriminate.
Qed.

(** A oneof input object takes two values when it is matched as the input of a nested key field,
    or null when the key is null. *)
Theorem C95_oneof_refuted : exists g leaf ps fuel r who, sound_schema g leaf /\ sorted_reqs r /\
  (exists keys args st c st' l es, good_store st /\ NoDup args /\ one_choice g false keys args /\
     has_set r keys /\ looked_up g leaf ps fuel r keys false who /\
     detect g 5 false keys args st = (Some c, st') /\ means_args g st' (fst c) (snd c) l /\
     arguments ps fuel r who l = VOk es /\ exists id n1 x1 n2 x2, In (id, OObj [(n1, x1); (n2, x2)]) es /\ ~ valid_arguments g leaf args es) /\
  (exists keys args st c st' l es, good_store st /\ NoDup args /\ one_choice g false keys args /\
     has_set r keys /\ looked_up g leaf ps fuel r keys false who /\
     detect g 5 false keys args st = (Some c, st') /\ means_args g st' (fst c) (snd c) l /\
     arguments ps fuel r who l = VOk es /\ exists id n, In (id, OObj [(n, ONull)]) es /\ ~ valid_arguments g leaf args es).
Proof.
  exists ex_g, ex_leaf, ex_parts, 9, ex_req, (POne (VObj (0, 0))). split; [exact ex_sound|]. split; [exact ex_sorted|]. split.
  - exists [Item 22 [Item 30 []; Item 31 []]], [14], ex_st. eexists. eexists.
    exists [(14, ArgValue (ISelect 22 (IObject [(110, ISelect 30 IIdentity); (111, ISelect 31 IIdentity)])))], [(14, OObj [(110, OStr "p"); (111, OStr "q")])].
    split; [reflexivity|]. split; [repeat constructor; intros []|]. split; [intros id o a b oa ob L; exfalso; apply L; reflexivity|].
    split; [apply ex_has; [intros x [<-|[]]; cbn; auto|cbn; repeat constructor]|].
    split; [split; [reflexivity|apply ex_entity; intros x [<-|[]]; cbn; auto]|].
    split; [vm_compute; reflexivity|]. split.
    { cbn. eapply MaValue; [reflexivity|repeat (econstructor; try reflexivity)|constructor]. }
    split; [vm_compute; reflexivity|]. do 5 eexists. split; [left; reflexivity|].
    intros (_ & V & _). destruct (V _ _ (or_introl eq_refl)) as (_ & W). inversion W; subst. inversion H0; subst; [match goal with H : ex_leaf _ _ |- _ => destruct H end|].
    match goal with H : _ = true -> _ |- _ => destruct (H eq_refl) as (n & x & E & _) end. discriminate E.
  - exists [Item 23 []], [17], ex_st. eexists. eexists.
    exists [(17, ArgInput [(103, ISelect 23 IIdentity)])], [(17, OObj [(103, ONull)])].
    split; [reflexivity|]. split; [repeat constructor; intros []|]. split; [intros id o a b oa ob L; exfalso; apply L; reflexivity|].
    split; [apply ex_has; [intros x [<-|[]]; cbn; auto|cbn; repeat constructor]|].
    split; [split; [reflexivity|apply ex_entity; intros x [<-|[]]; cbn; auto]|].
    split; [vm_compute; reflexivity|]. split.
    { cbn. eapply MaInput; [reflexivity| |constructor].
      apply MfCons with (id := 18) (v := SelectV 23 0); [reflexivity|econstructor; [reflexivity|constructor]|constructor]. }
    split; [vm_compute; reflexivity|]. do 2 eexists. split; [left; reflexivity|].
    intros (_ & V & _). destruct (V _ _ (or_introl eq_refl)) as (_ & W). inversion W; subst. inversion H0; subst; [match goal with H : ex_leaf _ _ |- _ => destruct H end|].
    match goal with H : _ = true -> _ |- _ => destruct (H eq_refl) as (n & x & E & N) end. injection E as <- <-. apply N. reflexivity.
Qed.

(** ** C96 *)

(** Arguments of a single lookup: none shares a leaf of the key with another, and one with the
    name of a leaf it can take takes that one. *)
Theorem C96_fair : forall g n keys args st c st' l,
  (forall o, NoDup (o_inputs (g_object g o))) -> good_store st -> NoDup args -> one_choice g false keys args ->
  NoDup (map (fun id => i_name (g_input g id)) args) ->
  detect g n false keys args st = (Some c, st') -> means_args g st' (fst c) (snd c) l ->
  (forall a b f n1 n2, is_leaf_ty (f_ty (g_field g f)) ->
     In (a, ArgValue (ISelect f n1)) l -> In (b, ArgValue (ISelect f n2)) l -> a = b) /\
  (NoDup (map (fun k => f_name (g_field g (i_field k))) keys) -> forall a f next k,
     In (a, ArgValue (ISelect f next)) l -> In k keys -> is_leaf_ty (f_ty (g_field g (i_field k))) ->
     f_name (g_field g (i_field k)) = i_name (g_input g a) ->
     takes false (i_ty (g_input g a)) (f_ty (g_field g (i_field k))) -> f = i_field k).
Proof.
  intros g n keys args st c st' l Di G Nd One Nn E M.
  destruct (detect_ok g Di n false keys args st _ _ G Nd One E) as (_ & _ & H). destruct (H c eq_refl) as (l' & M' & Ga).
  rewrite <- (args_same _ _ _ _ _ M _ M') in Ga. split.
  - intros a b f n1 n2 L Ja Jb. exact (one_input g keys args l a b f n1 n2 Ga Nn L Ja Jb).
  - intros Nk a f next k Ja Ik L Nm T. exact (by_its_name g keys args l a f next k Ga Nk Ja Ik L Nm T).
Qed.

(** All of the key is there: each of its fields is selected, by an argument, by a field of an
    input object, or by a field of the input object of a oneof field. *)
Theorem C96_all_of_key : forall g n batch keys args st c st' l,
  (forall o, NoDup (o_inputs (g_object g o))) -> good_store st -> NoDup args -> one_choice g batch keys args ->
  detect g n batch keys args st = (Some c, st') -> means_args g st' (fst c) (snd c) l -> given_args g batch keys args l.
Proof.
  intros g n batch keys args st c st' l Di G Nd One E M.
  destruct (detect_ok g Di n batch keys args st _ _ G Nd One E) as (_ & _ & H). destruct (H c eq_refl) as (l' & M' & Ga).
  rewrite <- (args_same _ _ _ _ _ M _ M') in Ga. exact Ga.
Qed.

Lemma position_some : forall test l s p k, nth_error l p = Some k -> test (s + p) k = true -> exists q k', position test l s = Some (q, k').
Proof.
  intros test l. induction l as [|x l IH]; intros s p k E T; [destruct p; discriminate E|]. cbn.
  destruct (test s x) eqn:Tx; [eauto|]. destruct p as [|p]; cbn in E.
  - injection E as ->. rewrite Nat.add_0_r in T. congruence.
  - apply (IH (S s) p k E). rewrite Nat.add_succ_r in T. exact T.
Qed.

Lemma entitled_suits : forall g inputs keys batch id p k, NoDup keys -> nth_error keys p = Some k ->
  takes batch (i_ty (g_input g id)) (f_ty (g_field g (i_field k))) -> entitled g inputs keys id k ->
  suits g inputs keys batch id p k = true.
Proof.
  intros g inputs keys batch id p k Nd Np T En. unfold suits. apply andb_true_iff. split; [apply can_inject_takes; exact T|].
  apply orb_true_iff. destruct En as [En|[A B]]; [left; apply Nat.eqb_eq; exact En|right]. apply andb_true_iff. split; apply forallb_forall.
  - intros j J. apply orb_true_iff. destruct (Nat.eqb_spec j id) as [|N]; [left; reflexivity|right]. apply negb_true_iff.
    apply not_true_iff_false. rewrite ty_eqb_eq. exact (A j J N).
  - intros [q k'] J. cbn. apply orb_true_iff. destruct (Nat.eqb_spec p q) as [|N]; [left; reflexivity|right]. apply negb_true_iff.
    apply not_true_iff_false. rewrite ty_eqb_eq. apply In_nth_error in J. destruct J as (m & J).
    assert (Lm : m < List.length keys).
    { assert (X : m < List.length (combine (seq 0 (List.length keys)) keys)) by (apply nth_error_Some; congruence).
      rewrite combine_length, seq_length, Nat.min_id in X. exact X. }
    destruct (nth_error keys m) as [k2|] eqn:Nm; [|apply nth_error_None in Nm; lia].
    rewrite (combine_seq keys 0 m k2 Nm) in J. cbn in J. injection J as -> ->.
    apply B; [exact (nth_error_In _ _ Nm)|]. intros ->. apply N. apply (proj1 (NoDup_nth_error keys) Nd); [apply nth_error_Some; congruence|congruence].
Qed.

Lemma flat_in : forall g args keys batch id i, In (id, i) (flat_map (flat_value g args keys batch) args) -> In id args /\
  ((exists p k, position (suits g args keys batch id) keys 0 = Some (p, k) /\ i = ISelect (i_field k) IIdentity) \/
   (position (suits g args keys batch id) keys 0 = None /\ exists x, i_default (g_input g id) = Some x /\ i = IDefault x)).
Proof.
  intros g args keys batch id i J. apply in_flat_map in J. destruct J as (id' & Ji & J). unfold flat_value in J.
  destruct (position (suits g args keys batch id') keys 0) as [[p k]|] eqn:P.
  - destruct J as [J|[]]. injection J as -> <-. split; [exact Ji|left; eauto].
  - destruct (i_default (g_input g id')) as [x|] eqn:D; [|destruct J]. destruct J as [J|[]]. injection J as -> <-. split; [exact Ji|right; eauto].
Qed.

(** A flat key, none of its fields being null, is found by names: if there is an argument for
    each field and all others are optional, it is detected, whatever else the arguments are. *)
Theorem C96_by_name : forall g n keys args st,
  good_store st ->
  NoDup (map (fun id => i_name (g_input g id)) args) -> NoDup (map (fun k => f_name (g_field g (i_field k))) keys) ->
  (forall k, In k keys -> i_sub k = [] /\ is_leaf_ty (f_ty (g_field g (i_field k))) /\ is_non_null (t_wrap (f_ty (g_field g (i_field k)))) = true) ->
  (forall k, In k keys -> exists id, In id args /\ i_name (g_input g id) = f_name (g_field g (i_field k)) /\
     takes false (i_ty (g_input g id)) (f_ty (g_field g (i_field k)))) ->
  (forall id, In id args -> (forall k, In k keys -> f_name (g_field g (i_field k)) <> i_name (g_input g id)) ->
     is_non_null (t_wrap (i_ty (g_input g id))) = true -> i_default (g_input g id) <> None) ->
  (forall id o, In id args -> t_def (i_ty (g_input g id)) <> DInput o) ->
  exists c st' l, detect g n false keys args st = (Some c, st') /\ means_args g st' (fst c) (snd c) l /\
    forall id a, In (id, a) l <-> In id args /\
      ((exists k, In k keys /\ f_name (g_field g (i_field k)) = i_name (g_input g id) /\ a = ArgValue (ISelect (i_field k) IIdentity)) \/
       ((forall k, In k keys -> f_name (g_field g (i_field k)) <> i_name (g_input g id)) /\
        exists x, i_default (g_input g id) = Some x /\ a = ArgValue (IDefault x))).
Proof.
  intros g n keys args st G Na Nk Leaf Each Opt NoObj.
  assert (Ndk : NoDup keys) by exact (NoDup_map_inv _ _ Nk).
  (* the argument with the name of a key takes that key *)
  assert (Named : forall id p k, In id args -> nth_error keys p = Some k -> f_name (g_field g (i_field k)) = i_name (g_input g id) ->
    position (suits g args keys false id) keys 0 = Some (p, k)).
  { intros id p k Ji Np Nm. assert (Ik := nth_error_In _ _ Np). destruct (Each k Ik) as (id' & Ji' & Nm' & T).
    assert (id' = id) by (apply (nodup_name _ (fun id => i_name (g_input g id)) args); try assumption; congruence). subst id'.
    destruct (position_some (suits g args keys false id) keys 0 p k Np) as (q & k' & P).
    { apply entitled_suits; try assumption. left. exact Nm. }
    destruct (position_in _ _ _ _ _ P) as (_ & Nq & Tq). rewrite Nat.sub_0_r in Nq. assert (Ik' := nth_error_In _ _ Nq).
    assert (k' = k).
    { destruct (suits_entitled g args keys false id q k' Nq Tq) as [En|[_ En]].
      - apply (nodup_name _ (fun k => f_name (g_field g (i_field k))) keys); try assumption. congruence.
      - unfold suits in Tq. apply andb_true_iff in Tq. destruct Tq as [Tq _]. apply can_inject_takes in Tq.
        destruct (Leaf k Ik) as (_ & (x & Lk) & Rk). destruct (Leaf k' Ik') as (_ & (x' & Lk') & Rk').
        assert (Same : f_ty (g_field g (i_field k)) = f_ty (g_field g (i_field k'))).
        { destruct T as [Td Tw], Tq as [Qd Qw]. apply takes_wrap_non_null in Tw. apply takes_wrap_non_null in Qw.
          assert (Wk : forall w, is_non_null w = true -> non_null w = w).
          { intros [[|b ll] i] H; unfold is_non_null in H; cbn in H; subst; reflexivity. }
          rewrite (Wk _ Rk) in Tw. rewrite (Wk _ Rk') in Qw. unfold takes_def in Td, Qd.
          destruct (f_ty (g_field g (i_field k))) as [dk wk], (f_ty (g_field g (i_field k'))) as [dk' wk']. cbn in *.
          destruct Lk as [Lk|Lk], Lk' as [Lk'|Lk']; rewrite Lk in Td; rewrite Lk' in Qd; congruence. }
        destruct (Nat.eq_dec p q) as [->|N]; [congruence|]. exfalso. apply (En k Ik); [|exact Same].
        intros ->. apply N. apply (proj1 (NoDup_nth_error keys) Ndk); [apply nth_error_Some; congruence|congruence]. }
    subst k'. rewrite P. f_equal. f_equal. apply (proj1 (NoDup_nth_error keys) Ndk); [apply nth_error_Some; congruence|congruence]. }
  (* others take none *)
  assert (Unnamed : forall id, In id args -> (forall k, In k keys -> f_name (g_field g (i_field k)) <> i_name (g_input g id)) ->
    position (suits g args keys false id) keys 0 = None).
  { intros id Ji Nm. destruct (position (suits g args keys false id) keys 0) as [[q k]|] eqn:P; [|reflexivity]. exfalso.
    destruct (position_in _ _ _ _ _ P) as (_ & Nq & Tq). rewrite Nat.sub_0_r in Nq. assert (Ik := nth_error_In _ _ Nq).
    destruct (suits_entitled g args keys false id q k Nq Tq) as [En|[En _]]; [exact (Nm k Ik En)|].
    unfold suits in Tq. apply andb_true_iff in Tq. destruct Tq as [Tq _]. apply can_inject_takes in Tq.
    destruct (Each k Ik) as (j & Jj & Nj & Tj). apply (En j Jj).
    - intros ->. exact (Nm k Ik (eq_sym Nj)).
    - exact (leaf_same _ _ _ (proj1 (proj2 (Leaf k Ik))) Tj Tq). }
  assert (Dec : forall id, (exists p k, nth_error keys p = Some k /\ f_name (g_field g (i_field k)) = i_name (g_input g id)) \/
    (forall k, In k keys -> f_name (g_field g (i_field k)) <> i_name (g_input g id))).
  { intros id. destruct (in_dec Nat.eq_dec (i_name (g_input g id)) (map (fun k => f_name (g_field g (i_field k))) keys)) as [J|J].
    - left. apply in_map_iff in J. destruct J as (k & E & J). apply In_nth_error in J. destruct J as (p & J). eauto.
    - right. intros k Ik E. apply J. apply in_map_iff. eauto. }
  destruct (flat_detected g (nested_object g n) args keys false) with (st := st) as (c & st' & E & M).
  - intros k Ik. exact (proj1 (Leaf k Ik)).
  - intros id Ji P Nn. destruct (Dec id) as [(p & k & Np & Nm)|D]; [rewrite (Named _ _ _ Ji Np Nm) in P; discriminate P|exact (Opt id Ji D Nn)].
  - exact NoObj.
  - right. reflexivity.
  - intros k p Np. destruct (Each k (nth_error_In _ _ Np)) as (id & Ji & Nm & T). exists id. split; [exact Ji|]. apply Named; congruence.
  - exact G.
  - exists c, st'. eexists. split; [exact E|]. split; [exact M|]. intros id a. split.
    + intros J. apply in_map_iff in J. destruct J as ([id' i] & X & J). cbn in X. injection X as -> <-. apply flat_in in J. destruct J as [Ji J].
      split; [exact Ji|]. destruct J as [(p & k & P & ->)|(P & x & D & ->)].
      * left. exists k. destruct (position_in _ _ _ _ _ P) as (_ & Np & _). rewrite Nat.sub_0_r in Np.
        split; [exact (nth_error_In _ _ Np)|]. split; [|reflexivity]. destruct (Dec id) as [(p' & k' & Np' & Nm)|D].
        -- rewrite (Named _ _ _ Ji Np' Nm) in P. injection P as <- <-. exact Nm.
        -- rewrite (Unnamed _ Ji D) in P. discriminate P.
      * right. split; [|eauto]. destruct (Dec id) as [(p' & k' & Np' & Nm)|D']; [rewrite (Named _ _ _ Ji Np' Nm) in P; discriminate P|exact D'].
    + intros (Ji & J). apply in_map_iff. destruct J as [(k & Ik & Nm & ->)|(Nm & x & D & ->)].
      * apply In_nth_error in Ik. destruct Ik as (p & Np). exists (id, ISelect (i_field k) IIdentity). split; [reflexivity|].
        apply in_flat_map. exists id. split; [exact Ji|]. unfold flat_value. rewrite (Named _ _ _ Ji Np Nm). left. reflexivity.
      * exists (id, IDefault x). split; [reflexivity|]. apply in_flat_map. exists id. split; [exact Ji|].
        unfold flat_value. rewrite (Unnamed _ Ji Nm), D. left. reflexivity.
Qed.

(** A key of one field goes to the only argument that can take it, in a batch or not. *)
Theorem C96_only_one : forall g n batch k args st a,
  good_store st -> i_sub k = [] -> In a args -> NoDup args ->
  takes batch (i_ty (g_input g a)) (f_ty (g_field g (i_field k))) -> entitled g args [k] a k ->
  (forall id, In id args -> id <> a -> ~ takes batch (i_ty (g_input g id)) (f_ty (g_field g (i_field k)))) ->
  (forall id, In id args -> id <> a -> is_non_null (t_wrap (i_ty (g_input g id))) = true -> i_default (g_input g id) <> None) ->
  (forall id o, In id args -> t_def (i_ty (g_input g id)) <> DInput o) ->
  exists c st' l, detect g n batch [k] args st = (Some c, st') /\ means_args g st' (fst c) (snd c) l /\
    In (a, ArgValue (ISelect (i_field k) IIdentity)) l /\
    forall id x, In (id, x) l -> id = a \/ exists v, i_default (g_input g id) = Some v /\ x = ArgValue (IDefault v).
Proof.
  intros g n batch k args st a G Sk Ja Nd T En Others Opt NoObj.
  assert (Pa : position (suits g args [k] batch a) [k] 0 = Some (0, k)).
  { cbn. rewrite (entitled_suits g args [k] batch a 0 k); try reflexivity; try assumption. repeat constructor. intros []. }
  assert (Po : forall id, In id args -> id <> a -> position (suits g args [k] batch id) [k] 0 = None).
  { intros id Ji N. destruct (position (suits g args [k] batch id) [k] 0) as [[q k']|] eqn:P; [|reflexivity]. exfalso.
    destruct (position_in _ _ _ _ _ P) as (_ & Nq & Tq). rewrite Nat.sub_0_r in Nq. destruct q as [|[|q]]; try discriminate Nq.
    injection Nq as <-. unfold suits in Tq. apply andb_true_iff in Tq. destruct Tq as [Tq _]. apply can_inject_takes in Tq.
    exact (Others id Ji N Tq). }
  destruct (flat_detected g (nested_object g n) args [k] batch) with (st := st) as (c & st' & E & M).
  - intros k' [<-|[]]. exact Sk.
  - intros id Ji P Nn. destruct (Nat.eq_dec id a) as [->|N]; [congruence|exact (Opt id Ji N Nn)].
  - exact NoObj.
  - left. reflexivity.
  - intros k' p Np. destruct p as [|[|p]]; try discriminate Np. injection Np as <-. exists a. auto.
  - exact G.
  - exists c, st'. eexists. split; [exact E|]. split; [exact M|]. split.
    + apply in_map_iff. exists (a, ISelect (i_field k) IIdentity). split; [reflexivity|]. apply in_flat_map. exists a. split; [exact Ja|].
      unfold flat_value. rewrite Pa. left. reflexivity.
    + intros id x J. apply in_map_iff in J. destruct J as ([id' i] & X & J). cbn in X. injection X as -> <-. apply flat_in in J.
      destruct J as [Ji J]. destruct (Nat.eq_dec id a) as [|N]; [left; assumption|right].
      destruct J as [(p & k' & P & _)|(_ & v & D & ->)]; [rewrite (Po id Ji N) in P; discriminate P|eauto].
Qed.

(** The key [id region] with [(id: ID!, region: String, limit: .. = "10")], and [id] of a batch
    with [(list: [ID!]!)]. *)
Example C96_by_name_ex : exists st', detect ex_g 5 false [Item 20 []; Item 21 []] [0; 1; 2] ex_st = (Some (0, 3), st') /\
  s_args st' = [(0, ValueA (SelectV 20 0)); (1, ValueA (SelectV 21 0)); (2, ValueA (DefaultV (OStr "10")))].
Proof. eexists. split; vm_compute; reflexivity. Qed.
Example C96_only_one_ex : exists st', detect ex_g 5 true [Item 20 []] [2; 22] ex_st = (Some (0, 2), st') /\
  s_args st' = [(2, ValueA (DefaultV (OStr "10"))); (22, ValueA (SelectV 20 0))].
Proof. eexists. split; vm_compute; reflexivity. Qed.

(** Two fields for the same type: no way to tell which. *)
Example C96_ambiguous_ex : detect ex_g 5 false [Item 30 []; Item 31 []] [0; 1] ex_st = (None, ex_st).
Proof. vm_compute. reflexivity. Qed.

(** In a batch, [(list: [ID!]!, other: [ID])] are both given the key, their types being
    different. *)
Theorem C96_batch_twice_refuted : exists g keys args st c st' f a b, a <> b /\ good_store st /\ NoDup args /\
  detect g 5 true keys args st = (Some c, st') /\
  means_args g st' (fst c) (snd c) [(a, ArgValue (ISelect f IIdentity)); (b, ArgValue (ISelect f IIdentity))].
Proof.
  exists ex_g, [Item 20 []], [22; 23], ex_st. eexists. eexists. exists 20, 22, 23. split; [discriminate|]. split; [reflexivity|].
  split; [repeat constructor; cbn; intuition discriminate|]. split; [vm_compute; reflexivity|]. cbn.
  repeat (eapply MaValue; [reflexivity|econstructor; [reflexivity|constructor]|]). constructor.
Qed.

(** Two fields of a oneof input object can be given the key: the last one is. *)
Theorem C96_oneof_ambiguous_refuted : exists g keys args st c st' a b o i, a <> b /\ good_store st /\ NoDup args /\
  In a (o_inputs (g_object g o)) /\ In b (o_inputs (g_object g o)) /\
  given g true (o_inputs (g_object g o)) keys a i /\ given g true (o_inputs (g_object g o)) keys b i /\
  detect g 5 true keys args st = (Some c, st') /\
  exists arg, t_def (i_ty (g_input g arg)) = DInput o /\
    means_args g st' (fst c) (snd c) [(arg, ArgInput [(i_name (g_input g b), i)])].
Proof.
  exists ex_g, [Item 20 []], [19], ex_st. eexists. eexists. exists 20, 21, 6, (ISelect 20 IIdentity).
  split; [discriminate|]. split; [reflexivity|]. split; [repeat constructor; intros []|]. split; [cbn; auto|]. split; [cbn; auto|].
  assert (Keys : forall k', In k' [Item 20 []] -> k' <> Item 20 [] -> f_ty (g_field ex_g (i_field k')) <> f_ty (g_field ex_g (i_field (Item 20 [])))).
  { intros k' [<-|[]] N. contradiction. }
  split; [|split; [|split; [vm_compute; reflexivity|]]].
  - apply GvLeaf with (k := Item 20 []); [left; reflexivity|reflexivity| |].
    + split; [reflexivity|]. exists false, (MkWrap [] true). split; [reflexivity|]. split; [reflexivity|]. left. reflexivity.
    + right. split; [|exact Keys]. intros j [<-|[<-|[]]] N; [contradiction|]. discriminate.
  - apply GvLeaf with (k := Item 20 []); [left; reflexivity|reflexivity| |].
    + split; [reflexivity|]. exists false, (MkWrap [] false). split; [reflexivity|]. split; [reflexivity|]. right. split; reflexivity.
    + right. split; [|exact Keys]. intros j [<-|[<-|[]]] N; [|contradiction]. discriminate.
  - exists 19. split; [reflexivity|]. cbn. eapply MaInput; [reflexivity| |constructor].
    apply MfCons with (id := 21) (v := SelectV 20 0); [reflexivity|econstructor; [reflexivity|constructor]|constructor].
Qed.

(** Names count for leaves only: with the key [a { x } loc { x }] and [(loc: A, other: B!)], the
    argument [loc] is given [a]. *)
Theorem C96_name_refuted : exists g keys args st c st' l a f next k, good_store st /\ NoDup args /\ one_choice g false keys args /\
  NoDup (map (fun id => i_name (g_input g id)) args) /\ NoDup (map (fun k => f_name (g_field g (i_field k))) keys) /\
  detect g 5 false keys args st = (Some c, st') /\ means_args g st' (fst c) (snd c) l /\
  In (a, ArgValue (ISelect f next)) l /\ In k keys /\ f_name (g_field g (i_field k)) = i_name (g_input g a) /\
  takes false (i_ty (g_input g a)) (f_ty (g_field g (i_field k))) /\ f <> i_field k.
Proof.
  exists ex_g, [Item 24 [Item 30 []]; Item 25 [Item 30 []]], [24; 25], ex_st. eexists. eexists.
  exists [(24, ArgValue (ISelect 24 (IObject [(110, ISelect 30 IIdentity)]))); (25, ArgValue (ISelect 25 (IObject [(110, ISelect 30 IIdentity)])))].
  exists 24, 24, (IObject [(110, ISelect 30 IIdentity)]), (Item 25 [Item 30 []]).
  split; [reflexivity|]. split; [repeat constructor; cbn; intuition discriminate|]. split.
  { intros id o a b oa ob _ [<-|[<-|[]]] D Oo; injection D as <-; discriminate Oo. }
  split; [cbn; repeat constructor; cbn; intuition discriminate|]. split; [cbn; repeat constructor; cbn; intuition discriminate|].
  split; [vm_compute; reflexivity|]. split.
  { cbn. repeat (eapply MaValue; [reflexivity|repeat (econstructor; try reflexivity)|]). constructor. }
  split; [left; reflexivity|]. split; [cbn; auto|]. split; [reflexivity|]. split; [|discriminate].
  split; [eexists; reflexivity|]. right. split; reflexivity.
Qed.
