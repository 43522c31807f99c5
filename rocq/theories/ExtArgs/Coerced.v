(** Which arguments are accepted, and what they become. *)
From Coq Require Import String List ZArith Bool Lia PeanoNat Permutation.
From Verif.Coercion Require Model.
From Verif.ExtArgs Require Import Model Spec.
Import ListNotations.
Local Open Scope string_scope.
Local Open Scope list_scope.

Module CM := Verif.Coercion.Model.

(** *** Positions *)

Lemma position_some : forall k fs i, position k fs = Some i -> exists v, nth_error fs i = Some (k, v).
Proof.
  intros k fs. induction fs as [|[a v] fs IH]; intros i H; [discriminate H|]. cbn [position fst] in H.
  destruct (String.eqb a k) eqn:E.
  - injection H as <-. apply String.eqb_eq in E. subst a. now exists v.
  - destruct (position k fs) as [j|]; [|discriminate H]. cbn in H. injection H as <-. exact (IH j eq_refl).
Qed.

Lemma position_none : forall k fs, position k fs = None <-> ~ In k (map fst fs).
Proof.
  intros k fs. induction fs as [|[a v] fs IH]; [split; [intros _ []|reflexivity]|]. cbn [position fst map In].
  destruct (String.eqb a k) eqn:E.
  - apply String.eqb_eq in E. split; [discriminate|]. intro N. exfalso. apply N. now left.
  - apply String.eqb_neq in E. destruct (position k fs) as [j|]; cbn.
    + split; [discriminate|]. intro N. exfalso. assert (X : Some j = None) by (apply IH; tauto). discriminate X.
    + split; [|reflexivity]. intros _ [X|X]; [congruence|]. now apply IH in X.
Qed.

Lemma last_cons_removelast : forall {A} (l : list A) x d, last (x :: l) d :: removelast (x :: l) = [] \/ Permutation (x :: l) (last (x :: l) d :: removelast (x :: l)).
Proof.
  intros A l x d. right. rewrite (app_removelast_last d) at 1 by discriminate. symmetry. apply Permutation_cons_append.
Qed.

Lemma swap_remove_perm : forall i fs f, nth_error fs i = Some f -> Permutation fs (f :: swap_remove i fs).
Proof.
  intros i fs f H. unfold swap_remove.
  assert (S : fs = firstn i fs ++ f :: skipn (S i) fs).
  { revert fs H. induction i as [|i IH]; intros [|g fs] H; try discriminate H.
    - cbn in H. injection H as ->. reflexivity.
    - cbn [firstn skipn app]. f_equal. exact (IH fs H). }
  rewrite S at 1. destruct (skipn (Datatypes.S i) fs) as [|x l].
  - symmetry. apply Permutation_cons_append.
  - rewrite <- Permutation_middle. apply perm_skip. apply Permutation_app_head.
    destruct (last_cons_removelast l x x) as [E|P]; [discriminate E|exact P].
Qed.

Section Coerced.
  Context {VS FS TPL : Type}.
  Notation ev := (ev VS FS TPL).
  Notation coerced := (coerced VS FS TPL).
  Variable specials : list (string * special).
  Variable definitions : string -> option definition.
  Variable on_field : bool.
  Variable empty_set : VS.
  Variable bind_set : string -> option VS.
  Variable bind_field_set : string -> option FS.
  Variable parse_template : special -> string -> option TPL.

  Notation special_of := (fun n => option_map snd (find (fun s : string * special => String.eqb (fst s) n) specials)).
  Notation named_as := (named_as special_of definitions on_field empty_set
    (fun s x => bind_set s = Some x) (fun s x => bind_field_set s = Some x) (fun k s x => parse_template k s = Some x)).
  Notation item := (item special_of definitions on_field empty_set
    (fun s x => bind_set s = Some x) (fun s x => bind_field_set s = Some x) (fun k s x => parse_template k s = Some x)).
  Notation items := (items special_of definitions on_field empty_set
    (fun s x => bind_set s = Some x) (fun s x => bind_field_set s = Some x) (fun k s x => parse_template k s = Some x)).
  Notation whole := (whole special_of definitions on_field empty_set
    (fun s x => bind_set s = Some x) (fun s x => bind_field_set s = Some x) (fun k s x => parse_template k s = Some x)).
  Notation fields_as := (fields_as special_of definitions on_field empty_set
    (fun s x => bind_set s = Some x) (fun s x => bind_field_set s = Some x) (fun k s x => parse_template k s = Some x)).
  Notation arguments_as := (arguments_as special_of definitions on_field empty_set
    (fun s x => bind_set s = Some x) (fun s x => bind_field_set s = Some x) (fun k s x => parse_template k s = Some x)).
  Notation coerce_named := (coerce_named specials definitions on_field empty_set bind_set bind_field_set parse_template).
  Notation coerce_arguments := (coerce_arguments specials definitions on_field empty_set bind_set bind_field_set parse_template).

  (** *** Soundness *)

  Definition sound (dflt : bool) (d : string -> value -> outcome coerced) : Prop :=
    forall n v e s r, v <> VNull -> d n v = Val (e, s, r) -> named_as dflt n v e.

  Lemma each_sound : forall dflt ws n (f : value -> outcome coerced),
    (forall v e s r, f v = Val (e, s, r) -> item dflt ws n v e) ->
    forall l es s r, each f l = Val (es, s, r) -> items dflt ws n l es.
  Proof.
    intros dflt ws n f F. induction l as [|v l IH]; intros es s r H; cbn [each] in H.
    - injection H as <- _ _. constructor.
    - destruct (f v) as [[[e s1] r1]| |] eqn:E; cbn [andthen] in H; try discriminate H.
      destruct (each f l) as [[[es1 s2] r2]| |]; cbn [andthen] in H; try discriminate H. injection H as <- _ _.
      constructor; [exact (F _ _ _ _ E)|exact (IH _ _ _ eq_refl)].
  Qed.

  Lemma type_sound : forall dflt d, sound dflt d ->
    forall ws n v e s r, coerce_type d ws n v = Val (e, s, r) -> item dflt ws n v e.
  Proof.
    intros dflt d D. induction ws as [|w ws IH]; intros n v e s r H; cbn [coerce_type] in H.
    - destruct v; try (apply ItNamed; [discriminate|eapply D; [discriminate|exact H]]).
      injection H as <- _ _. constructor.
    - destruct w.
      + destruct v; try discriminate H; (apply ItNonNull; [discriminate|eapply IH; exact H]).
      + destruct v as [| | | | | |l|]; try discriminate H.
        destruct (each (coerce_type d ws n) l) as [[[es s1] r1]| |] eqn:E; cbn [andthen] in H; try discriminate H.
        injection H as <- _ _. constructor. eapply each_sound; [|exact E]. intros v e s2 r2. apply IH.
  Qed.

  Lemma wrap_nested : forall n (e : ev), nested n e (wrap n e).
  Proof. induction n as [|n IH]; intro e; [constructor|]. cbn [wrap]. constructor. apply IH. Qed.

  Lemma nested_wrap : forall n (e e' : ev), nested n e e' -> e' = wrap n e.
  Proof. intros n e e' H. induction H as [|n e e' _ IH]; [reflexivity|]. cbn [wrap]. now rewrite IH. Qed.

  Lemma lists_pos : forall ws, existsb is_list_wrapper ws = true <-> lists ws <> 0.
  Proof.
    induction ws as [|w ws IH]; [split; [discriminate|intro H; contradiction (H eq_refl)]|]. destruct w; cbn.
    - exact IH.
    - split; [discriminate|reflexivity].
  Qed.

  Lemma lists_count : forall ws, List.length (filter is_list_wrapper ws) = lists ws.
  Proof. reflexivity. Qed.

  Lemma input_sound : forall dflt d, sound dflt d ->
    forall t v e s r, coerce_input d t v = Val (e, s, r) -> whole dflt t v e.
  Proof.
    intros dflt d D t v e s r H. unfold coerce_input in H. destruct (is_list t) eqn:L.
    - destruct v; try (apply WhItem; eapply type_sound; [exact D|exact H]);
        (match type of H with andthen ?x _ = _ => destruct x as [[[e1 s1] r1]| |] eqn:E end; cbn [andthen] in H; try discriminate H;
         injection H as <- _ _; eapply WhSingle;
         [now apply lists_pos|discriminate|discriminate|eapply D; [discriminate|exact E]|rewrite lists_count; apply wrap_nested]).
    - apply WhItem. eapply type_sound; [exact D|]. destruct v; exact H.
  Qed.

  Lemma is_non_null_false : forall t, is_non_null t = false <-> forall ws, wrappers t <> WNonNull :: ws.
  Proof.
    intro t. unfold is_non_null. destruct (wrappers t) as [|[] ws]; split; try discriminate; try reflexivity.
    intro H. contradiction (H ws eq_refl).
  Qed.

  Lemma perm_keys : forall (fs gs : list (string * value)), Permutation fs gs -> Permutation (map fst fs) (map fst gs).
  Proof. intros fs gs P. now apply Permutation_map. Qed.

  Lemma fields_ext : forall dflt fs gs defs es,
    (forall d v, In d defs -> In (iname d, v) fs <-> In (iname d, v) gs) ->
    fields_as dflt fs defs es -> fields_as dflt gs defs es.
  Proof.
    intros dflt fs gs defs es A H. revert gs A.
    assert (K : forall gs d, (forall v, In (iname d, v) fs <-> In (iname d, v) gs) -> ~ In (iname d) (map fst fs) -> ~ In (iname d) (map fst gs)).
    { intros gs d A N I. apply N. apply in_map_iff in I. destruct I as ((k & v) & E & I). cbn in E. subst k.
      apply A in I. apply in_map_iff. now exists (iname d, v). }
    induction H as [fs|fs d defs v e es I W _ IH|fs d defs v e es N E W _ IH|fs d defs es N E M _ IH]; intros gs A.
    - constructor.
    - eapply FaGiven; [apply A; [now left|exact I]|exact W|]. apply IH; [exact K|]. intros d' v' J. apply A. now right.
    - eapply FaDefault; [|exact E|exact W|].
      + apply K; [|exact N]. intro w. apply A. now left.
      + apply IH; [exact K|]. intros d' v' J. apply A. now right.
    - eapply FaAbsent; [|exact E|exact M|].
      + apply K; [|exact N]. intro w. apply A. now left.
      + apply IH; [exact K|]. intros d' v' J. apply A. now right.
  Qed.

  Lemma removed_same : forall (fs gs : list (string * value)) k v k' v', Permutation fs ((k, v) :: gs) -> k' <> k ->
    In (k', v') gs <-> In (k', v') fs.
  Proof.
    intros fs gs k v k' v' P N. split; intro I.
    - eapply Permutation_in; [symmetry; exact P|]. now right.
    - apply (Permutation_in _ P) in I. destruct I as [E|I]; [|exact I]. injection E as E _. congruence.
  Qed.

  Lemma fields_sound : forall dflt d, sound dflt d ->
    forall defs fs es s r, NoDup (map iname defs) -> coerce_fields d defs fs = Val (es, s, r) ->
    NoDup (map fst fs) /\ incl (map fst fs) (map iname defs) /\ fields_as dflt fs defs es.
  Proof.
    intros dflt d D. induction defs as [|x defs IH]; intros fs es s r ND H; cbn [coerce_fields] in H.
    - destruct fs as [|f fs]; [|discriminate H]. injection H as <- _ _. split; [constructor|]. split; [intros y []|constructor].
    - cbn [map] in ND. inversion ND as [|? ? ND1 ND2]. subst. destruct (position (iname x) fs) as [i|] eqn:P.
      + destruct (position_some _ _ _ P) as [v N]. rewrite N in H. cbn [snd] in H.
        destruct (coerce_input d (ity x) v) as [[[e s1] r1]| |] eqn:E; cbn [andthen] in H; try discriminate H.
        destruct (coerce_fields d defs (swap_remove i fs)) as [[[es1 s2] r2]| |] eqn:E2; cbn [andthen] in H; try discriminate H.
        injection H as <- _ _. destruct (IH _ _ _ _ ND2 E2) as (A1 & A2 & A3).
        pose proof (swap_remove_perm i fs _ N) as Q. pose proof (perm_keys _ _ Q) as QK. cbn [map fst] in QK.
        assert (X : ~ In (iname x) (map fst (swap_remove i fs))) by (intro J; apply ND1; now apply A2).
        split; [|split].
        * eapply Permutation_NoDup; [symmetry; exact QK|]. now constructor.
        * intros y J. apply (Permutation_in _ QK) in J. destruct J as [J|J]; [left; exact J|right; now apply A2].
        * eapply FaGiven.
          -- eapply Permutation_in; [symmetry; exact Q|]. now left.
          -- eapply input_sound; [exact D|exact E].
          -- eapply fields_ext; [|exact A3]. intros d' v' J. eapply removed_same; [exact Q|].
             intro X2. apply ND1. rewrite <- X2. now apply in_map.
      + apply position_none in P. destruct (idefault x) as [v|] eqn:DV.
        * destruct (coerce_input d (ity x) v) as [[[e s1] r1]| |] eqn:E; cbn [andthen] in H; try discriminate H.
          destruct (coerce_fields d defs fs) as [[[es1 s2] r2]| |] eqn:E2; cbn [andthen] in H; try discriminate H.
          injection H as <- _ _. destruct (IH _ _ _ _ ND2 E2) as (A1 & A2 & A3). split; [exact A1|].
          split; [intros y J; right; now apply A2|]. eapply FaDefault; [exact P|exact DV|eapply input_sound; [exact D|exact E]|exact A3].
        * destruct (is_non_null (ity x)) eqn:NN; [discriminate H|]. destruct (IH _ _ _ _ ND2 H) as (A1 & A2 & A3). split; [exact A1|].
          split; [intros y J; right; now apply A2|]. apply FaAbsent; [exact P|exact DV|now apply is_non_null_false|exact A3].
  Qed.

  Lemma find_first : forall k defs d, find (fun d => String.eqb (iname d) k) defs = Some d ->
    exists pre post, defs = pre ++ d :: post /\ iname d = k /\ ~ In k (map iname pre).
  Proof.
    intros k defs. induction defs as [|x defs IH]; intros d H; [discriminate H|]. cbn [find] in H. destruct (String.eqb (iname x) k) eqn:E.
    - injection H as <-. apply String.eqb_eq in E. exists [], defs. split; [reflexivity|]. split; [exact E|intros []].
    - destruct (IH d H) as (pre & post & E1 & E2 & N). exists (x :: pre), post. split; [now rewrite E1|]. split; [exact E2|].
      cbn. intros [J|J]; [|now apply N]. rewrite J in E. now rewrite String.eqb_refl in E.
  Qed.

  Lemma find_app_first : forall k pre d post, iname d = k -> ~ In k (map iname pre) ->
    find (fun d => String.eqb (iname d) k) (pre ++ d :: post) = Some d.
  Proof.
    intros k pre d post E N. induction pre as [|x pre IH]; cbn.
    - rewrite E. now rewrite String.eqb_refl.
    - destruct (String.eqb (iname x) k) eqn:F; [|apply IH; intro J; apply N; now right].
      exfalso. apply N. left. now apply String.eqb_eq in F.
  Qed.

  Lemma object_sound : forall dflt d, sound dflt d -> forall n one_of defs v e s r,
    ~ In n ["ID"; "String"; "Int"; "Float"; "Boolean"] -> special_of n = None -> definitions n = Some (DInput one_of defs) ->
    NoDup (map iname defs) ->
    coerce_object d one_of defs v = Val (e, s, r) -> named_as dflt n v e.
  Proof.
    intros dflt d D n one_of defs v e s r B SP DF ND H. unfold coerce_object in H. destruct v as [| | | | | | |fs]; try discriminate H.
    destruct one_of.
    - destruct fs as [|[k v] [|f2 fs]]; try discriminate H. cbn [fst snd] in H.
      destruct (find (fun d => String.eqb (iname d) k) defs) as [x|] eqn:F; [|discriminate H].
      destruct (coerce_input d (ity x) v) as [[[e1 s1] r1]| |] eqn:E; cbn [andthen] in H; try discriminate H. injection H as <- _ _.
      destruct (find_first _ _ _ F) as (pre & post & E1 & E2 & N). subst defs. rewrite E2.
      eapply NaOneOf; [exact B|exact SP|exact DF|exact E2|exact N|]. eapply input_sound; [exact D|exact E].
    - destruct (coerce_fields d defs fs) as [[[es s1] r1]| |] eqn:E; cbn [andthen] in H; try discriminate H. injection H as <- _ _.
      destruct (fields_sound dflt d D _ _ _ _ _ ND E) as (A1 & A2 & A3).
      eapply NaObject; [exact B|exact SP|exact DF|exact A1|exact A2|exact A3].
  Qed.

  Lemma builtin_in : forall n, builtin n = true <-> In n ["ID"; "String"; "Int"; "Float"; "Boolean"].
  Proof.
    intro n. unfold builtin. rewrite existsb_exists. split.
    - intros (x & I & E). apply String.eqb_eq in E. now subst x.
    - intro I. exists n. split; [exact I|apply String.eqb_refl].
  Qed.

  Lemma builtin_out : forall n, builtin n = false <-> ~ In n ["ID"; "String"; "Int"; "Float"; "Boolean"].
  Proof. intro n. rewrite <- builtin_in. destruct (builtin n); split; congruence. Qed.

  Fixpoint ingest_as (v : value) : as_is v (ingest v : ev) :=
    match v with
    | VNull => AsNull
    | VStr s => AsStr s
    | VInt z => AsInt z
    | VFloat m e => AsFloat m e
    | VBool b => AsBool b
    | VEnum s => AsEnum s
    | VList l => AsList _ _ ((fix go l : Forall2 as_is l (map ingest l) :=
        match l with [] => Forall2_nil _ | v :: l => Forall2_cons v (ingest v) (ingest_as v) (go l) end) l)
    | VObj fs => AsObj _ _ ((fix go fs : Forall2 (fun f e => fst f = fst e /\ as_is (snd f) (snd e)) fs (map (fun f : string * value => (fst f, ingest (snd f))) fs) :=
        match fs with [] => Forall2_nil _
        | f :: fs => Forall2_cons f (fst f, ingest (snd f)) (conj eq_refl (ingest_as (snd f))) (go fs) end) fs)
    end.

  Lemma float_is_as_i32 : forall m e, CM.can_coerce_to_int m e = true ->
    exists k, float_is m e k /\ (k < 2147483647)%Z /\ CM.f64_as_i32 m e = Z.max (-2147483648) k.
  Proof.
    intros m e H. unfold CM.can_coerce_to_int in H. apply andb_true_iff in H. destruct H as [F L].
    unfold CM.f64_is_floor in F. unfold CM.f64_lt_Z in L. unfold CM.f64_as_i32, CM.f64_trunc, float_is.
    destruct (0 <=? e)%Z eqn:E.
    - apply Z.leb_le in E. apply Z.ltb_lt in L. exists (m * 2 ^ e)%Z. split; [left; lia|]. split; [exact L|]. lia.
    - apply Z.leb_gt in E. apply Z.eqb_eq in F. apply Z.ltb_lt in L.
      assert (P : (0 < 2 ^ (- e))%Z) by (apply Z.pow_pos_nonneg; lia).
      apply Z.mod_divide in F; [|lia]. destruct F as [k F]. exists k. split; [right; lia|].
      assert (K : (k < 2147483647)%Z) by nia. split; [exact K|].
      rewrite F, Z.quot_mul by lia. lia.
  Qed.

  Lemma float_is_back : forall m e k, float_is m e k -> (k < 2147483647)%Z ->
    CM.can_coerce_to_int m e = true /\ CM.f64_as_i32 m e = Z.max (-2147483648) k.
  Proof.
    intros m e k [(E & ->)|(E & ->)] L; unfold CM.can_coerce_to_int, CM.f64_is_floor, CM.f64_lt_Z, CM.f64_as_i32, CM.f64_trunc.
    - apply Z.leb_le in E. rewrite E. cbn [andb]. split; [now apply Z.ltb_lt|]. lia.
    - assert (P : (0 < 2 ^ (- e))%Z) by (apply Z.pow_pos_nonneg; lia).
      apply Z.leb_gt in E. rewrite E. rewrite Z.mod_mul by lia. rewrite Z.quot_mul by lia. cbn [Z.eqb andb]. split; [apply Z.ltb_lt; nia|]. lia.
  Qed.

  Lemma i32_range : forall z z', CM.i32_try_from z = Some z' <-> z' = z /\ (-2147483648 <= z <= 2147483647)%Z.
  Proof.
    intros z z'. unfold CM.i32_try_from. destruct ((-2147483648 <=? z)%Z && (z <=? 2147483647)%Z) eqn:E.
    - apply andb_true_iff in E. destruct E as [A1 A2]. apply Z.leb_le in A1. apply Z.leb_le in A2. split; [intro H; injection H as <-; tauto|].
      intros [-> _]. reflexivity.
    - apply andb_false_iff in E. split; [discriminate|]. intros [_ [A1 A2]]. apply Z.leb_le in A1. apply Z.leb_le in A2.
      destruct E; congruence.
  Qed.

  Lemma scalar_sound : forall dflt n v e, In n ["ID"; "String"; "Int"; "Float"; "Boolean"] ->
    coerce_scalar n v = Some e -> named_as dflt n v e.
  Proof.
    intros dflt n v e [<-|[<-|[<-|[<-|[<-|[]]]]]] H; cbn in H.
    - destruct v; try discriminate H. injection H as <-. constructor.
    - destruct v; try discriminate H. injection H as <-. constructor.
    - destruct v as [| |z|m x| | | |]; try discriminate H.
      + destruct (CM.i32_try_from z) as [z'|] eqn:E; [|discriminate H]. cbn in H. injection H as <-.
        apply i32_range in E. destruct E as [-> E]. now constructor.
      + destruct (CM.can_coerce_to_int m x) eqn:E; [|discriminate H]. injection H as <-.
        destruct (float_is_as_i32 _ _ E) as (k & F & L & ->). now constructor.
    - destruct v as [| |z|m x| | | |]; try discriminate H.
      + destruct (CM.f64_of_Z z) as [m x] eqn:E. injection H as <-. now constructor.
      + injection H as <-. constructor.
    - destruct v; try discriminate H. injection H as <-. constructor.
  Qed.

  Lemma special_sound : forall dflt n k v e s r, ~ In n ["ID"; "String"; "Int"; "Float"; "Boolean"] -> special_of n = Some k ->
    coerce_special on_field empty_set bind_set bind_field_set parse_template k dflt v = Some (e, s, r) -> named_as dflt n v e.
  Proof.
    intros dflt n k v e s r B SP H. unfold coerce_special in H. destruct v as [|text| | | | | |]; try discriminate H. destruct k.
    - destruct on_field eqn:O.
      + destruct (bind_set text) as [x|] eqn:E; [|discriminate H]. injection H as <- _ _. now apply NaSet.
      + destruct dflt; [|discriminate H]. injection H as <- _ _. now apply NaDefaultSet.
    - destruct (parse_template SUrlTemplate text) as [x|] eqn:E; [|discriminate H]. injection H as <- _ _. eapply NaTemplate; eauto.
    - destruct (parse_template SJsonTemplate text) as [x|] eqn:E; [|discriminate H]. injection H as <- _ _. eapply NaTemplate; eauto.
    - destruct (bind_field_set text) as [x|] eqn:E; [|discriminate H]. injection H as <- _ _. now apply NaFieldSet.
  Qed.

  Definition tidy : Prop := forall n one_of defs, definitions n = Some (DInput one_of defs) -> NoDup (map iname defs).

  Lemma custom_scalar : forall n v, ~ In n ["ID"; "String"; "Int"; "Float"; "Boolean"] -> coerce_scalar n v = Some (ingest v : ev).
  Proof.
    intros n v B. unfold coerce_scalar.
    destruct (String.eqb n "String") eqn:E1; [exfalso; apply B; apply String.eqb_eq in E1; cbn; intuition|].
    destruct (String.eqb n "ID") eqn:E2; [exfalso; apply B; apply String.eqb_eq in E2; cbn; intuition|].
    destruct (String.eqb n "Float") eqn:E3; [exfalso; apply B; apply String.eqb_eq in E3; cbn; intuition|].
    destruct (String.eqb n "Int") eqn:E4; [exfalso; apply B; apply String.eqb_eq in E4; cbn; intuition|].
    destruct (String.eqb n "Boolean") eqn:E5; [exfalso; apply B; apply String.eqb_eq in E5; cbn; intuition|]. reflexivity.
  Qed.

  Theorem named_sound : tidy -> forall fuel dflt, sound dflt (coerce_named fuel dflt).
  Proof.
    intros T. induction fuel as [|fuel IH]; intros dflt n v e s r NV H; [discriminate H|]. cbn [Model.coerce_named] in H.
    destruct (builtin n) eqn:B.
    - apply builtin_in in B. destruct (coerce_scalar n v) as [x|] eqn:E; [|discriminate H]. injection H as <- _ _. now apply scalar_sound.
    - apply builtin_out in B. destruct (find (fun s => String.eqb (fst s) n) specials) as [[k sp]|] eqn:F.
      + destruct (coerce_special _ _ _ _ _ sp dflt v) as [[[x s1] r1]|] eqn:E; [|discriminate H]. injection H as <- <- <-.
        eapply special_sound; [exact B| |exact E]. cbn. now rewrite F.
      + assert (SP : special_of n = None) by (cbn; now rewrite F).
        destruct (definitions n) as [[|values|one_of defs|]|] eqn:DF; try discriminate H.
        * rewrite custom_scalar in H by exact B. injection H as <- _ _. eapply NaScalar; [exact B|exact SP|exact DF|apply ingest_as].
        * destruct v as [| | | | |x| |]; try discriminate H. destruct (existsb (String.eqb x) values) eqn:E; [|discriminate H].
          injection H as <- _ _. apply existsb_exists in E. destruct E as (y & I & E). apply String.eqb_eq in E. subst y.
          eapply NaEnum; [exact B|exact SP|exact DF|exact I].
        * eapply object_sound; [exact (IH dflt)|exact B|exact SP|exact DF|exact (T _ _ _ DF)|exact H].
  Qed.

  (** *** Completeness *)

  Scheme item_mut := Induction for Spec.item Sort Prop
    with items_mut := Induction for Spec.items Sort Prop
    with whole_mut := Induction for Spec.whole Sort Prop
    with named_mut := Induction for Spec.named_as Sort Prop
    with fields_mut := Induction for Spec.fields_as Sort Prop.

  Definition reached {A} (f : nat -> outcome (A * stage * list FS)) (a : A) : Prop :=
    exists enough, forall fuel, enough <= fuel -> exists s r, f fuel = Val (a, s, r).

  Lemma reached_const : forall {A} (a : A) s r (f : nat -> outcome (A * stage * list FS)), (forall fuel, f (S fuel) = Val (a, s, r)) -> reached f a.
  Proof. intros A a s r f E. exists 1. intros [|fuel] L; [lia|]. exists s, r. apply E. Qed.

  Lemma named_scalar : forall dflt n v (e : ev), In n ["ID"; "String"; "Int"; "Float"; "Boolean"] -> coerce_scalar n v = Some e ->
    reached (fun fuel => coerce_named fuel dflt n v) e.
  Proof.
    intros dflt n v e B E. apply (reached_const e Static []). intro fuel. cbn [Model.coerce_named].
    rewrite (proj2 (builtin_in n) B). now rewrite E.
  Qed.

  Lemma special_found : forall n k, special_of n = Some k -> exists x, find (fun s => String.eqb (fst s) n) specials = Some (x, k).
  Proof.
    intros n k H. cbn in H. destruct (find (fun s => String.eqb (fst s) n) specials) as [[x k2]|]; [|discriminate H].
    injection H as ->. now exists x.
  Qed.

  Lemma special_missing : forall n, special_of n = None -> find (fun s => String.eqb (fst s) n) specials = None.
  Proof. intros n H. cbn in H. now destruct (find (fun s => String.eqb (fst s) n) specials). Qed.

  Lemma named_special : forall dflt n k v (e : ev) s r, ~ In n ["ID"; "String"; "Int"; "Float"; "Boolean"] -> special_of n = Some k ->
    coerce_special on_field empty_set bind_set bind_field_set parse_template k dflt v = Some (e, s, r) ->
    reached (fun fuel => coerce_named fuel dflt n v) e.
  Proof.
    intros dflt n k v e s r B SP E. apply (reached_const e s r). intro fuel. cbn [Model.coerce_named].
    rewrite (proj2 (builtin_out n) B). destruct (special_found n k SP) as [x F]. rewrite F, E. reflexivity.
  Qed.

  Fixpoint as_is_ingest (v : value) : forall e : ev, as_is v e -> e = ingest v.
  Proof.
    intros e H. destruct v as [|s|z|m x|b|s|l|fs]; try (inversion H; subst; reflexivity).
    - inversion H as [| | | | | |? es F|]. subst. cbn [ingest]. f_equal. clear H. revert es F.
      induction l as [|v l IH]; intros es F; inversion F as [|? e0 ? es0 F1 F2]; subst; [reflexivity|]. cbn [map]. f_equal.
      + exact (as_is_ingest v _ F1).
      + now apply IH.
    - inversion H as [| | | | | | |? es F]. subst. cbn [ingest]. f_equal. clear H. revert es F.
      induction fs as [|[k v] fs IH]; intros es F; inversion F as [|? [k0 e0] ? es0 [F0 F1] F2]; subst; [reflexivity|].
      cbn [fst snd] in *. cbn [map fst snd]. f_equal.
      + subst k0. f_equal. exact (as_is_ingest v _ F1).
      + now apply IH.
  Qed.

  Lemma nodup_keys : forall (fs : list (string * value)) k v w, NoDup (map fst fs) -> In (k, v) fs -> In (k, w) fs -> v = w.
  Proof.
    induction fs as [|[a b] fs IH]; intros k v w N I J; [destruct I|]. cbn [map fst] in N. inversion N as [|? ? N1 N2]. subst.
    destruct I as [I|I], J as [J|J].
    - congruence.
    - injection I as -> ->. exfalso. apply N1. now apply (in_map fst) in J.
    - injection J as -> ->. exfalso. apply N1. now apply (in_map fst) in I.
    - exact (IH k v w N2 I J).
  Qed.

  (** What [coerce_fields] does from what is left of the fields. *)
  Definition fields_reached (dflt : bool) (fs : list (string * value)) (defs : list input) (es : list (string * ev)) : Prop :=
    NoDup (map iname defs) ->
    exists enough, forall fuel, enough <= fuel -> forall left,
      NoDup (map fst left) -> incl (map fst left) (map iname defs) ->
      (forall d v, In d defs -> In (iname d, v) left <-> In (iname d, v) fs) ->
      exists s r, coerce_fields (coerce_named fuel dflt) defs left = Val (es, s, r).

  Lemma not_an_item : forall dflt ws n v (e : ev), item dflt ws n v e -> existsb is_list_wrapper ws = true ->
    v <> VNull -> (forall l, v <> VList l) -> False.
  Proof.
    intros dflt. induction ws as [|w ws IH]; intros n v e IT LT NV NL; [discriminate LT|]. destruct w.
    - inversion IT as [| |? ? ? ? _ IT2|]. subst. exact (IH _ _ _ IT2 LT NV NL).
    - inversion IT as [| | |? ? l ? _]. subst. exact (NL l eq_refl).
  Qed.

  Theorem all_reached : tidy -> forall dflt n v e, named_as dflt n v e -> v <> VNull -> reached (fun fuel => coerce_named fuel dflt n v) e.
  Proof.
    intros T dflt.
    apply (named_mut VS FS TPL special_of definitions on_field empty_set
      (fun s x => bind_set s = Some x) (fun s x => bind_field_set s = Some x) (fun k s x => parse_template k s = Some x) dflt
      (fun ws n v e _ => reached (fun fuel => coerce_type (coerce_named fuel dflt) ws n v) e)
      (fun ws n l es _ => reached (fun fuel => each (coerce_type (coerce_named fuel dflt) ws n) l) es)
      (fun t v e _ => reached (fun fuel => coerce_input (coerce_named fuel dflt) t v) e)
      (fun n v e _ => v <> VNull -> reached (fun fuel => coerce_named fuel dflt n v) e)
      (fun fs defs es _ => fields_reached dflt fs defs es)).
    - (* null *) intro n. exists 0. intros fuel _. exists Static, []. reflexivity.
    - (* named *) intros n v e NV _ IH. destruct (IH NV) as (m & H). exists m. intros fuel L. destruct (H fuel L) as (s & r & E).
      exists s, r. cbn [coerce_type]. destruct v; try exact E. congruence.
    - (* non-null *) intros ws n v e NV _ (m & H). exists m. intros fuel L. destruct (H fuel L) as (s & r & E).
      exists s, r. cbn [coerce_type]. destruct v; try exact E. congruence.
    - (* list *) intros ws n l es _ (m & H). exists m. intros fuel L. destruct (H fuel L) as (s & r & E).
      exists s, r. cbn [coerce_type]. rewrite E. reflexivity.
    - intros ws n. exists 0. intros fuel _. exists Static, []. reflexivity.
    - intros ws n v l e es _ (m1 & H1) _ (m2 & H2). exists (m1 + m2). intros fuel L.
      destruct (H1 fuel) as (s1 & r1 & E1); [lia|]. destruct (H2 fuel) as (s2 & r2 & E2); [lia|].
      exists (stage_max s1 s2), (r1 ++ r2). cbn [each]. rewrite E1. cbn [andthen]. rewrite E2. reflexivity.
    - (* whole: item *) intros t v e IT (m & H). exists m. intros fuel L. destruct (H fuel L) as (s & r & E).
      exists s, r. unfold coerce_input. destruct (is_list t) eqn:LT; [|destruct v; exact E].
      destruct v; try exact E; exfalso; clear H E; unfold is_list in LT;
        (eapply not_an_item; [exact IT|exact LT|discriminate|discriminate]).
    - (* whole: single *) intros t v e e' LP NV NL _ IH NE. destruct (IH NV) as (m & H). exists m. intros fuel L. destruct (H fuel L) as (s & r & E).
      exists s, r. unfold coerce_input, is_list. rewrite (proj2 (lists_pos _) LP). apply nested_wrap in NE. subst e'.
      destruct v as [| | | | | |l|]; try (rewrite E; reflexivity); [congruence|contradiction (NL l eq_refl)].
    - intros s _. apply named_scalar; [cbn; tauto|reflexivity].
    - intros s _. apply named_scalar; [cbn; tauto|reflexivity].
    - intros m e _. apply named_scalar; [cbn; tauto|reflexivity].
    - intros z m e E _. apply named_scalar; [cbn; tauto|]. cbn. now rewrite E.
    - intros z R _. apply named_scalar; [cbn; tauto|]. cbn. now rewrite (proj2 (i32_range z z) (conj eq_refl R)).
    - intros m e k F L _. apply named_scalar; [cbn; tauto|]. cbn. destruct (float_is_back m e k F L) as [E1 E2]. now rewrite E1, E2.
    - intros b _. apply named_scalar; [cbn; tauto|reflexivity].
    - intros n s x B SP O E _. eapply named_special; [exact B|exact SP|]. cbn. rewrite O, E. reflexivity.
    - intros n s B SP O D _. eapply named_special; [exact B|exact SP|]. cbn. rewrite O, D. reflexivity.
    - intros n s x B SP E _. eapply named_special; [exact B|exact SP|]. cbn. rewrite E. reflexivity.
    - intros n k s x B SP K E _. eapply named_special; [exact B|exact SP|]. cbn. destruct K as [-> | ->]; rewrite E; reflexivity.
    - (* scalar *) intros n v e B SP DF A _. apply (reached_const e Static []). intro fuel. cbn [Model.coerce_named].
      rewrite (proj2 (builtin_out n) B), (special_missing n SP), DF, custom_scalar by exact B. apply as_is_ingest in A. now subst e.
    - (* enum *) intros n values s B SP DF I _. apply (reached_const (EEnum s) Static []). intro fuel. cbn [Model.coerce_named].
      rewrite (proj2 (builtin_out n) B), (special_missing n SP), DF.
      rewrite (proj2 (existsb_exists (String.eqb s) values)) by (exists s; split; [exact I|apply String.eqb_refl]). reflexivity.
    - (* oneOf *) intros n pre d post k v e B SP DF E N _ (m & H) _. exists (S m). intros [|fuel] L; [lia|].
      destruct (H fuel) as (s & r & E2); [lia|]. exists s, r. cbn [Model.coerce_named].
      rewrite (proj2 (builtin_out n) B), (special_missing n SP), DF. unfold coerce_object. cbn [fst snd].
      rewrite find_app_first by assumption. rewrite E2. cbn [andthen]. now rewrite E.
    - (* object *) intros n defs fs es B SP DF ND IN _ IH _. destruct (IH (T _ _ _ DF)) as (m & H). exists (S m). intros [|fuel] L; [lia|].
      destruct (H fuel ltac:(lia) fs ND IN (fun d v _ => iff_refl _)) as (s & r & E). exists s, r. cbn [Model.coerce_named].
      rewrite (proj2 (builtin_out n) B), (special_missing n SP), DF. unfold coerce_object. rewrite E. reflexivity.
    - (* fields: none *) intros fs _. exists 0. intros fuel _ left _ IN _. destruct left as [|f left]; [exists Static, []; reflexivity|].
      exfalso. exact (IN (fst f) (or_introl eq_refl)).
    - (* given *) intros fs d defs v e es I _ (m1 & H1) _ IH ND. cbn [map] in ND. inversion ND as [|? ? ND1 ND2]. subst.
      destruct (IH ND2) as (m2 & H2). exists (m1 + m2). intros fuel L left NL IN A.
      destruct (H1 fuel) as (s1 & r1 & E1); [lia|].
      assert (I2 : In (iname d, v) left) by (apply A; [now left|exact I]).
      cbn [coerce_fields]. destruct (position (iname d) left) as [i|] eqn:P.
      2: { apply position_none in P. exfalso. apply P. now apply (in_map fst) in I2. }
      destruct (position_some _ _ _ P) as [w W]. rewrite W. cbn [snd].
      assert (w = v) by (eapply nodup_keys; [exact NL|eapply nth_error_In; exact W|exact I2]). subst w.
      rewrite E1. cbn [andthen]. pose proof (swap_remove_perm _ _ _ W) as Q. pose proof (perm_keys _ _ Q) as QK. cbn [map fst] in QK.
      assert (NQ : NoDup (iname d :: map fst (swap_remove i left))) by (eapply Permutation_NoDup; [exact QK|exact NL]).
      inversion NQ as [|? ? NQ1 NQ2]. subst.
      destruct (H2 fuel ltac:(lia) (swap_remove i left) NQ2) as (s2 & r2 & E2).
      + intros y J. assert (J2 : In y (map fst left)) by (eapply Permutation_in; [symmetry; exact QK|now right]).
        destruct (IN y J2) as [X|X]; [|exact X]. subst y. contradiction (NQ1 J).
      + intros d' v' J. rewrite <- (A d' v') by now right. eapply removed_same; [exact Q|].
        intro X. apply ND1. rewrite <- X. now apply in_map.
      + exists (stage_max s1 s2), (r1 ++ r2). rewrite E2. reflexivity.
    - (* default *) intros fs d defs v e es N DV _ (m1 & H1) _ IH ND. cbn [map] in ND. inversion ND as [|? ? ND1 ND2]. subst.
      destruct (IH ND2) as (m2 & H2). exists (m1 + m2). intros fuel L left NL IN A.
      destruct (H1 fuel) as (s1 & r1 & E1); [lia|].
      assert (NK : ~ In (iname d) (map fst left)).
      { intro J. apply N. apply in_map_iff in J. destruct J as ((a & b) & EQ & J). cbn in EQ. subst a.
        apply A in J; [|now left]. now apply (in_map fst) in J. }
      cbn [coerce_fields]. rewrite (proj2 (position_none _ _) NK), DV, E1. cbn [andthen].
      destruct (H2 fuel ltac:(lia) left NL) as (s2 & r2 & E2).
      + intros y J. destruct (IN y J) as [X|X]; [|exact X]. subst y. contradiction (NK J).
      + intros d' v' J. apply A. now right.
      + exists (stage_max s1 s2), (r1 ++ r2). rewrite E2. reflexivity.
    - (* absent *) intros fs d defs es N DV NN _ IH ND. cbn [map] in ND. inversion ND as [|? ? ND1 ND2]. subst.
      destruct (IH ND2) as (m2 & H2). exists m2. intros fuel L left NL IN A.
      assert (NK : ~ In (iname d) (map fst left)).
      { intro J. apply N. apply in_map_iff in J. destruct J as ((a & b) & EQ & J). cbn in EQ. subst a.
        apply A in J; [|now left]. now apply (in_map fst) in J. }
      cbn [coerce_fields]. rewrite (proj2 (position_none _ _) NK), DV. rewrite (proj2 (is_non_null_false _) NN).
      apply (H2 fuel L left NL).
      + intros y J. destruct (IN y J) as [X|X]; [|exact X]. subst y. contradiction (NK J).
      + intros d' v' J. apply A. now right.
  Qed.

  Lemma item_reached : tidy -> forall dflt ws n v e, item dflt ws n v e -> reached (fun fuel => coerce_type (coerce_named fuel dflt) ws n v) e.
  Proof.
    intros T dflt. induction ws as [|w ws IH]; intros n v e H.
    - inversion H as [|? ? ? NV NA| |]; subst.
      + exists 0. intros fuel _. exists Static, []. reflexivity.
      + destruct (all_reached T _ _ _ _ NA NV) as (m & R). exists m. intros fuel L. destruct (R fuel L) as (s & r & E).
        exists s, r. cbn [coerce_type]. destruct v; try exact E. congruence.
    - inversion H as [| |? ? ? ? NV IT|? ? l es IS]; subst.
      + destruct (IH _ _ _ IT) as (m & R). exists m. intros fuel L. destruct (R fuel L) as (s & r & E).
        exists s, r. cbn [coerce_type]. destruct v; try exact E. congruence.
      + assert (G : reached (fun fuel => each (coerce_type (coerce_named fuel dflt) ws n) l) es).
        { clear H. revert es IS. induction l as [|v l IHl]; intros es IS; inversion IS as [|? ? ? ? e es' I1 I2]; subst.
          - exists 0. intros fuel _. exists Static, []. reflexivity.
          - destruct (IH _ _ _ I1) as (m1 & R1). destruct (IHl _ I2) as (m2 & R2). exists (m1 + m2). intros fuel L.
            destruct (R1 fuel) as (s1 & r1 & E1); [lia|]. destruct (R2 fuel) as (s2 & r2 & E2); [lia|].
            exists (stage_max s1 s2), (r1 ++ r2). cbn [each]. rewrite E1. cbn [andthen]. rewrite E2. reflexivity. }
        destruct G as (m & R). exists m. intros fuel L. destruct (R fuel L) as (s & r & E). exists s, r. cbn [coerce_type]. rewrite E. reflexivity.
  Qed.

  Lemma whole_reached : tidy -> forall dflt t v e, whole dflt t v e -> reached (fun fuel => coerce_input (coerce_named fuel dflt) t v) e.
  Proof.
    intros T dflt t v e H. inversion H as [? ? ? IT|? ? e0 ? LP NV NL NA NE]; subst.
    - destruct (item_reached T _ _ _ _ _ IT) as (m & R). exists m. intros fuel L. destruct (R fuel L) as (s & r & E).
      exists s, r. unfold coerce_input. destruct (is_list t) eqn:LT; [|destruct v; exact E].
      destruct v; try exact E; exfalso; clear R E; unfold is_list in LT;
        (eapply not_an_item; [exact IT|exact LT|discriminate|discriminate]).
    - destruct (all_reached T _ _ _ _ NA NV) as (m & R). exists m. intros fuel L. destruct (R fuel L) as (s & r & E).
      exists s, r. unfold coerce_input, is_list. rewrite (proj2 (lists_pos _) LP). apply nested_wrap in NE. subst e.
      destruct v as [| | | | | |l|]; try (rewrite E; reflexivity); [congruence|contradiction (NL l eq_refl)].
  Qed.

  (** *** The arguments *)

  Definition pairs (l : list (argument VS FS TPL)) : list (string * ev) := map (fun a => (aname a, avalue a)) l.

  Lemma arguments_ext : forall fs gs defs es,
    (forall d v, In d defs -> In (iname d, v) fs <-> In (iname d, v) gs) ->
    arguments_as fs defs es -> arguments_as gs defs es.
  Proof.
    intros fs gs defs es A H. revert gs A.
    assert (K : forall gs d, (forall v, In (iname d, v) fs <-> In (iname d, v) gs) -> ~ In (iname d) (map fst fs) -> ~ In (iname d) (map fst gs)).
    { intros gs d A N I. apply N. apply in_map_iff in I. destruct I as ((k & v) & E & I). cbn in E. subst k.
      apply A in I. apply in_map_iff. now exists (iname d, v). }
    induction H as [fs|fs d defs v e es I W _ IH|fs d defs v e es N E W _ IH|fs d defs es N E M _ IH]; intros gs A.
    - constructor.
    - eapply AaGiven; [apply A; [now left|exact I]|exact W|]. apply IH; [exact K|]. intros d' v' J. apply A. now right.
    - eapply AaDefault; [|exact E|exact W|].
      + apply K; [|exact N]. intro w. apply A. now left.
      + apply IH; [exact K|]. intros d' v' J. apply A. now right.
    - eapply AaAbsent; [|exact E|exact M|].
      + apply K; [|exact N]. intro w. apply A. now left.
      + apply IH; [exact K|]. intros d' v' J. apply A. now right.
  Qed.

  Theorem arguments_sound : tidy -> forall fuel defs args l r, NoDup (map iname defs) ->
    coerce_arguments fuel defs args = Val (l, r) ->
    NoDup (map fst args) /\ incl (map fst args) (map iname defs) /\ arguments_as args defs (pairs l).
  Proof.
    intros T fuel. induction defs as [|x defs IH]; intros args l r ND H; cbn [Model.coerce_arguments] in H.
    - destruct args as [|f args]; [|discriminate H]. injection H as <- _. split; [constructor|]. split; [intros y []|constructor].
    - cbn [map] in ND. inversion ND as [|? ? ND1 ND2]. subst. unfold given_value in H.
      destruct (position (iname x) args) as [i|] eqn:P.
      + destruct (position_some _ _ _ P) as [v N]. rewrite N in H. cbn [option_map snd] in H. unfold Model.coerce_argument in H.
        destruct (coerce_input _ (ity x) v) as [[[e s1] r1]| |] eqn:E; cbn [andthen] in H; try discriminate H.
        destruct (Model.coerce_arguments _ _ _ _ _ _ _ fuel defs (swap_remove i args)) as [[l1 r2]| |] eqn:E2; cbn [andthen] in H; try discriminate H.
        injection H as <- _. destruct (IH _ _ _ ND2 E2) as (A1 & A2 & A3).
        pose proof (swap_remove_perm i args _ N) as Q. pose proof (perm_keys _ _ Q) as QK. cbn [map fst] in QK.
        assert (X : ~ In (iname x) (map fst (swap_remove i args))) by (intro J; apply ND1; now apply A2).
        split; [|split].
        * eapply Permutation_NoDup; [symmetry; exact QK|]. now constructor.
        * intros y J. apply (Permutation_in _ QK) in J. destruct J as [J|J]; [left; exact J|right; now apply A2].
        * cbn [pairs map aname avalue]. eapply AaGiven.
          -- eapply Permutation_in; [symmetry; exact Q|]. now left.
          -- eapply input_sound; [apply named_sound; exact T|exact E].
          -- eapply arguments_ext; [|exact A3]. intros d' v' J. eapply removed_same; [exact Q|].
             intro X2. apply ND1. rewrite <- X2. now apply in_map.
      + apply position_none in P. unfold Model.coerce_argument in H. destruct (idefault x) as [v|] eqn:DV.
        * destruct (coerce_input _ (ity x) v) as [[[e s1] r1]| |] eqn:E; cbn [andthen] in H; try discriminate H.
          destruct (Model.coerce_arguments _ _ _ _ _ _ _ fuel defs args) as [[l1 r2]| |] eqn:E2; cbn [andthen] in H; try discriminate H.
          injection H as <- _. destruct (IH _ _ _ ND2 E2) as (A1 & A2 & A3). split; [exact A1|].
          split; [intros y J; right; now apply A2|]. cbn [pairs map aname avalue].
          eapply AaDefault; [exact P|exact DV|eapply input_sound; [apply named_sound; exact T|exact E]|exact A3].
        * destruct (is_non_null (ity x)) eqn:NN; cbn [andthen] in H; [discriminate H|].
          destruct (Model.coerce_arguments _ _ _ _ _ _ _ fuel defs args) as [[l1 r2]| |] eqn:E2; cbn [andthen] in H; try discriminate H.
          injection H as <- _. destruct (IH _ _ _ ND2 E2) as (A1 & A2 & A3). split; [exact A1|].
          split; [intros y J; right; now apply A2|]. apply AaAbsent; [exact P|exact DV|now apply is_non_null_false|exact A3].
  Qed.

  Theorem arguments_reached : tidy -> forall args defs es, arguments_as args defs es -> NoDup (map iname defs) ->
    exists enough, forall fuel, enough <= fuel -> forall left,
      NoDup (map fst left) -> incl (map fst left) (map iname defs) ->
      (forall d v, In d defs -> In (iname d, v) left <-> In (iname d, v) args) ->
      exists l r, coerce_arguments fuel defs left = Val (l, r) /\ pairs l = es.
  Proof.
    intros T args defs es H.
    induction H as [fs|fs d defs v e es I W _ IH|fs d defs v e es N DV W _ IH|fs d defs es N DV NN _ IH]; intro ND.
    - exists 0. intros fuel _ left _ IN _. destruct left as [|f left]; [exists [], []; split; reflexivity|].
      exfalso. exact (IN (fst f) (or_introl eq_refl)).
    - cbn [map] in ND. inversion ND as [|? ? ND1 ND2]. subst. destruct (whole_reached T _ _ _ _ W) as (m1 & H1).
      destruct (IH ND2) as (m2 & H2). exists (m1 + m2). intros fuel L left NL IN A.
      destruct (H1 fuel) as (s1 & r1 & E1); [lia|].
      assert (I2 : In (iname d, v) left) by (apply A; [now left|exact I]).
      cbn [Model.coerce_arguments]. unfold given_value. destruct (position (iname d) left) as [i|] eqn:P.
      2: { apply position_none in P. exfalso. apply P. now apply (in_map fst) in I2. }
      destruct (position_some _ _ _ P) as [w W2]. rewrite W2. cbn [option_map snd].
      assert (w = v) by (eapply nodup_keys; [exact NL|eapply nth_error_In; exact W2|exact I2]). subst w.
      unfold Model.coerce_argument. rewrite E1. cbn [andthen].
      pose proof (swap_remove_perm _ _ _ W2) as Q. pose proof (perm_keys _ _ Q) as QK. cbn [map fst] in QK.
      assert (NQ : NoDup (iname d :: map fst (swap_remove i left))) by (eapply Permutation_NoDup; [exact QK|exact NL]).
      inversion NQ as [|? ? NQ1 NQ2]. subst.
      destruct (H2 fuel ltac:(lia) (swap_remove i left) NQ2) as (l & r2 & E2 & E3).
      + intros y J. assert (J2 : In y (map fst left)) by (eapply Permutation_in; [symmetry; exact QK|now right]).
        destruct (IN y J2) as [X|X]; [|exact X]. subst y. contradiction (NQ1 J).
      + intros d' v' J. rewrite <- (A d' v') by now right. eapply removed_same; [exact Q|].
        intro X. apply ND1. rewrite <- X. now apply in_map.
      + rewrite E2. cbn [andthen]. eexists _, _. split; [reflexivity|]. cbn [pairs map aname avalue]. now rewrite <- E3.
    - cbn [map] in ND. inversion ND as [|? ? ND1 ND2]. subst. destruct (whole_reached T _ _ _ _ W) as (m1 & H1).
      destruct (IH ND2) as (m2 & H2). exists (m1 + m2). intros fuel L left NL IN A.
      destruct (H1 fuel) as (s1 & r1 & E1); [lia|].
      assert (NK : ~ In (iname d) (map fst left)).
      { intro J. apply N. apply in_map_iff in J. destruct J as ((a & b) & EQ & J). cbn in EQ. subst a.
        apply A in J; [|now left]. now apply (in_map fst) in J. }
      cbn [Model.coerce_arguments]. unfold given_value, Model.coerce_argument. rewrite (proj2 (position_none _ _) NK), DV, E1. cbn [andthen].
      destruct (H2 fuel ltac:(lia) left NL) as (l & r2 & E2 & E3).
      + intros y J. destruct (IN y J) as [X|X]; [|exact X]. subst y. contradiction (NK J).
      + intros d' v' J. apply A. now right.
      + rewrite E2. cbn [andthen]. eexists _, _. split; [reflexivity|]. cbn [pairs map aname avalue]. now rewrite <- E3.
    - cbn [map] in ND. inversion ND as [|? ? ND1 ND2]. subst.
      destruct (IH ND2) as (m2 & H2). exists m2. intros fuel L left NL IN A.
      assert (NK : ~ In (iname d) (map fst left)).
      { intro J. apply N. apply in_map_iff in J. destruct J as ((a & b) & EQ & J). cbn in EQ. subst a.
        apply A in J; [|now left]. now apply (in_map fst) in J. }
      cbn [Model.coerce_arguments]. unfold given_value, Model.coerce_argument. rewrite (proj2 (position_none _ _) NK), DV.
      rewrite (proj2 (is_non_null_false _) NN). cbn [andthen].
      destruct (H2 fuel L left NL) as (l & r2 & E2 & E3).
      + intros y J. destruct (IN y J) as [X|X]; [|exact X]. subst y. contradiction (NK J).
      + intros d' v' J. apply A. now right.
      + rewrite E2. cbn [andthen]. eexists _, _. split; [reflexivity|exact E3].
  Qed.
End Coerced.
