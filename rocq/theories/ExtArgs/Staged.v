(** The type of a coerced argument, and the stage recorded with it. *)
From Coq Require Import String List ZArith Bool Lia PeanoNat Permutation.
From Verif.ExtArgs Require Import Model Spec Coerced.
Import ListNotations.
Local Open Scope string_scope.
Local Open Scope list_scope.

Section Typed.
  Context {VS FS TPL : Type}.
  Notation ev := (ev VS FS TPL).
  Variable special_of : string -> option special.
  Variable definition_of : string -> option definition.
  Variable on_field : bool.
  Variable empty_set : VS.
  Variable is_set : string -> VS -> Prop.
  Variable is_field_set : string -> FS -> Prop.
  Variable is_template : special -> string -> TPL -> Prop.
  Notation has_type := (has_type (VS := VS) (FS := FS) (TPL := TPL) special_of definition_of).
  Notation have_type := (have_type (VS := VS) (FS := FS) (TPL := TPL) special_of definition_of).
  Notation of_named := (of_named (VS := VS) (FS := FS) (TPL := TPL) special_of definition_of).
  Notation of_fields := (of_fields (VS := VS) (FS := FS) (TPL := TPL) special_of definition_of).
  Notation named_as := (named_as special_of definition_of on_field empty_set is_set is_field_set is_template).
  Notation whole := (whole special_of definition_of on_field empty_set is_set is_field_set is_template).
  Notation item := (item special_of definition_of on_field empty_set is_set is_field_set is_template).

  Fixpoint ingest_fixed (v : value) : fixed (ingest v : ev) :=
    match v with
    | VNull => FxNull
    | VStr s => FxStr s
    | VInt z => FxI64 z
    | VFloat m e => FxFloat m e
    | VBool b => FxBool b
    | VEnum s => FxEnum s
    | VList l => FxList _ ((fix go l : Forall fixed (map ingest l) :=
        match l with [] => Forall_nil _ | v :: l => Forall_cons (ingest v) (ingest_fixed v) (go l) end) l)
    | VObj fs => FxMap _ ((fix go fs : Forall (fun f => fixed (snd f)) (map (fun f : string * value => (fst f, ingest (snd f))) fs) :=
        match fs with [] => Forall_nil _
        | f :: fs => Forall_cons (fst f, ingest (snd f)) (ingest_fixed (snd f)) (go fs) end) fs)
    end.

  Lemma as_is_fixed : forall v (e : ev), as_is v e -> fixed e.
  Proof. intros v e H. apply as_is_ingest in H. subst e. apply ingest_fixed. Qed.

  Lemma as_is_null : forall v (e : ev), as_is v e -> v <> VNull -> e <> ENull.
  Proof. intros v e H N E. subst e. inversion H. subst. now apply N. Qed.

  Lemma named_not_null : forall dflt n v e, named_as dflt n v e -> v <> VNull -> e <> ENull.
  Proof.
    intros dflt n v e H N. inversion H; subst; try discriminate. eapply as_is_null; [|exact N]. eassumption.
  Qed.

  Lemma item_not_null : forall dflt ws n v e, item dflt ws n v e -> v <> VNull -> e <> ENull.
  Proof.
    intros dflt. induction ws as [|w ws IH]; intros n v e H N.
    - inversion H as [|? ? ? _ NA| |]; subst; [contradiction (N eq_refl)|]. eapply named_not_null; [exact NA|exact N].
    - inversion H as [| |? ? ? ? _ I|]; subst; [exact (IH _ _ _ I N)|discriminate].
  Qed.

  Lemma nested_typed : forall ws n (e e' : ev), of_named n e -> e <> ENull -> nested (lists ws) e e' -> has_type ws n e' /\ e' <> ENull.
  Proof.
    induction ws as [|w ws IH]; intros n e e' O N H.
    - cbn in H. inversion H. subst. split; [now constructor|exact N].
    - destruct w.
      + change (lists (WNonNull :: ws)) with (lists ws) in H. destruct (IH n e e' O N H) as [A C]. split; [|exact C]. now constructor.
      + change (lists (WList :: ws)) with (S (lists ws)) in H. inversion H as [|? ? e1 H1]. subst.
        destruct (IH n e e1 O N H1) as [A C]. split; [|discriminate]. constructor. constructor; [exact A|constructor].
  Qed.

  Theorem whole_typed : forall dflt t v e, whole dflt t v e -> has_type (wrappers t) (named t) e.
  Proof.
    intros dflt.
    apply (whole_mut VS FS TPL special_of definition_of on_field empty_set is_set is_field_set is_template dflt
      (fun ws n v e _ => has_type ws n e)
      (fun ws n l es _ => have_type ws n es)
      (fun t v e _ => has_type (wrappers t) (named t) e)
      (fun n v e _ => v <> VNull -> of_named n e)
      (fun fs defs es _ => of_fields defs es)).
    - intro n. apply HtNull. discriminate.
    - intros n v e NV _ IH. apply HtNamed. now apply IH.
    - intros ws n v e NV H IH. apply HtNonNull; [exact (item_not_null _ _ _ _ _ H NV)|exact IH].
    - intros ws n l es _ IH. now apply HtList.
    - constructor.
    - intros ws n v l e es _ IH1 _ IH2. now constructor.
    - intros t v e _ IH. exact IH.
    - intros t v e e' _ NV _ H IH NE. eapply nested_typed; [exact (IH NV)|exact (named_not_null _ _ _ _ H NV)|exact NE].
    - intros s _. apply OnString. now left.
    - intros s _. apply OnString. now right.
    - constructor.
    - constructor.
    - intros z R _. now constructor.
    - intros m e k F L _. constructor. lia.
    - constructor.
    - intros n s x _ SP _ _ _. now constructor.
    - intros n s _ SP _ _ _. now constructor.
    - intros n s x _ SP _ _. now constructor.
    - intros n k s x _ SP K _ _. exact (OnTemplate _ _ n k x SP K).
    - intros n v e _ _ DF A NV. apply OnScalar; [exact DF|exact (as_is_fixed _ _ A)|exact (as_is_null _ _ A NV)].
    - intros n values s _ _ DF I _. eapply OnEnum; [exact DF|exact I].
    - intros n pre d post k v e _ _ DF E _ _ IH _. subst k. eapply OnOneOf; [exact DF|apply in_or_app; right; now left|exact IH].
    - intros n defs fs es _ _ DF _ _ _ IH _. eapply OnObject; [exact DF|exact IH].
    - constructor.
    - intros fs d defs v e es _ _ IH1 _ IH2. now constructor.
    - intros fs d defs v e es _ _ _ IH1 _ IH2. now constructor.
    - intros fs d defs es _ DV NN _ IH. now constructor.
  Qed.
End Typed.

Section Staged.
  Context {VS FS TPL : Type}.
  Notation ev := (ev VS FS TPL).
  Notation coerced := (coerced VS FS TPL).

  (** [x], injected at [s], somewhere in [e]. *)
  Definition has (x : ev) (s : stage) (e : ev) : Prop := within x e /\ injected x s.

  Definition staged (e : ev) (s : stage) (r : list FS) : Prop :=
    earliest e s /\ forall f, In f r <-> needs_fields e f.

  Lemma has_cons : forall x s e es, has x s (EList (e :: es)) <-> has x s e \/ has x s (EList es).
  Proof.
    intros x s e es. split.
    - intros [W I]. inversion W as [? E|? ? y J W2|]; subst.
      + inversion I.
      + destruct J as [J|J]; [subst y; left; now split|]. right. split; [|exact I]. eapply WiList; [exact J|exact W2].
    - intros [[W I]|[W I]]; split; try exact I.
      + eapply WiList; [now left|exact W].
      + inversion W as [? E|? ? y J W2|]; subst; [inversion I|]. eapply WiList; [right; exact J|exact W2].
  Qed.

  Lemma has_map : forall x s k e es, has x s (EMap ((k, e) :: es)) <-> has x s e \/ has x s (EMap es).
  Proof.
    intros x s k e es. split.
    - intros [W I]. inversion W as [? E| |? ? k2 y J W2]; subst.
      + inversion I.
      + destruct J as [J|J]; [injection J as -> ->; left; now split|]. right. split; [|exact I]. eapply WiMap; [exact J|exact W2].
    - intros [[W I]|[W I]]; split; try exact I.
      + eapply WiMap; [now left|exact W].
      + inversion W as [? E| |? ? k2 y J W2]; subst; [inversion I|]. eapply WiMap; [right; exact J|exact W2].
  Qed.

  Lemma before_max : forall a b c, before a b \/ before a c -> before a (stage_max b c).
  Proof. intros a b c. destruct a, b, c; cbn; tauto. Qed.

  Lemma max_is : forall b c, stage_max b c = b \/ stage_max b c = c.
  Proof. intros b c. unfold stage_max. destruct (Nat.leb (rank c) (rank b)); tauto. Qed.

  (** Both parts of a value. *)
  Lemma staged_both : forall e e1 e2 s1 s2 r1 r2,
    (forall x s, has x s e <-> has x s e1 \/ has x s e2) ->
    staged e1 s1 r1 -> staged e2 s2 r2 -> staged e (stage_max s1 s2) (r1 ++ r2).
  Proof.
    intros e e1 e2 s1 s2 r1 r2 A [[U1 X1] R1] [[U2 X2] R2]. split; [split|].
    - intros x s W I. destruct (proj1 (A x s) (conj W I)) as [[W1 _]|[W2 _]]; apply before_max;
        [left; exact (U1 x s W1 I)|right; exact (U2 x s W2 I)].
    - destruct (max_is s1 s2) as [E|E]; rewrite E.
      + destruct X1 as [X|(x & W & I)]; [now left|]. right. exists x. now apply A; left.
      + destruct X2 as [X|(x & W & I)]; [now left|]. right. exists x. now apply A; right.
    - intro f. rewrite in_app_iff, R1, R2. unfold needs_fields.
      assert (I : forall e', within (EFieldSet f) e' <-> has (EFieldSet f) Response e').
      { intro e'. split; [intro W; split; [exact W|constructor]|intros [W _]; exact W]. }
      rewrite !I. symmetry. apply A.
  Qed.

  Lemma staged_one : forall e e1 s r, (forall x s, has x s e <-> has x s e1) -> staged e1 s r -> staged e s r.
  Proof.
    intros e e1 s r A [[U X] R]. split; [split|].
    - intros x s' W I. destruct (proj1 (A x s') (conj W I)) as [W1 _]. exact (U x s' W1 I).
    - destruct X as [X|(x & W & I)]; [now left|]. right. exists x. now apply A.
    - intro f. rewrite R. unfold needs_fields.
      assert (I : forall e', within (EFieldSet f) e' <-> has (EFieldSet f) Response e').
      { intro e'. split; [intro W; split; [exact W|constructor]|intros [W _]; exact W]. }
      rewrite !I. symmetry. apply A.
  Qed.

  (** Nothing is injected. *)
  Lemma staged_none : forall e, (forall x s, ~ has x s e) -> staged e Static [].
  Proof.
    intros e N. split; [split|].
    - intros x s W I. contradiction (N x s (conj W I)).
    - now left.
    - intro f. split; [intros []|]. intro W. contradiction (N (EFieldSet f) Response). split; [exact W|constructor].
  Qed.

  Lemma empty_list : forall x s, ~ has x s (EList []).
  Proof. intros x s [W I]. inversion W as [|? ? ? J|]; subst; [inversion I|destruct J]. Qed.

  Lemma empty_map : forall x s, ~ has x s (EMap []).
  Proof. intros x s [W I]. inversion W as [| |? ? ? ? J]; subst; [inversion I|destruct J]. Qed.

  Lemma fixed_none : forall e, fixed e -> forall x s, ~ has x s e.
  Proof.
    fix F 2. intros e H x s [W I]. destruct H as [|z|z|z|m z|b|l H|fs H]; try (inversion W; subst; inversion I; fail).
    - inversion W as [|? ? y J W2|]; subst; [inversion I|]. revert y J W2. clear W.
      induction H as [|e l P _ IH]; intros y J W2; [destruct J|]. destruct J as [J|J].
      + subst y. exact (F e P x s (conj W2 I)).
      + exact (IH y J W2).
    - inversion W as [| |? ? k y J W2]; subst; [inversion I|]. revert k y J W2. clear W.
      induction H as [|e l P _ IH]; intros k y J W2; [destruct J|]. destruct J as [J|J].
      + subst e. exact (F y P x s (conj W2 I)).
      + exact (IH k y J W2).
  Qed.

  Lemma staged_leaf : forall e, fixed e -> staged e Static [].
  Proof. intros e H. apply staged_none. now apply fixed_none. Qed.

  Definition good (d : string -> value -> outcome coerced) : Prop := forall n v e s r, d n v = Val (e, s, r) -> staged e s r.

  Lemma each_staged : forall (f : value -> outcome coerced), (forall v e s r, f v = Val (e, s, r) -> staged e s r) ->
    forall l es s r, each f l = Val (es, s, r) -> staged (EList es) s r.
  Proof.
    intros f F. induction l as [|v l IH]; intros es s r H; cbn [each] in H.
    - injection H as <- <- <-. apply staged_none. apply empty_list.
    - destruct (f v) as [[[e s1] r1]| |] eqn:E; cbn [andthen] in H; try discriminate H.
      destruct (each f l) as [[[es1 s2] r2]| |]; cbn [andthen] in H; try discriminate H. injection H as <- <- <-.
      eapply staged_both; [intros x s; apply has_cons|exact (F _ _ _ _ E)|exact (IH _ _ _ eq_refl)].
  Qed.

  Lemma type_staged : forall d, good d -> forall ws n v e s r, coerce_type d ws n v = Val (e, s, r) -> staged e s r.
  Proof.
    intros d D. induction ws as [|w ws IH]; intros n v e s r H; cbn [coerce_type] in H.
    - destruct v; try exact (D _ _ _ _ _ H). injection H as <- <- <-. apply staged_leaf. constructor.
    - destruct w.
      + destruct v; try discriminate H; exact (IH _ _ _ _ _ H).
      + destruct v as [| | | | | |l|]; try discriminate H.
        destruct (each (coerce_type d ws n) l) as [[[es s1] r1]| |] eqn:E; cbn [andthen] in H; try discriminate H.
        injection H as <- <- <-. eapply each_staged; [|exact E]. intros v e s2 r2. apply IH.
  Qed.

  Lemma wrap_staged : forall n e s r, staged e s r -> staged (wrap n e) s r.
  Proof.
    induction n as [|n IH]; intros e s r H; [exact H|]. cbn [wrap]. eapply staged_one; [|exact (IH e s r H)].
    intros x s2. rewrite has_cons. split; [|tauto]. intros [X|X]; [exact X|]. contradiction (empty_list x s2 X).
  Qed.

  Lemma input_staged : forall d, good d -> forall t v e s r, coerce_input d t v = Val (e, s, r) -> staged e s r.
  Proof.
    intros d D t v e s r H. unfold coerce_input in H. destruct (is_list t).
    - destruct v; try (eapply type_staged; [exact D|exact H]);
        (match type of H with andthen ?x _ = _ => destruct x as [[[e1 s1] r1]| |] eqn:E end; cbn [andthen] in H; try discriminate H;
         injection H as <- <- <-; apply wrap_staged; exact (D _ _ _ _ _ E)).
    - eapply type_staged; [exact D|]. destruct v; exact H.
  Qed.

  Lemma fields_staged : forall d, good d -> forall defs fs es s r, coerce_fields d defs fs = Val (es, s, r) -> staged (EMap es) s r.
  Proof.
    intros d D. induction defs as [|x defs IH]; intros fs es s r H; cbn [coerce_fields] in H.
    - destruct fs; [|discriminate H]. injection H as <- <- <-. apply staged_none. apply empty_map.
    - destruct (position (iname x) fs) as [i|].
      + destruct (nth_error fs i) as [f|]; [|discriminate H].
        destruct (coerce_input d (ity x) (snd f)) as [[[e s1] r1]| |] eqn:E; cbn [andthen] in H; try discriminate H.
        destruct (coerce_fields d defs (swap_remove i fs)) as [[[es1 s2] r2]| |] eqn:E2; cbn [andthen] in H; try discriminate H.
        injection H as <- <- <-.
        eapply staged_both; [intros y z; apply has_map|exact (input_staged d D _ _ _ _ _ E)|exact (IH _ _ _ _ E2)].
      + destruct (idefault x) as [v|].
        * destruct (coerce_input d (ity x) v) as [[[e s1] r1]| |] eqn:E; cbn [andthen] in H; try discriminate H.
          destruct (coerce_fields d defs fs) as [[[es1 s2] r2]| |] eqn:E2; cbn [andthen] in H; try discriminate H.
          injection H as <- <- <-.
          eapply staged_both; [intros y z; apply has_map|exact (input_staged d D _ _ _ _ _ E)|exact (IH _ _ _ _ E2)].
        * destruct (is_non_null (ity x)); [discriminate H|]. exact (IH _ _ _ _ H).
  Qed.

  Lemma object_staged : forall d, good d -> forall b defs v e s r, coerce_object d b defs v = Val (e, s, r) -> staged e s r.
  Proof.
    intros d D b defs v e s r H. unfold coerce_object in H. destruct v as [| | | | | | |fs]; try discriminate H. destruct b.
    - destruct fs as [|[k v] [|f2 fs]]; try discriminate H. cbn [fst snd] in H.
      destruct (find _ defs) as [x|]; [|discriminate H].
      destruct (coerce_input d (ity x) v) as [[[e1 s1] r1]| |] eqn:E; cbn [andthen] in H; try discriminate H. injection H as <- <- <-.
      eapply staged_one; [|exact (input_staged d D _ _ _ _ _ E)]. intros y z. rewrite has_map. split; [|tauto].
      intros [X|X]; [exact X|]. contradiction (empty_map y z X).
    - destruct (coerce_fields d defs fs) as [[[es s1] r1]| |] eqn:E; cbn [andthen] in H; try discriminate H. injection H as <- <- <-.
      exact (fields_staged d D _ _ _ _ _ E).
  Qed.

  Variable specials : list (string * special).
  Variable definitions : string -> option definition.
  Variable on_field : bool.
  Variable empty_set : VS.
  Variable bind_set : string -> option VS.
  Variable bind_field_set : string -> option FS.
  Variable parse_template : special -> string -> option TPL.
  Notation coerce_named := (coerce_named specials definitions on_field empty_set bind_set bind_field_set parse_template).
  Notation coerce_arguments := (coerce_arguments specials definitions on_field empty_set bind_set bind_field_set parse_template).

  Lemma scalar_staged : forall n v (e : ev), coerce_scalar n v = Some e -> forall x s, ~ has x s e.
  Proof.
    intros n v e H x s [W I]. unfold coerce_scalar in H.
    destruct (String.eqb n "String" || String.eqb n "ID");
      [destruct v; try discriminate H; injection H as <-; inversion W; subst; inversion I|].
    destruct (String.eqb n "Float").
    { destruct v as [| |z|m z| | | |]; try discriminate H.
      - destruct (CM.f64_of_Z z). injection H as <-. inversion W; subst; inversion I.
      - injection H as <-. inversion W; subst; inversion I. }
    destruct (String.eqb n "Int").
    { destruct v as [| |z|m z| | | |]; try discriminate H.
      - destruct (CM.i32_try_from z); [|discriminate H]. injection H as <-. inversion W; subst; inversion I.
      - destruct (CM.can_coerce_to_int m z); [|discriminate H]. injection H as <-. inversion W; subst; inversion I. }
    destruct (String.eqb n "Boolean"); [destruct v; try discriminate H; injection H as <-; inversion W; subst; inversion I|].
    injection H as <-. exact (fixed_none _ (ingest_fixed v) x s (conj W I)).
  Qed.

  Lemma leaf_within : forall (x e : ev) s, injected e s -> within x e -> x = e.
  Proof. intros x e s H W. inversion H; subst; inversion W; reflexivity. Qed.

  Lemma staged_query : forall e : ev, injected e Query -> staged e Query [].
  Proof.
    intros e H. split; [split|].
    - intros x s W I. pose proof (leaf_within _ _ _ H W). subst x. inversion H; subst; inversion I; subst; cbn; trivial.
    - right. exists e. split; [constructor|exact H].
    - intro f. split; [intros []|]. intro W. apply (leaf_within _ _ _ H) in W. subst e. inversion H.
  Qed.

  Lemma special_staged : forall k dflt v e s r,
    coerce_special on_field empty_set bind_set bind_field_set parse_template k dflt v = Some (e, s, r) -> staged e s r.
  Proof.
    intros k dflt v e s r H. unfold coerce_special in H. destruct v as [|text| | | | | |]; try discriminate H. destruct k.
    - destruct on_field.
      + destruct (bind_set text); [|discriminate H]. injection H as <- <- <-. apply staged_query. constructor.
      + destruct dflt; [|discriminate H]. injection H as <- <- <-. apply staged_query. constructor.
    - destruct (parse_template SUrlTemplate text); [|discriminate H]. injection H as <- <- <-. apply staged_query. constructor.
    - destruct (parse_template SJsonTemplate text); [|discriminate H]. injection H as <- <- <-. apply staged_query. constructor.
    - destruct (bind_field_set text) as [x|]; [|discriminate H]. injection H as <- <- <-. split; [split|].
      + intros y s W I. destruct s; exact Logic.I.
      + right. exists (EFieldSet x). split; constructor.
      + intro f. split.
        * intros [<-|[]]. constructor.
        * intro W. inversion W. now left.
  Qed.

  Theorem named_staged : forall fuel dflt, good (coerce_named fuel dflt).
  Proof.
    induction fuel as [|fuel IH]; intros dflt n v e s r H; [discriminate H|]. cbn [Model.coerce_named] in H.
    destruct (builtin n).
    - destruct (coerce_scalar n v) as [x|] eqn:E; [|discriminate H]. injection H as <- <- <-.
      apply staged_none. exact (scalar_staged _ _ _ E).
    - destruct (find (fun s => String.eqb (fst s) n) specials) as [[k sp]|].
      + destruct (coerce_special _ _ _ _ _ sp dflt v) as [[[x s1] r1]|] eqn:E; [|discriminate H]. injection H as <- <- <-.
        exact (special_staged _ _ _ _ _ _ E).
      + destruct (definitions n) as [[|values|one_of defs|]|]; try discriminate H.
        * destruct (coerce_scalar n v) as [x|] eqn:E; [|discriminate H]. injection H as <- <- <-.
          apply staged_none. exact (scalar_staged _ _ _ E).
        * destruct v as [| | | | |x| |]; try discriminate H. destruct (existsb (String.eqb x) values); [|discriminate H].
          injection H as <- <- <-. apply staged_leaf. constructor.
        * exact (object_staged _ (IH dflt) _ _ _ _ _ _ H).
  Qed.

  Theorem arguments_staged : forall fuel defs args l r, coerce_arguments fuel defs args = Val (l, r) ->
    Forall (fun a => earliest (avalue a) (astage a)) l /\
    forall f, In f r <-> exists a, In a l /\ needs_fields (avalue a) f.
  Proof.
    intros fuel. induction defs as [|d defs IH]; intros args l r H; cbn [Model.coerce_arguments] in H.
    - destruct args; [|discriminate H]. injection H as <- <-. split; [constructor|]. intro f. split; [intros []|].
      intros (a & I & _). destruct I.
    - destruct (given_value (iname d) args) as [v rest].
      destruct (Model.coerce_argument _ _ _ _ _ _ _ fuel d v) as [c| |] eqn:E; cbn [andthen] in H; try discriminate H.
      destruct (Model.coerce_arguments _ _ _ _ _ _ _ fuel defs rest) as [[l1 r1]| |] eqn:E2; cbn [andthen] in H; try discriminate H.
      destruct (IH _ _ _ E2) as [A1 A2]. destruct c as [[[e s] r2]|].
      + injection H as <- <-.
        assert (G : staged e s r2).
        { unfold Model.coerce_argument in E. destruct v as [v|].
          - destruct (coerce_input _ _ v) as [c| |] eqn:E3; cbn [andthen] in E; try discriminate E. injection E as ->.
            eapply input_staged; [apply named_staged|exact E3].
          - destruct (idefault d) as [v|]; [|destruct (is_non_null (ity d)); discriminate E].
            destruct (coerce_input _ _ v) as [c| |] eqn:E3; cbn [andthen] in E; try discriminate E. injection E as ->.
            eapply input_staged; [apply named_staged|exact E3]. }
        destruct G as [G1 G2]. split; [now constructor|]. intro f. rewrite in_app_iff, G2, A2. split.
        * intros [W|(a & I & W)]; [exists {| aname := iname d; avalue := e; astage := s |}; split; [now left|exact W]|].
          exists a. split; [now right|exact W].
        * intros (a & [<-|I] & W); [left; exact W|]. right. now exists a.
      + injection H as <- <-. split; [exact A1|exact A2].
  Qed.
End Staged.
