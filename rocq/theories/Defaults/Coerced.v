(** One coercion gives what the value stands for, when the default values it may need are known. *)
From Coq Require Import String List ZArith Bool Lia Permutation.
From Verif.Coercion Require Model.
From Verif.ExtArgs Require Import Model.
From Verif.ExtArgs Require Coerced.
From Verif.Defaults Require Import Model Spec.
Import ListNotations.
Local Open Scope nat_scope.
Local Open Scope list_scope.

Module CM := Verif.Coercion.Model.
Module XC := Verif.ExtArgs.Coerced.

Fixpoint ingest_as (v : value) : as_is v (ingest v) :=
  match v with
  | VNull => AsNull
  | VStr s => AsStr s
  | VInt z => AsInt z
  | VFloat m e => AsFloat m e
  | VBool b => AsBool b
  | VEnum s => AsEnum s
  | VList l => AsList _ _ ((fix go l : Forall2 as_is l (map ingest l) :=
      match l with [] => Forall2_nil _ | v :: l => Forall2_cons v (ingest v) (ingest_as v) (go l) end) l)
  | VObj fs => AsObj _ _ ((fix go fs : Forall2 (fun f r => fst f = fst r /\ as_is (snd f) (snd r)) fs (map (fun f : string * value => (fst f, ingest (snd f))) fs) :=
      match fs with [] => Forall2_nil _
      | f :: fs => Forall2_cons f (fst f, ingest (snd f)) (conj eq_refl (ingest_as (snd f))) (go fs) end) fs)
  end.

Lemma as_is_only : forall v r, as_is v r -> r = ingest v.
Proof.
  fix F 3. intros v r H. destruct H as [|s|z|m e|b|s|l rs H|fs rs H]; try reflexivity.
  - cbn [ingest]. f_equal. induction H as [|v r l rs H _ IH]; [reflexivity|]. cbn [map]. f_equal; [exact (F _ _ H)|exact IH].
  - cbn [ingest]. f_equal. induction H as [|v [k r] l rs [E H] _ IH]; [reflexivity|]. cbn [map]. f_equal; [|exact IH].
    cbn [fst snd] in *. f_equal; [now symmetry|exact (F _ _ H)].
Qed.

Lemma wrap_nested : forall n r r', nested n r r' <-> r' = wrap n r.
Proof.
  assert (W : forall n r, wrap n (RList [r]) = RList [wrap n r]).
  { induction n as [|n IH]; intro r; [reflexivity|]. cbn [wrap]. apply IH. }
  induction n as [|n IH]; intros r r'.
  - split; [intro H; inversion H; reflexivity|intros ->; constructor].
  - cbn [wrap]. rewrite W. split.
    + intro H. inversion H as [|? ? r2 H2]. subst. f_equal. f_equal. now apply IH.
    + intros ->. constructor. now apply IH.
Qed.

Lemma bind_some : forall {A B} (o : option A) (f : A -> option B) b, bind o f = Some b <-> exists a, o = Some a /\ f a = Some b.
Proof.
  intros A B [a|] f b; cbn [bind]; split.
  - intro H. exists a. auto.
  - intros (a' & E & H). injection E as <-. exact H.
  - discriminate.
  - intros (a & E & _). discriminate E.
Qed.

Lemma option_map_some : forall {A B} (f : A -> B) o b, option_map f o = Some b <-> exists a, o = Some a /\ b = f a.
Proof.
  intros A B f [a|] b; cbn [option_map]; split.
  - intro H. injection H as <-. now exists a.
  - intros (a' & E & ->). now injection E as <-.
  - discriminate.
  - intros (a & E & _). discriminate E.
Qed.

Lemma non_null_required : forall w, non_null w = true <-> required w.
Proof. intro w. unfold non_null, required. destruct (lists w); reflexivity. Qed.

Lemma depth_element : forall v l, In v l -> depth v < depth (VList l).
Proof.
  intros v l I. cbn [depth]. induction l as [|x l IH]; [contradiction|]. cbn [fold_right]. destruct I as [->|I]; [lia|]. specialize (IH I). lia.
Qed.

Lemma depth_field : forall f fs, In f fs -> depth (snd f) < depth (VObj fs).
Proof.
  intros f fs I. cbn [depth]. induction fs as [|x l IH]; [contradiction|]. cbn [fold_right]. destruct I as [->|I]; [lia|]. specialize (IH I). lia.
Qed.

Section Coerced.
  Variable g : graph.
  Variable known : nat -> option record.

  Notation of_id := (input g).
  Notation is_one_of := (fun o => one_of (object_at g o)).
  Notation fields_of := (fun o => field_ids (object_at g o)).
  Notation item := (item of_id is_one_of fields_of).
  Notation items := (items of_id is_one_of fields_of).
  Notation whole := (whole of_id is_one_of fields_of).
  Notation named_as := (named_as of_id is_one_of fields_of).
  Notation fields_as := (fields_as of_id is_one_of fields_of).
  Notation default_as := (default_as of_id is_one_of fields_of).

  (** What is known of a default value is what it stands for. *)
  Definition settled (id : nat) : Prop :=
    match d_default (input g id) with
    | None => known id = None
    | Some v => exists r, known id = Some r /\ forall r', default_as id r' <-> r' = r
    end.

  Definition exact (n : nat) (k : kind) (d : kind -> value -> option record) : Prop :=
    forall v r, depth v <= n -> d k v = Some r <-> named_as k v r.

  Lemma each_iff : forall q ls k f l, (forall v r, In v l -> f v = Some r <-> item q ls k v r) ->
    forall rs, each f l = Some rs <-> items q ls k l rs.
  Proof.
    intros q ls k f. induction l as [|v l IH]; intros F rs; cbn [each].
    - split; [intro H; injection H as <-; constructor|intro H; inversion H; reflexivity].
    - rewrite bind_some. split.
      + intros (r & E & H). apply option_map_some in H. destruct H as (rs' & H & ->).
        constructor; [apply F; [now left|exact E]|]. apply IH; [|exact H]. intros u r' I. apply F. now right.
      + intro H. inversion H as [|? ? ? ? ? r rs' H1 H2]. subst. exists r. split; [apply F; [now left|exact H1]|].
        apply option_map_some. exists rs'. split; [|reflexivity]. apply IH; [|exact H2]. intros u r' I. apply F. now right.
  Qed.

  Lemma type_iff : forall n k d, exact n k d -> forall q ls v r, depth v <= n -> coerce_type d q ls k v = Some r <-> item q ls k v r.
  Proof.
    intros n k d X q. induction ls as [|l ls IH]; intros v r B; cbn [coerce_type].
    - assert (Y : v <> VNull -> d k v = Some r <-> item q [] k v r).
      { intro N. rewrite (X v r B). split; [intro H; now constructor|]. intro H. inversion H; subst; [congruence|assumption]. }
      destruct v; try (apply Y; discriminate). clear Y. destruct q; split.
      + discriminate.
      + intro H. inversion H; subst. congruence.
      + intro H. injection H as <-. constructor.
      + intro H. inversion H; subst; [reflexivity|congruence].
    - assert (Y : forall vs, v = VList vs -> option_map RList (each (coerce_type d q ls k) vs) = Some r <-> item q (l :: ls) k v r).
      { intros vs ->. rewrite option_map_some. split.
        - intros (rs & H & ->). constructor. revert H. apply each_iff. intros u r' I. apply IH. apply depth_element in I. lia.
        - intro H. inversion H as [| | |? ? ? ? ? rs H2]. subst. exists rs. split; [|reflexivity]. revert H2. apply each_iff.
          intros u r' I. apply IH. apply depth_element in I. lia. }
      destruct v; try (split; [discriminate|intro H; inversion H; fail]); [|now apply Y].
      clear Y. destruct l; split; [discriminate|intro H; inversion H|intro H; injection H as <-; constructor|intro H; inversion H; reflexivity].
  Qed.

  Lemma input_iff : forall n k d, exact n k d -> forall w v r, depth v <= n -> coerce_input d w k v = Some r <-> whole w k v r.
  Proof.
    intros n k d X w v r B. unfold coerce_input. pose proof (type_iff n k d X (inner_required w) (lists w) v r B) as T.
    assert (Y : (lists w = [] \/ v = VNull \/ exists l, v = VList l) ->
      coerce_type d (inner_required w) (lists w) k v = Some r <-> whole w k v r).
    { intro C. rewrite T. split; [intro H; now constructor|]. intro H. inversion H as [|? ? ? r1 ? N1 N2 N3]; subst; [assumption|].
      destruct C as [C|[C|[l C]]]; [contradiction|contradiction|]. exfalso. exact (N3 l C). }
    assert (Z : lists w <> [] -> v <> VNull -> (forall l, v <> VList l) ->
      option_map (wrap (List.length (lists w))) (d k v) = Some r <-> whole w k v r).
    { intros C1 C2 C3. rewrite option_map_some. split.
      - intros (r1 & H & ->). eapply WhSingle; [exact C1|exact C2|exact C3|apply X; [exact B|exact H]|now apply wrap_nested].
      - intro H. inversion H as [? ? ? ? H1|? ? ? r1 ? N1 N2 N3 N4 N5]; subst.
        + exfalso. inversion H1; subst; congruence.
        + exists r1. split; [now apply X|now apply wrap_nested]. }
    destruct (lists w) as [|l ls] eqn:L.
    - apply Y. now left.
    - destruct v; try (apply Z; discriminate); apply Y; right; [now left|right; now eexists].
  Qed.

  Lemma fields_ext : forall fs gs ids rs,
    (forall id v, In id ids -> In (d_name (of_id id), v) fs <-> In (d_name (of_id id), v) gs) ->
    fields_as fs ids rs -> fields_as gs ids rs.
  Proof.
    intros fs gs ids. revert fs gs.
    assert (K : forall (fs gs : list (string * value)) k, (forall v, In (k, v) fs <-> In (k, v) gs) -> ~ In k (map fst fs) -> ~ In k (map fst gs)).
    { intros fs gs k A N I. apply N. apply in_map_iff in I. destruct I as ((k' & v) & E & I). cbn in E. subst k'.
      apply A in I. apply in_map_iff. now exists (k, v). }
    induction ids as [|id ids IH]; intros fs gs rs A H.
    - inversion H. constructor.
    - assert (A' : forall x v, In x ids -> In (d_name (of_id x), v) fs <-> In (d_name (of_id x), v) gs) by (intros; apply A; now right).
      inversion H as [|? ? ? v r rs' H1 H2 H3|? ? ? r rs' H1 H2 H3|? ? ? rs' H1 H2 H3 H4]; subst.
      + eapply FaGiven; [apply A; [now left|exact H1]|exact H2|]. exact (IH _ _ _ A' H3).
      + apply FaDefault; [|exact H2|exact (IH _ _ _ A' H3)]. revert H1. apply K. intro v. apply A. now left.
      + apply FaAbsent; [|exact H2|exact H3|exact (IH _ _ _ A' H4)]. revert H1. apply K. intro v. apply A. now left.
  Qed.

  Lemma fields_iff : forall n d ids, (forall id, In id ids -> exact n (d_kind (of_id id)) d) -> (forall id, In id ids -> settled id) ->
    NoDup (map (fun id => d_name (of_id id)) ids) ->
    forall fs rs, (forall f, In f fs -> depth (snd f) <= n) ->
    coerce_fields g known d ids fs = Some rs <->
    NoDup (map fst fs) /\ incl (map fst fs) (map (fun id => d_name (of_id id)) ids) /\ fields_as fs ids rs.
  Proof.
    intros n d. induction ids as [|id ids IH]; intros X S ND fs rs B; cbn [coerce_fields].
    - destruct fs as [|f fs]; split.
      + intro H. injection H as <-. split; [constructor|]. split; [intros y []|constructor].
      + intros (_ & _ & H). inversion H. reflexivity.
      + discriminate.
      + intros (_ & H & _). exfalso. exact (H (fst f) (or_introl eq_refl)).
    - cbn [map] in ND. inversion ND as [|? ? ND1 ND2]. subst.
      specialize (IH (fun x I => X x (or_intror I)) (fun x I => S x (or_intror I)) ND2).
      destruct (position (d_name (of_id id)) fs) as [i|] eqn:P.
      + destruct (XC.position_some _ _ _ P) as [v N]. rewrite N. cbn [bind snd].
        pose proof (XC.swap_remove_perm i fs _ N) as Q. pose proof (Permutation_map fst Q) as QK. cbn [map fst] in QK.
        assert (I0 : In (d_name (of_id id), v) fs) by (eapply nth_error_In; exact N).
        assert (IH' := fun rs' => IH (swap_remove i fs) rs' (fun f J => B f (Permutation_in _ (Permutation_sym Q) (or_intror J)))).
        assert (SAME : forall x w, In x ids -> In (d_name (of_id x), w) (swap_remove i fs) <-> In (d_name (of_id x), w) fs).
        { intros x w J. assert (NE : d_name (of_id x) <> d_name (of_id id)).
          { intro E. apply ND1. rewrite <- E. now apply (in_map (fun y => d_name (of_id y))). }
          split; intro K.
          - eapply Permutation_in; [symmetry; exact Q|]. now right.
          - apply (Permutation_in _ Q) in K. destruct K as [E|K]; [|exact K]. injection E as E _. congruence. }
        rewrite bind_some. split.
        * intros (r & E & H). apply option_map_some in H. destruct H as (rs' & H & ->). apply IH' in H. destruct H as (A1 & A2 & A3).
          split; [|split].
          -- eapply Permutation_NoDup; [symmetry; exact QK|]. constructor; [|exact A1]. intro J. apply ND1. now apply A2.
          -- intros y J. apply (Permutation_in _ QK) in J. destruct J as [J|J]; [left; exact J|right; now apply A2].
          -- eapply FaGiven; [exact I0| |].
             ++ eapply input_iff; [exact (X id (or_introl eq_refl))|exact (B _ I0)|exact E].
             ++ eapply fields_ext; [exact SAME|exact A3].
        * intros (A1 & A2 & A3). pose proof (Permutation_NoDup QK A1) as ND3. inversion ND3 as [|? ? ND4 ND5]. subst.
          assert (NIN : ~ ~ In (d_name (of_id id)) (map fst fs)) by (intro K; apply K; apply in_map_iff; exists (d_name (of_id id), v); auto).
          inversion A3 as [|? ? ? v' r rs' H1 H2 H3|? ? ? r rs' H1 H2 H3|? ? ? rs' H1 H2 H3 H4]; subst; [|contradiction|contradiction].
          assert (v' = v).
          { apply (Permutation_in _ Q) in H1. destruct H1 as [E|K]; [now injection E|]. exfalso. apply ND4. apply in_map_iff. now exists (d_name (of_id id), v'). }
          subst v'. exists r. split; [eapply input_iff; [exact (X id (or_introl eq_refl))|exact (B _ I0)|exact H2]|].
          apply option_map_some. exists rs'. split; [|reflexivity]. apply IH'. split; [exact ND5|]. split.
          -- intros y J. assert (K : In y (map fst fs)) by (eapply Permutation_in; [symmetry; exact QK|now right]).
             apply A2 in K. destruct K as [K|K]; [|exact K]. exfalso. apply ND4. now rewrite K.
          -- eapply fields_ext; [|exact H3]. intros x w J. symmetry. now apply SAME.
      + apply XC.position_none in P. specialize (S id (or_introl eq_refl)). unfold settled in S.
        assert (INC : incl (map fst fs) (d_name (of_id id) :: map (fun x => d_name (of_id x)) ids) <-> incl (map fst fs) (map (fun x => d_name (of_id x)) ids)).
        { split; intros A y J; [|right; now apply A]. destruct (A y J) as [E|K]; [|exact K]. exfalso. apply P. now rewrite E. }
        cbn [map]. destruct (d_default (input g id)) as [v|] eqn:DV.
        * destruct S as (r & E & U). rewrite E. rewrite option_map_some. split.
          -- intros (rs' & H & ->). apply (IH fs rs' B) in H. destruct H as (A1 & A2 & A3). split; [exact A1|]. split; [now apply INC|].
             apply FaDefault; [exact P|now apply U|exact A3].
          -- intros (A1 & A2 & A3).
             inversion A3 as [|? ? ? v' r' rs' H1 H2 H3|? ? ? r' rs' H1 H2 H3|? ? ? rs' H1 H2 H3 H4]; subst.
             ++ exfalso. apply P. apply in_map_iff. now exists (d_name (of_id id), v').
             ++ apply U in H2. subst r'. exists rs'. split; [|reflexivity]. apply (IH fs rs' B). split; [exact A1|]. split; [now apply INC|exact H3].
             ++ congruence.
        * rewrite S. destruct (non_null (d_wrapping (of_id id))) eqn:NN.
          -- split; [discriminate|]. intros (A1 & A2 & A3). exfalso. apply non_null_required in NN.
             inversion A3 as [|? ? ? v' r' rs' H1 H2 H3|? ? ? r' rs' H1 H2 H3|? ? ? rs' H1 H2 H3 H4]; subst.
             ++ apply P. apply in_map_iff. now exists (d_name (of_id id), v').
             ++ inversion H2. congruence.
             ++ contradiction.
          -- rewrite (IH fs rs B). rewrite INC. split.
             ++ intros (A1 & A2 & A3). split; [exact A1|]. split; [exact A2|]. apply FaAbsent; [exact P|exact DV| |exact A3].
                intro K. apply non_null_required in K. congruence.
             ++ intros (A1 & A2 & A3). split; [exact A1|]. split; [exact A2|].
                inversion A3 as [|? ? ? v' r' rs' H1 H2 H3|? ? ? r' rs' H1 H2 H3|? ? ? rs' H1 H2 H3 H4]; subst; [| |exact H4].
                ** exfalso. apply P. apply in_map_iff. now exists (d_name (of_id id), v').
                ** inversion H2. congruence.
  Qed.

  Lemma scalar_iff : forall s v r, coerce_scalar s v = Some r <-> named_as (KScalar s) v r.
  Proof.
    intros s v r. split.
    - intro H. destruct s; cbn [coerce_scalar] in H.
      + destruct v; try discriminate H. injection H as <-. constructor.
      + destruct v; try discriminate H.
        * destruct (CM.f64_of_Z z) as [m e] eqn:E. injection H as <-. now constructor.
        * injection H as <-. constructor.
      + destruct v; try discriminate H.
        * apply option_map_some in H. destruct H as (z' & H & ->). unfold CM.i32_try_from in H.
          destruct ((-2147483648 <=? z) && (z <=? 2147483647))%Z eqn:B; [|discriminate H]. injection H as <-.
          apply andb_true_iff in B. destruct B as [B1 B2]. apply Z.leb_le in B1, B2. constructor. lia.
        * destruct (CM.can_coerce_to_int m e) eqn:C; [|discriminate H]. injection H as <-.
          destruct (XC.float_is_as_i32 m e C) as (k & F & L & E). rewrite E. constructor; [exact F|exact L].
      + destruct v; try discriminate H. injection H as <-. constructor.
      + injection H as <-. constructor. apply ingest_as.
    - intro H. inversion H as [| |? ? ? E|? B|? ? k F L| |? ? A| | |]; subst; cbn [coerce_scalar]; try reflexivity.
      + now rewrite E.
      + unfold CM.i32_try_from. replace ((-2147483648 <=? z) && (z <=? 2147483647))%Z with true; [reflexivity|].
        symmetry. apply andb_true_iff. split; apply Z.leb_le; lia.
      + destruct (XC.float_is_back m e k F L) as [C E]. rewrite C, E. reflexivity.
      + now rewrite (as_is_only _ _ A).
  Qed.

  Lemma named_iff : forall (P : nat -> Prop),
    (forall o, NoDup (map (fun id => d_name (of_id id)) (fields_of o))) ->
    (forall o id o', P o -> In id (fields_of o) -> d_kind (of_id id) = KObject o' -> P o') ->
    (forall o id, P o -> In id (fields_of o) -> settled id) ->
    forall n k, (forall o, k = KObject o -> P o) -> exact n k (coerce_named g known n).
  Proof.
    intros P ND CL ST. induction n as [|n IH]; intros k K v r B; [destruct v; cbn in B; lia|]. cbn [coerce_named].
    destruct k as [s|values|o].
    - apply scalar_iff.
    - unfold coerce_enum. split.
      + intro H. destruct v; try discriminate H. destruct (existsb (String.eqb s) values) eqn:E; [|discriminate H]. injection H as <-.
        apply existsb_exists in E. destruct E as (x & I & E). apply String.eqb_eq in E. subst x. now constructor.
      + intro H. inversion H as [| | | | | | |? s I| |]; subst. replace (existsb (String.eqb s) values) with true; [reflexivity|].
        symmetry. apply existsb_exists. exists s. split; [exact I|apply String.eqb_refl].
    - assert (PO : P o) by now apply K.
      assert (X : forall id, In id (fields_of o) -> exact n (d_kind (of_id id)) (coerce_named g known n)).
      { intros id I. apply IH. intros o' E. exact (CL o id o' PO I E). }
      destruct v as [| | | | | | |fs]; try (split; [discriminate|intro H; inversion H]). unfold coerce_object.
      assert (B' : forall f, In f fs -> depth (snd f) <= n) by (intros f I; apply depth_field in I; lia).
      destruct (one_of (object_at g o)) eqn:O.
      + destruct fs as [|[k v] [|f2 fs]].
        * split; [discriminate|intro H; inversion H; congruence].
        * cbn [fst snd]. rewrite bind_some. split.
          -- intros (id & F & H). apply find_some in F. destruct F as [I E]. apply String.eqb_eq in E.
             apply option_map_some in H. destruct H as (r' & H & ->). apply NaOneOf; [exact O|exact I|exact E|].
             eapply input_iff; [exact (X id I)|exact (B' _ (or_introl eq_refl))|exact H].
          -- intro H. inversion H as [| | | | | | | |? id ? ? r' O' I E W|]; subst; [|congruence]. exists id. split.
             ++ assert (G := ND o). cbv beta in G. revert I G. generalize (field_ids (object_at g o)). intro l. induction l as [|x l IHl]; intros I G; [contradiction|].
                cbn [find]. cbn [map] in G. inversion G as [|? ? G1 G2]. subst. destruct I as [->|I].
                ** now rewrite String.eqb_refl.
                ** destruct (String.eqb (d_name (of_id x)) (d_name (of_id id))) eqn:EQ; [|now apply IHl].
                   exfalso. apply String.eqb_eq in EQ. apply G1. rewrite EQ. now apply (in_map (fun y => d_name (of_id y))).
             ++ apply option_map_some. exists r'. split; [|reflexivity]. eapply input_iff; [exact (X id I)|exact (B' _ (or_introl eq_refl))|exact W].
        * split; [discriminate|intro H; inversion H; congruence].
      + rewrite option_map_some. split.
        * intros (rs & H & ->). apply (fields_iff n _ _ X (fun id I => ST o id PO I) (ND o) fs rs B') in H. destruct H as (A1 & A2 & A3).
          apply NaObject; [exact O|exact A1|exact A2|exact A3].
        * intro H. inversion H as [| | | | | | | | |? ? rs O' A1 A2 A3]; subst; [congruence|]. exists rs. split; [|reflexivity].
          apply (fields_iff n _ _ X (fun id I => ST o id PO I) (ND o) fs rs B'). auto.
  Qed.
End Coerced.
