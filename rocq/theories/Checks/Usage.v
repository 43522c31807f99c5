(* The usage that is aggregated from operations (C49). *)
From Coq Require Import String List Bool Arith NArith Lia.
Import ListNotations.
From Verif.SchemaDiff Require Import Ast Search Diff.
From Verif.Checks Require Import Model Spec Facts.
Local Open Scope string_scope.
Local Open Scope list_scope.

(* Whether the usage has a count for something. *)
Definition counted (s : schema) (u : usage) (e : use) : Prop :=
  match e with
  | UField n f => exists i, find_field s n f = Some i /\ contains Nat.eqb i (u_fields u) = true
  | UArg n f a => exists i, find_argument s n f a = Some i /\ contains Nat.eqb i (u_args u) = true
  | UEnum n v => contains pair_eqb (n, v) (u_enums u) = true
  | UCond n on => contains pair_eqb (n, on) (u_conditions u) = true
  | ULeft n f a => exists i, find_argument s n f a = Some i /\ contains Nat.eqb i (u_left_out u) = true
  end.

Lemma pair_eqb_spec : forall x y, pair_eqb x y = true <-> x = y.
Proof.
  intros [a b] [c d]. unfold pair_eqb. cbn. rewrite andb_true_iff, !String.eqb_eq.
  split; [intros [-> ->]; reflexivity|intros [= -> ->]; auto].
Qed.

Lemma contains_bump : forall K (eqb : K -> K -> bool), (forall x y, eqb x y = true <-> x = y) ->
  forall k j n l, contains eqb k (bump eqb j n l) = true <-> k = j \/ contains eqb k l = true.
Proof.
  intros K eqb SP k j n l. unfold contains. induction l as [|[i m] l IH]; cbn [bump existsb fst].
  - rewrite orb_false_r. rewrite SP. split; [auto|]. intros [H|H]; [exact H|discriminate].
  - destruct (eqb j i) eqn:E; cbn [existsb fst].
    + apply SP in E. subst. rewrite !orb_true_iff, SP. tauto.
    + rewrite !orb_true_iff, IH. tauto.
Qed.

Section Doc.
  Context (d : doc) (OK : doc_ok d).
  Let s := schema_of d.

  Lemma field_id_inj : forall n f n' f' i, find_field s n f = Some i -> find_field s n' f' = Some i -> n = n' /\ f = f'.
  Proof.
    intros n f n' f' i A B. apply find_field_inv in A, B. destruct A as (t & _ & A), B as (u & _ & B).
    rewrite A in B. injection B as -> -> _ _. auto.
  Qed.

  Lemma arg_id_inj : forall n f a n' f' a' i, find_argument s n f a = Some i -> find_argument s n' f' a' = Some i ->
    n = n' /\ f = f' /\ a = a'.
  Proof.
    intros n f a n' f' a' i A B. apply find_argument_inv in A, B. destruct A as (x & _ & _ & A), B as (y & _ & _ & B).
    rewrite A in B. injection B as -> -> -> _ _ _. auto.
  Qed.

  (* What is counted in `v` beyond `u`; of left out arguments only that nothing
     else is counted. *)
  Definition Adds (u v : usage) (P : use -> Prop) : Prop :=
    forall e, (counted s u e -> counted s v e) /\
              (counted s v e -> counted s u e \/ P e) /\
              (not_left e -> P e -> counted s v e).

  Lemma adds_nothing : forall u P, (forall e, not_left e -> ~ P e) -> Adds u u P.
  Proof. intros u P H e. split; [auto|]. split; [auto|]. intros L X. exfalso. exact (H e L X). Qed.

  Lemma adds_trans : forall u v w P Q R, Adds u v P -> Adds v w Q -> (forall e, R e <-> P e \/ Q e) -> Adds u w R.
  Proof.
    intros u v w P Q R A B H e. destruct (A e) as (A1 & A2 & A3), (B e) as (B1 & B2 & B3).
    split; [auto|]. split.
    - intros W. rewrite H. destruct (B2 W) as [V|V]; [destruct (A2 V); auto|auto].
    - intros L. rewrite H. intros [X|X]; auto.
  Qed.

  Lemma adds_then : forall u v w P Q, Adds u v P -> Adds v w Q -> Adds u w (fun e => P e \/ Q e).
  Proof. intros u v w P Q A B. apply (adds_trans u v w P Q); auto. intros e. reflexivity. Qed.

  Lemma adds_weaken : forall u v P Q, Adds u v P -> (forall e, P e <-> Q e) -> Adds u v Q.
  Proof.
    intros u v P Q A H e. destruct (A e) as (A1 & A2 & A3). split; [exact A1|]. split.
    - intros V. rewrite <- H. auto.
    - intros L X. apply A3; [exact L|]. apply H. exact X.
  Qed.

  Lemma adds_fold_option : forall A (f : usage -> A -> option usage) (P : A -> use -> Prop) l,
    (forall x u v, In x l -> f u x = Some v -> Adds u v (P x)) ->
    forall u v, fold_option f l u = Some v -> Adds u v (fun e => exists x, In x l /\ P x e).
  Proof.
    intros A f P l. induction l as [|x l IH]; intros H u v F; cbn in F.
    - injection F as ->. apply adds_nothing. intros e _ (x & [] & _).
    - destruct (f u x) as [w|] eqn:E; [|discriminate].
      eapply adds_trans; [apply (H x); [left; reflexivity|exact E]|apply IH; [|exact F]|].
      + intros y a b Y. apply H. right. exact Y.
      + intros e. split.
        * intros (y & [<-|Y] & Q); eauto.
        * intros [Q|(y & Y & Q)]; [exists x|exists y]; cbn; auto.
  Qed.

  Lemma adds_fold : forall A (f : usage -> A -> usage) (P : A -> use -> Prop) l,
    (forall x u, In x l -> Adds u (f u x) (P x)) ->
    forall u, Adds u (fold_left f l u) (fun e => exists x, In x l /\ P x e).
  Proof.
    intros A f P l. induction l as [|x l IH]; intros H u; cbn [fold_left].
    - apply adds_nothing. intros e _ (x & [] & _).
    - eapply adds_trans; [apply (H x); left; reflexivity|apply IH|].
      + intros y a Y. apply H. right. exact Y.
      + intros e. split.
        * intros (y & [<-|Y] & Q); eauto.
        * intros [Q|(y & Y & Q)]; [exists x|exists y]; cbn; auto.
  Qed.

  Lemma nat_eqb_spec : forall x y, Nat.eqb x y = true <-> x = y.
  Proof. apply Nat.eqb_eq. Qed.

  Lemma adds_register_field : forall u n f i, find_field s n f = Some i ->
    Adds u (register_field i u) (fun e => e = UField n f).
  Proof.
    intros u n f i F e. destruct e as [n' f'|n' f' a|n' v|n' on|n' f' a]; cbn [counted register_field u_fields u_args u_enums u_conditions u_left_out].
    1: { split; [|split].
         - intros (j & J & C). exists j. rewrite (contains_bump nat Nat.eqb nat_eqb_spec). auto.
         - intros (j & J & C). rewrite (contains_bump nat Nat.eqb nat_eqb_spec) in C. destruct C as [->|C]; [|eauto].
           destruct (field_id_inj _ _ _ _ _ F J) as [-> ->]. auto.
         - intros _ [= -> ->]. exists i. rewrite (contains_bump nat Nat.eqb nat_eqb_spec). auto. }
    all: split; [auto|]; split; [auto|discriminate].
  Qed.

  Lemma adds_register_argument : forall u n f a i, find_argument s n f a = Some i ->
    Adds u (register_argument i u) (fun e => e = UArg n f a).
  Proof.
    intros u n f a i F e. destruct e as [n' f'|n' f' a'|n' v|n' on|n' f' a']; cbn [counted register_argument u_fields u_args u_enums u_conditions u_left_out].
    2: { split; [|split].
         - intros (j & J & C). exists j. rewrite (contains_bump nat Nat.eqb nat_eqb_spec). auto.
         - intros (j & J & C). rewrite (contains_bump nat Nat.eqb nat_eqb_spec) in C. destruct C as [->|C]; [|eauto].
           destruct (arg_id_inj _ _ _ _ _ _ _ F J) as (-> & -> & ->). auto.
         - intros _ [= -> -> ->]. exists i. rewrite (contains_bump nat Nat.eqb nat_eqb_spec). auto. }
    all: split; [auto|]; split; [auto|discriminate].
  Qed.

  Lemma adds_register_left_out : forall u n f a i, find_argument s n f a = Some i ->
    Adds u (register_left_out i u) (fun e => e = ULeft n f a).
  Proof.
    intros u n f a i F e. destruct e as [n' f'|n' f' a'|n' v|n' on|n' f' a']; cbn [counted register_left_out u_fields u_args u_enums u_conditions u_left_out].
    5: { split; [|split].
         - intros (j & J & C). exists j. rewrite (contains_bump nat Nat.eqb nat_eqb_spec). auto.
         - intros (j & J & C). rewrite (contains_bump nat Nat.eqb nat_eqb_spec) in C. destruct C as [->|C]; [|eauto].
           destruct (arg_id_inj _ _ _ _ _ _ _ F J) as (-> & -> & ->). auto.
         - intros []. }
    all: split; [auto|]; split; [auto|discriminate].
  Qed.

  Lemma adds_register_enum : forall u n v, Adds u (register_enum (n, v) u) (fun e => e = UEnum n v).
  Proof.
    intros u n v e. destruct e as [n' f'|n' f' a'|n' v'|n' on|n' f' a']; cbn [counted register_enum u_fields u_args u_enums u_conditions u_left_out].
    3: { rewrite (contains_bump _ pair_eqb pair_eqb_spec). split; [auto|]. split.
         - intros [[= -> ->]|C]; auto.
         - intros _ [= -> ->]. auto. }
    all: split; [auto|]; split; [auto|discriminate].
  Qed.

  Lemma adds_register_condition : forall u n on, Adds u (register_condition (n, on) u) (fun e => e = UCond n on).
  Proof.
    intros u n v e. destruct e as [n' f'|n' f' a'|n' v'|n' on|n' f' a']; cbn [counted register_condition u_fields u_args u_enums u_conditions u_left_out].
    4: { rewrite (contains_bump _ pair_eqb pair_eqb_spec). split; [auto|]. split.
         - intros [[= -> ->]|C]; auto.
         - intros _ [= -> ->]. auto. }
    all: split; [auto|]; split; [auto|discriminate].
  Qed.

  Lemma adds_argument : forall n f u x, Adds u (use_argument s n f u x)
    (fun e => exists i, ArgOf d n f i /\ i_name i = fst x /\
       (e = UArg n f (fst x) \/ exists v, snd x = Some v /\ e = UEnum (named (i_type i)) v)).
  Proof.
    intros n f u [a v]. unfold use_argument. cbn [fst snd].
    destruct (find_argument s n f a) as [i|] eqn:F.
    - destruct (find_argument_inv d n f a i F) as (y & Y & E & N). subst a.
      unfold s. rewrite N. cbn [sa_base].
      assert (U : forall z, ArgOf d n f z -> i_name z = i_name y -> z = y).
      { intros z Z EZ. apply (DocFacts.arg_unique d n f); auto using object_arg. }
      destruct v as [v|].
      + eapply adds_trans; [exact (adds_register_argument u n f _ i F)|apply adds_register_enum|].
        intros e. split.
        * intros (z & Z & EZ & [->|(w & [= <-] & ->)]); [auto|]. rewrite (U z Z EZ). auto.
        * intros [-> | ->]; exists y; eauto 6.
      + eapply adds_weaken; [exact (adds_register_argument u n f _ i F)|].
        intros e. split.
        * intros ->. exists y. auto.
        * intros (z & Z & EZ & [->|(w & W & ->)]); [reflexivity|discriminate W].
    - apply adds_nothing. intros e _ (i & I & E & _).
      exact (find_argument_none d n f a F OK i I E).
  Qed.

  Lemma enumerate_in : forall A (l : list A) k i x, In (i, x) (enumerate k l) -> exists j, i = k + j /\ nth_error l j = Some x.
  Proof.
    intros A. induction l as [|y l IH]; intros k i x H; cbn in H; [contradiction|].
    destruct H as [[= <- <-]|H].
    - exists 0. split; [lia|reflexivity].
    - destruct (IH _ _ _ H) as (j & -> & J). exists (S j). split; [lia|exact J].
  Qed.

  Lemma take_while_nth : forall A (p : A -> bool) l j x, nth_error (take_while p l) j = Some x -> nth_error l j = Some x /\ p x = true.
  Proof.
    intros A p. induction l as [|y l IH]; intros j x H; cbn in H; [destruct j; discriminate|].
    destruct (p y) eqn:E; [|destruct j; discriminate]. destruct j as [|j]; cbn in *; [injection H as <-; auto|]. auto.
  Qed.

  Lemma iter_field_arguments_in : forall n f b w i y, In (i, y) (iter_field_arguments s (mksfield n f b w)) ->
    sa_type y = n /\ sa_field y = f /\ nth_error (s_args s) i = Some y.
  Proof.
    intros n f b w i y H. unfold iter_field_arguments in H. cbv zeta in H.
    set (start := partition_point _ _) in H. clearbody start.
    apply enumerate_in in H. destruct H as (j & -> & J). apply take_while_nth in J. destruct J as [J P].
    cbn in P. apply andb_true_iff in P. destruct P as [P Q]. apply String.eqb_eq in P, Q.
    split; [exact P|]. split; [exact Q|].
    rewrite <- J. clear. generalize (s_args s) as l. induction start as [|k IH]; intros l; cbn [skipn Nat.add]; [reflexivity|].
    destruct l as [|z l]; [destruct j; reflexivity|]. cbn [nth_error]. apply IH.
  Qed.

  Lemma adds_left_out : forall n f t args u,
    Adds u (left_out s (mksfield n f (named t) (wrap t)) args u)
      (fun e => exists i, ArgOf d n f i /\ nonnull (i_type i) /\ i_default i <> None /\ ~ In (i_name i) (map fst args) /\
                          e = ULeft n f (i_name i)).
  Proof.
    intros n f t args u. unfold left_out.
    set (P := fun e => exists i, _).
    assert (G : forall l u, (forall i y, In (i, y) l -> sa_type y = n /\ sa_field y = f /\ nth_error (s_args s) i = Some y) ->
      Adds u (fold_left (fun u p =>
        if forallb (fun a : string * option string => negb (String.eqb (fst a) (sa_arg (snd p)))) args &&
           (is_nonnull (sa_wrap (snd p)) && sa_default (snd p))
        then register_left_out (fst p) u else u) l u) P).
    { clear u. induction l as [|[i y] l IH]; intros u H; cbn [fold_left].
      - apply adds_nothing. intros e L (j & _ & _ & _ & _ & ->). exact L.
      - eapply adds_trans; [|apply IH; intros j z Z; apply H; right; exact Z|].
        2: { intros e. instantiate (1 := fun e => P e). cbv beta. tauto. }
        destruct (_ && _) eqn:E.
        2: { apply adds_nothing. intros e L (j & _ & _ & _ & _ & ->). exact L. }
        apply andb_true_iff in E. destruct E as [E1 E2]. apply andb_true_iff in E2. destruct E2 as [E2 E3]. cbn [fst snd] in *.
        destruct (H i y (or_introl eq_refl)) as (EN & EF & N).
        assert (Y : In y (s_args s)) by (eapply nth_error_In; exact N).
        apply sort_in in Y. apply args_table in Y. destruct Y as (n' & f' & x & X & ->). cbn [sa_type sa_field sa_arg sa_wrap sa_default] in *.
        subst n' f'.
        destruct (find_argument_has d n f x OK X) as (j & J & NJ).
        assert (Q : forall e, e = ULeft n f (i_name x) -> P e).
        { intros e ->. exists x. split; [exact X|]. split; [apply is_nonnull_wrap; exact E2|].
          split; [apply has_default_spec; exact E3|]. split; [|reflexivity].
          intros INN. apply in_map_iff in INN. destruct INN as (a & A & IA).
          rewrite forallb_forall in E1. specialize (E1 a IA). rewrite A, String.eqb_refl in E1. discriminate. }
        intros e. split; [|split].
        + destruct (adds_register_left_out u n f (i_name x) j J e) as (A1 & _ & _). intros C.
          destruct e; try exact (A1 C). cbn [counted register_left_out u_left_out] in *.
          destruct C as (q & FQ & C). exists q. rewrite (contains_bump nat Nat.eqb nat_eqb_spec). auto.
        + intros C. destruct e; try (left; exact C). cbn [counted register_left_out u_left_out] in C.
          destruct C as (q & FQ & C). rewrite (contains_bump nat Nat.eqb nat_eqb_spec) in C. destruct C as [->|C].
          * right. apply Q. apply find_argument_inv in FQ. destruct FQ as (z & Z & EZ & NZ). fold s in NZ. rewrite N in NZ.
            injection NZ as -> -> -> _ _ _. reflexivity.
          * left. exists q. auto.
        + intros L (z & _ & _ & _ & _ & ->). contradiction. }
    apply G. intros i y Y. exact (iter_field_arguments_in _ _ _ _ _ _ Y).
  Qed.

  Lemma find_fragment_spec : forall fs x p, NoDup (map fst fs) -> (find_fragment x fs = Some p <-> In (x, p) fs).
  Proof.
    intros fs x p. unfold find_fragment. induction fs as [|[y q] fs IH]; intros ND; cbn in *.
    - split; [discriminate|contradiction].
    - inversion ND as [|? ? NI ND']; subst. destruct (String.eqb y x) eqn:E.
      + apply String.eqb_eq in E. subst. cbn. split; [intros [= ->]; auto|].
        intros [[= ->]|H]; [reflexivity|]. exfalso. apply NI. apply in_map_iff. exists (x, p). auto.
      + apply String.eqb_neq in E. rewrite (IH ND'). split; [auto|]. intros [[= -> ->]|H]; [congruence|exact H].
  Qed.

  Lemma adds_selection : forall fs, NoDup (map fst fs) -> forall fuel n u x v,
    aggregate_selection fuel s fs n u x = Some v -> Adds u v (Touches d fs n x).
  Proof.
    intros fs ND. induction fuel as [|fuel IH]; intros n u x v H; cbn [aggregate_selection] in H; [discriminate|].
    assert (SUB : forall m l a b, fold_option (aggregate_selection fuel s fs m) l a = Some b ->
      Adds a b (fun e => exists y, In y l /\ Touches d fs m y e)).
    { intros m l a b F. apply (adds_fold_option _ (aggregate_selection fuel s fs m) (fun y => Touches d fs m y) l) with (2 := F).
      intros y c e _. apply IH. }
    destruct x as [f args sub|z|[on|] sub].
    - destruct (find_field s n f) as [i|] eqn:F.
      + destruct (find_field_inv d n f i F) as (t & T & N). fold s in N. rewrite N in H. cbn [sf_base] in H.
        destruct (fold_option _ sub _) as [w|] eqn:E; [|discriminate]. cbn [option_map] in H. injection H as <-.
        apply SUB in E.
        eapply adds_weaken; [eapply adds_then; [eapply adds_then; [exact (adds_register_field u n f i F)|]|
                                               eapply adds_then; [exact E|apply adds_left_out]]|].
        * apply (adds_fold _ (use_argument s n f) (fun x e => exists i, ArgOf d n f i /\ i_name i = fst x /\
            (e = UArg n f (fst x) \/ exists v, snd x = Some v /\ e = UEnum (named (i_type i)) v))).
          intros y a _. apply adds_argument.
        * intros e. split.
          -- intros [[->|([a v] & A & z & Z & EZ & [->|(v' & EV & ->)])]|[(y & Y & TY)|(z & Z & NN & DF & NI & ->)]].
             ++ eapply t_field. exact T.
             ++ cbn in *. eapply t_arg; eauto.
             ++ cbn in *. subst. eapply t_enum; eauto.
             ++ eapply t_sub; eauto.
             ++ eapply t_left; eauto.
          -- intros TT. assert (FU := fun t' => field_unique d n f t t' OK T).
             inversion TT; subst; auto.
             ++ left. right. exists (i_name i0, v). split; [assumption|]. exists i0. auto.
             ++ left. right. exists (i_name i0, Some e0). split; [assumption|]. exists i0.
                split; [assumption|]. split; [reflexivity|]. right. exists e0. auto.
             ++ right. right. exists i0. auto 6.
             ++ right. left. exists s0. split; [assumption|]. rewrite (FU t0) by assumption. assumption.
      + injection H as ->. apply adds_nothing. intros e _ TT.
        assert (FN := fun t => find_field_none d n f F t OK).
        inversion TT; subst; eapply FN; eassumption.
    - destruct (find_fragment z fs) as [[on sub]|] eqn:F.
      + apply SUB in H. eapply adds_weaken; [exact H|]. apply (find_fragment_spec fs z _ ND) in F. intros e. split.
        * intros (y & Y & TY). eapply t_spread; eauto.
        * intros TT. inversion TT; subst. apply (find_fragment_spec fs z _ ND) in F.
          match goal with G : In (z, _) fs |- _ => apply (find_fragment_spec fs z _ ND) in G; rewrite F in G; injection G as -> -> end.
          eauto.
      + injection H as ->. apply adds_nothing. intros e _ TT. inversion TT; subst.
        match goal with G : In (z, _) fs |- _ => apply (find_fragment_spec fs z _ ND) in G; congruence end.
    - apply SUB in H. eapply adds_trans; [apply adds_register_condition|exact H|].
      intros e. split.
      + intros TT. inversion TT; subst; eauto.
      + intros [->|(y & Y & TY)]; [apply t_cond|eapply t_inline; eauto].
    - apply SUB in H. eapply adds_weaken; [exact H|]. intros e. split.
      + intros (y & Y & TY). eapply t_block; eauto.
      + intros TT. inversion TT; subst. eauto.
  Qed.

  Lemma adds_operation : forall fuel o u v, op_ok o -> roots_once d ->
    aggregate fuel s u o = Some v -> Adds u v (OpTouches d o).
  Proof.
    intros fuel o u v ND RO H. unfold aggregate in H. cbv zeta in H.
    apply (adds_fold_option _ _ (fun y => Touches d (o_fragments o) (op_root s (o_type o)) y)) in H.
    2: { intros x a b _. apply adds_selection. exact ND. }
    eapply adds_trans; [|exact H|].
    - apply (adds_fold _ (fun u k => register_enum k u) (fun k e => e = UEnum (fst k) (snd k))).
      intros [n w] a _. apply adds_register_enum.
    - intros e. split.
      + intros TT. inversion TT as [n w D|n y e' R Y TY]; subst; [left; exists (n, w); auto|right].
        exists y. split; [exact Y|]. unfold s. rewrite (RO _ _ _ (op_root_is d (o_type o)) R). exact TY.
      + intros [([n w] & D & ->)|(y & Y & TY)]; [apply ot_default; exact D|].
        eapply ot_sel; [apply op_root_is|exact Y|exact TY].
  Qed.
End Doc.

(* The usage of a list of operations, each with its number of requests. *)
Definition aggregate_all (fuel : nat) (s : schema) (l : list (N * operation)) : option usage :=
  fold_option (fun u p => aggregate fuel s (set_increment (fst p) u) (snd p)) l no_usage.

(* C49: the usage has a count for exactly what one of the operations uses; of
   the arguments that are left out it has a count only for such. *)
Theorem C49_usage : forall d fuel l u, doc_ok d -> roots_once d ->
  (forall n o, In (n, o) l -> op_ok o) ->
  aggregate_all fuel (schema_of d) l = Some u ->
  forall e, (counted (schema_of d) u e -> exists n o, In (n, o) l /\ OpTouches d o e) /\
            (not_left e -> (exists n o, In (n, o) l /\ OpTouches d o e) -> counted (schema_of d) u e).
Proof.
  intros d fuel l u OK RO OPS H. unfold aggregate_all in H.
  apply (adds_fold_option d _ _ (fun p => OpTouches d (snd p))) in H.
  - intros e. destruct (H e) as (_ & H2 & H3). split.
    + intros C. destruct (H2 C) as [C0|([n o] & IN & T)]; [|eauto].
      destruct e; cbn in C0; try discriminate; destruct C0 as (i & _ & C0); discriminate.
    + intros L (n & o & IN & T). apply H3; [exact L|]. exists (n, o). auto.
  - intros [n o] a b IN G. apply (adds_operation d OK) in G; [|eapply OPS; exact IN|exact RO].
    intros e. destruct (G e) as (G1 & G2 & G3). split; [|split].
    + intros C. apply G1. destruct e; exact C.
    + intros C. destruct (G2 C) as [C0|C0]; [left; destruct e; exact C0|auto].
    + exact G3.
Qed.
