(* How often things are used, and thresholds (C49). *)
From Coq Require Import String List Bool Arith NArith Lia.
Import ListNotations.
From Verif.SchemaDiff Require Import Ast Search Diff DocFacts.
From Verif.Checks Require Import Model Spec Facts Usage.
Local Open Scope string_scope.
Local Open Scope list_scope.

(** The specification: everything that selections use, as often as they do.  The
    arguments that are left out are not among it. *)
Inductive ArgUses (d : doc) (n f : string) : list (string * option string) -> list use -> Prop :=
| au_nil : ArgUses d n f nil nil
| au_unknown a v r l : (forall i, ArgOf d n f i -> i_name i <> a) -> ArgUses d n f r l -> ArgUses d n f ((a, v) :: r) l
| au_arg i r l : ArgOf d n f i -> ArgUses d n f r l -> ArgUses d n f ((i_name i, None) :: r) (UArg n f (i_name i) :: l)
| au_enum i e r l : ArgOf d n f i -> ArgUses d n f r l ->
    ArgUses d n f ((i_name i, Some e) :: r) (UArg n f (i_name i) :: UEnum (named (i_type i)) e :: l).

Inductive Uses (d : doc) (fs : fragments) : string -> list selection -> list use -> Prop :=
| us_nil n : Uses d fs n nil nil
| us_unknown n f args sub r l : (forall t, ~ HasField d n f t) -> Uses d fs n r l -> Uses d fs n (SField f args sub :: r) l
| us_field n f args sub r t la ls l : HasField d n f t -> ArgUses d n f args la -> Uses d fs (named t) sub ls -> Uses d fs n r l ->
    Uses d fs n (SField f args sub :: r) (UField n f :: la ++ ls ++ l)
| us_no_fragment n x r l : (forall q, ~ In (x, q) fs) -> Uses d fs n r l -> Uses d fs n (SSpread x :: r) l
| us_spread n x on sub r ls l : In (x, (on, sub)) fs -> Uses d fs on sub ls -> Uses d fs n r l ->
    Uses d fs n (SSpread x :: r) (ls ++ l)
| us_inline n on sub r ls l : Uses d fs on sub ls -> Uses d fs n r l ->
    Uses d fs n (SInline (Some on) sub :: r) (UCond n on :: ls ++ l)
| us_block n sub r ls l : Uses d fs n sub ls -> Uses d fs n r l -> Uses d fs n (SInline None sub :: r) (ls ++ l).

Inductive OpUses (d : doc) (o : operation) : list use -> Prop :=
| ou n l : IsRoot d (o_type o) n -> Uses d (o_fragments o) n (o_root o) l ->
    OpUses d o (map (fun p => UEnum (fst p) (snd p)) (o_enums o) ++ l).

Definition use_dec : forall x y : use, {x = y} + {x <> y}.
Proof. intros x y. decide equality; apply string_dec. Defined.

Definition times (e : use) (l : list use) : N := N.of_nat (count_occ use_dec l e).

Lemma times_nil : forall e, times e nil = 0%N.
Proof. reflexivity. Qed.

Lemma times_cons : forall e x l, times e (x :: l) = ((if use_dec x e then 1 else 0) + times e l)%N.
Proof. intros e x l. unfold times. cbn [count_occ]. destruct (use_dec x e); lia. Qed.

Lemma times_app : forall e l m, times e (l ++ m) = (times e l + times e m)%N.
Proof. intros e l m. unfold times. rewrite count_occ_app. lia. Qed.

(** The counts of the usage. *)
Definition count_of {K} (eqb : K -> K -> bool) (k : K) (l : list (K * N)) : N :=
  match find (fun p => eqb k (fst p)) l with Some p => snd p | None => 0%N end.

Definition count (s : schema) (u : usage) (e : use) : N :=
  match e with
  | UField n f => match find_field s n f with Some i => count_of Nat.eqb i (u_fields u) | None => 0%N end
  | UArg n f a => match find_argument s n f a with Some i => count_of Nat.eqb i (u_args u) | None => 0%N end
  | UEnum n v => count_of pair_eqb (n, v) (u_enums u)
  | UCond n on => count_of pair_eqb (n, on) (u_conditions u)
  | ULeft n f a => match find_argument s n f a with Some i => count_of Nat.eqb i (u_left_out u) | None => 0%N end
  end.

Lemma count_bump : forall K (eqb : K -> K -> bool), (forall x y, eqb x y = true <-> x = y) ->
  forall k j n l, count_of eqb k (bump eqb j n l) = (count_of eqb k l + if eqb k j then n else 0)%N.
Proof.
  intros K eqb SP k j n l. unfold count_of. induction l as [|[i m] l IH]; cbn [bump find fst].
  - destruct (eqb k j); reflexivity.
  - destruct (eqb j i) eqn:E; cbn [find fst].
    + apply SP in E. subst. destruct (eqb k i); cbn [snd]; [reflexivity|]. lia.
    + destruct (eqb k i) eqn:F; cbn [snd]; [|exact IH].
      apply SP in F. subst. destruct (eqb i j) eqn:G; [|lia]. apply SP in G. subst.
      assert (T : eqb j j = true) by (apply SP; reflexivity). congruence.
Qed.

(* How much one use counts: type conditions count as one. *)
Definition weight (n : N) (e : use) : N := match e with UCond _ _ => 1%N | _ => n end.

Section Doc.
  Context (d : doc) (OK : doc_ok d).
  Let s := schema_of d.

  (* `u'` is `u` with the uses `l` on top. *)
  Definition more (u u' : usage) (l : list use) : Prop :=
    u_increment u' = u_increment u /\
    forall e, not_left e -> count s u' e = (count s u e + weight (u_increment u) e * times e l)%N.

  Lemma more_nil : forall u, more u u nil.
  Proof. intros u. split; [reflexivity|]. intros e _. rewrite times_nil. lia. Qed.

  Lemma more_app : forall u v w l m, more u v l -> more v w m -> more u w (l ++ m).
  Proof.
    intros u v w l m [I1 H1] [I2 H2]. split; [congruence|]. intros e L. rewrite (H2 e L), (H1 e L), I1, times_app. lia.
  Qed.

  Lemma more_cons : forall u v w x m, more u v [x] -> more v w m -> more u w (x :: m).
  Proof. intros. exact (more_app u v w [x] m H H0). Qed.

  Lemma one : forall e x, times e [x] = if use_dec x e then 1%N else 0%N.
  Proof. intros e x. rewrite times_cons, times_nil. lia. Qed.

  Lemma more_field : forall u n f i, find_field s n f = Some i -> more u (register_field i u) [UField n f].
  Proof.
    intros u n f i F. split; [reflexivity|]. intros e L. rewrite one. destruct (use_dec (UField n f) e) as [<-|NE].
    - cbn [count register_field u_fields weight]. rewrite F, (count_bump _ _ Nat.eqb_eq), Nat.eqb_refl. lia.
    - destruct e as [n' f'| | | |]; cbn [count register_field u_fields u_args u_enums u_conditions]; try lia; [|contradiction].
      destruct (find_field s n' f') as [j|] eqn:G; [|lia]. rewrite (count_bump _ _ Nat.eqb_eq).
      destruct (Nat.eqb j i) eqn:E; [|lia]. apply Nat.eqb_eq in E. subst.
      destruct (field_id_inj d n f n' f' i F G) as [-> ->]. contradiction.
  Qed.

  Lemma more_arg : forall u n f q i, find_argument s n f q = Some i -> more u (register_argument i u) [UArg n f q].
  Proof.
    intros u n f q i F. split; [reflexivity|]. intros e L. rewrite one. destruct (use_dec (UArg n f q) e) as [<-|NE].
    - cbn [count register_argument u_args weight]. rewrite F, (count_bump _ _ Nat.eqb_eq), Nat.eqb_refl. lia.
    - destruct e as [|n' f' q'| | |]; cbn [count register_argument u_fields u_args u_enums u_conditions]; try lia; [|contradiction].
      destruct (find_argument s n' f' q') as [j|] eqn:G; [|lia]. rewrite (count_bump _ _ Nat.eqb_eq).
      destruct (Nat.eqb j i) eqn:E; [|lia]. apply Nat.eqb_eq in E. subst.
      apply find_argument_inv in F, G. destruct F as (x & _ & _ & X), G as (y & _ & _ & Y). rewrite X in Y.
      injection Y as -> -> -> _ _ _. contradiction.
  Qed.

  Lemma pair_refl : forall x, pair_eqb x x = true.
  Proof. intros x. apply pair_eqb_spec. reflexivity. Qed.

  Lemma more_enum : forall u n v, more u (register_enum (n, v) u) [UEnum n v].
  Proof.
    intros u n v. split; [reflexivity|]. intros e L. rewrite one. destruct (use_dec (UEnum n v) e) as [<-|NE].
    - cbn [count register_enum u_enums weight]. rewrite (count_bump _ _ pair_eqb_spec), pair_refl. lia.
    - destruct e as [| |n' v'| |]; cbn [count register_enum u_fields u_args u_enums u_conditions]; try lia; [|contradiction].
      rewrite (count_bump _ _ pair_eqb_spec). destruct (pair_eqb (n', v') (n, v)) eqn:E; [|lia].
      apply pair_eqb_spec in E. injection E as -> ->. contradiction.
  Qed.

  Lemma more_cond : forall u n v, more u (register_condition (n, v) u) [UCond n v].
  Proof.
    intros u n v. split; [reflexivity|]. intros e L. rewrite one. destruct (use_dec (UCond n v) e) as [<-|NE].
    - cbn [count register_condition u_conditions weight]. rewrite (count_bump _ _ pair_eqb_spec), pair_refl. lia.
    - destruct e as [| | |n' v'|]; cbn [count register_condition u_fields u_args u_enums u_conditions]; try lia; [|contradiction].
      rewrite (count_bump _ _ pair_eqb_spec). destruct (pair_eqb (n', v') (n, v)) eqn:E; [|lia].
      apply pair_eqb_spec in E. injection E as -> ->. contradiction.
  Qed.

  Lemma more_left_out : forall x args u, more u (left_out s x args u) nil.
  Proof.
    intros x args. unfold left_out. induction (iter_field_arguments s x) as [|p l IH]; intros u; [apply more_nil|].
    cbn [fold_left]. eapply (more_app u _ _ nil nil); [|apply IH].
    destruct (_ && _); [|apply more_nil]. split; [reflexivity|]. intros e L. rewrite times_nil.
    destruct e; cbn [count register_left_out u_fields u_args u_enums u_conditions]; try lia. contradiction.
  Qed.

  Lemma more_args : forall n f args u, exists l, ArgUses d n f args l /\ more u (fold_left (use_argument s n f) args u) l.
  Proof.
    intros n f. induction args as [|[q v] args IH]; intros u.
    - exists nil. split; [constructor|apply more_nil].
    - cbn [fold_left]. destruct (IH (use_argument s n f u (q, v))) as (l & AU & M).
      assert (G : exists k, more u (use_argument s n f u (q, v)) k /\ ArgUses d n f ((q, v) :: args) (k ++ l)).
      { unfold use_argument. cbn [fst snd]. destruct (find_argument s n f q) as [i|] eqn:F.
        - destruct (find_argument_inv d n f q i F) as (x & X & <- & NX). fold s in NX. rewrite NX. cbn [sa_base]. destruct v as [e|].
          + exists [UArg n f (i_name x); UEnum (named (i_type x)) e]. split; [|constructor; assumption].
            eapply more_cons; [apply more_arg; exact F|apply more_enum].
          + exists [UArg n f (i_name x)]. split; [apply more_arg; exact F|constructor; assumption].
        - exists nil. split; [apply more_nil|]. apply au_unknown; [|exact AU]. exact (find_argument_none d n f q F OK). }
      destruct G as (k & K & AK). exists (k ++ l). split; [exact AK|]. exact (more_app _ _ _ _ _ K M).
  Qed.

  Lemma more_list : forall fuel fs n, NoDup (map fst fs) ->
    (forall n u x u', aggregate_selection fuel s fs n u x = Some u' -> exists l, Uses d fs n [x] l /\ more u u' l) ->
    forall xs u u', fold_option (aggregate_selection fuel s fs n) xs u = Some u' -> exists l, Uses d fs n xs l /\ more u u' l.
  Proof.
    intros fuel fs n ND H. induction xs as [|x xs IH]; intros u u' F; cbn [fold_option] in F.
    - injection F as <-. exists nil. split; [constructor|apply more_nil].
    - destruct (aggregate_selection fuel s fs n u x) as [v|] eqn:E; [|discriminate].
      destruct (H _ _ _ _ E) as (l & U & M). destruct (IH _ _ F) as (m & V & W).
      exists (l ++ m). split; [|exact (more_app _ _ _ _ _ M W)]. clear - U V.
      inversion U as [|n' f args sub r l' NF R|n' f args sub r t la ls l' T AU S R|n' z r l' NF R|n' z on sub r ls l' F S R|n' on sub r ls l' S R|n' sub r ls l' S R]; subst;
        inversion R; subst; rewrite ?app_nil_r.
      + apply us_unknown; assumption.
      + cbn [app]. rewrite <- app_assoc. eapply us_field; eauto.
      + apply us_no_fragment; assumption.
      + eapply us_spread; eauto.
      + cbn [app]. eapply us_inline; eauto.
      + eapply us_block; eauto.
  Qed.

  Lemma more_selection : forall fs, NoDup (map fst fs) -> forall fuel n u x u', aggregate_selection fuel s fs n u x = Some u' ->
    exists l, Uses d fs n [x] l /\ more u u' l.
  Proof.
    intros fs ND. induction fuel as [|fuel IH]; intros n u x u' H; [discriminate|]. cbn [aggregate_selection] in H.
    destruct x as [f args sub|z|[on|] sub].
    - destruct (find_field s n f) as [i|] eqn:F.
      + destruct (find_field_inv d n f i F) as (t & T & NT). fold s in NT. rewrite NT in H. cbn [sf_base] in H.
        destruct (fold_option (aggregate_selection fuel s fs (named t)) sub (fold_left (use_argument s n f) args (register_field i u)))
          as [v|] eqn:E; [|discriminate]. cbn [option_map] in H. injection H as <-.
        destruct (more_list fuel fs (named t) ND IH _ _ _ E) as (ls & U & M).
        destruct (more_args n f args (register_field i u)) as (la & AU & MA).
        exists (UField n f :: la ++ ls ++ nil). split; [eapply us_field; eauto; constructor|].
        eapply more_cons; [apply more_field; exact F|]. eapply more_app; [exact MA|].
        eapply more_app; [exact M|apply more_left_out].
      + injection H as <-. exists nil. split; [|apply more_nil]. apply us_unknown; [|constructor].
        intros t. exact (find_field_none d n f F t OK).
    - destruct (find_fragment z fs) as [[on sub]|] eqn:F; unfold find_fragment in F.
      + destruct (find (fun p => String.eqb (fst p) z) fs) as [[y q]|] eqn:G; [|discriminate]. injection F as ->.
        apply find_some in G. destruct G as [G E]. cbn in E. apply String.eqb_eq in E. subst y.
        destruct (more_list fuel fs on ND IH _ _ _ H) as (ls & U & M). exists (ls ++ nil).
        split; [eapply us_spread; eauto; constructor|]. rewrite app_nil_r. exact M.
      + destruct (find (fun p => String.eqb (fst p) z) fs) as [[y q]|] eqn:G; [discriminate|]. injection H as <-.
        exists nil. split; [|apply more_nil]. apply us_no_fragment; [|constructor].
        intros q Q. apply (find_none _ _ G) in Q. cbn in Q. rewrite String.eqb_refl in Q. discriminate.
    - destruct (more_list fuel fs on ND IH _ _ _ H) as (ls & U & M). exists (UCond n on :: ls ++ nil).
      split; [eapply us_inline; eauto; constructor|]. rewrite app_nil_r. eapply more_cons; [apply more_cond|exact M].
    - destruct (more_list fuel fs n ND IH _ _ _ H) as (ls & U & M). exists (ls ++ nil).
      split; [eapply us_block; eauto; constructor|]. rewrite app_nil_r. exact M.
  Qed.

  Lemma more_operation : forall fuel o u u', op_ok o -> aggregate fuel s u o = Some u' -> exists l, OpUses d o l /\ more u u' l.
  Proof.
    intros fuel o u u' ND H. unfold aggregate in H.
    destruct (more_list fuel (o_fragments o) (op_root s (o_type o)) ND (more_selection _ ND fuel) _ _ _ H) as (l & U & M).
    eexists. split; [eapply ou; [apply op_root_is|exact U]|].
    eapply more_app; [|exact M]. clear. generalize u. induction (o_enums o) as [|[n v] es IH]; intros w; cbn [fold_left map fst snd].
    - apply more_nil.
    - eapply more_cons; [apply more_enum|apply IH].
  Qed.
End Doc.

(* Every operation once for each of its requests; for type conditions once. *)
Definition total (e : use) (l : list (N * list use)) : N :=
  fold_right (fun p acc => (weight (fst p) e * times e (snd p) + acc)%N) 0%N l.

(* C49: the count of a field, argument, value or type condition is the number of
   times that the operations use it, each counted with its number of requests
   (but for type conditions). *)
Theorem C49_counts : forall d fuel ops u, doc_ok d ->
  (forall n o, In (n, o) ops -> op_ok o) ->
  aggregate_all fuel (schema_of d) ops = Some u ->
  exists uses, Forall2 (fun p l => OpUses d (snd p) l) ops uses /\
    forall e, not_left e -> count (schema_of d) u e = total e (combine (map fst ops) uses).
Proof.
  intros d fuel ops u OK OPS H. unfold aggregate_all in H.
  assert (G : forall v, fold_option (fun u p => aggregate fuel (schema_of d) (set_increment (fst p) u) (snd p)) ops v = Some u ->
    exists uses, Forall2 (fun p l => OpUses d (snd p) l) ops uses /\
    forall e, not_left e -> count (schema_of d) u e = (count (schema_of d) v e + total e (combine (map fst ops) uses))%N).
  { clear H. induction ops as [|[n o] ops IH]; intros v F; cbn [fold_option fst snd] in F.
    - injection F as <-. exists nil. split; [constructor|]. intros e _. cbn. lia.
    - destruct (aggregate fuel (schema_of d) (set_increment n v) o) as [w|] eqn:E; [|discriminate].
      destruct (more_operation d OK fuel o _ _ (OPS n o (or_introl eq_refl)) E) as (l & U & _ & M).
      destruct (IH (fun m q Q => OPS m q (or_intror Q)) w F) as (uses & US & C).
      exists (l :: uses). split; [constructor; assumption|]. intros e L. rewrite (C e L), (M e L).
      cbn [map combine total fold_right fst snd]. cbn [set_increment u_increment]. fold (total e (combine (map fst ops) uses)).
      assert (EQ : count (schema_of d) (set_increment n v) e = count (schema_of d) v e) by (destruct e; reflexivity).
      rewrite EQ. lia. }
  destruct (G no_usage H) as (uses & US & C). exists uses. split; [exact US|]. intros e L. rewrite (C e L).
  assert (Z : count (schema_of d) no_usage e = 0%N).
  { destruct e; cbn [count no_usage u_fields u_args u_enums u_conditions u_left_out];
      repeat match goal with |- context [match ?x with Some _ => _ | None => _ end] => destruct x end; reflexivity. }
  rewrite Z. lia.
Qed.

(** Thresholds *)
Definition distinct {K} (l : list (K * N)) : Prop := NoDup (map fst l).

Record usage_ok (u : usage) : Prop := {
  uo_fields : distinct (u_fields u);
  uo_args : distinct (u_args u);
  uo_enums : distinct (u_enums u);
  uo_left : distinct (u_left_out u);
  uo_conds : distinct (u_conditions u) }.

Lemma bump_distinct : forall K (eqb : K -> K -> bool), (forall x y, eqb x y = true <-> x = y) ->
  forall k n l, distinct l -> distinct (bump eqb k n l).
Proof.
  intros K eqb SP k n l. unfold distinct. induction l as [|[j m] l IH]; intros D; cbn [bump map fst].
  - constructor; [intros []|constructor].
  - cbn [map fst] in D. inversion D as [|? ? NI D']; subst. destruct (eqb k j) eqn:E; cbn [map fst]; [exact D|].
    constructor; [|auto]. intros H. apply NI. clear - SP H E. induction l as [|[i p] l IH]; cbn [bump map fst] in H |- *.
    + destruct H as [->|[]]. assert (T : eqb j j = true) by (apply SP; reflexivity). congruence.
    + destruct (eqb k i); cbn [map fst] in H; [exact H|]. destruct H as [H|H]; [left; exact H|right; auto].
Qed.

Lemma keep_count : forall K (eqb : K -> K -> bool), (forall x y, eqb x y = true <-> x = y) ->
  forall t k l, distinct l ->
  count_of eqb k (filter (fun p => N.leb t (snd p)) l) = (if N.leb t (count_of eqb k l) then count_of eqb k l else 0)%N /\
  (contains eqb k (filter (fun p => N.leb t (snd p)) l) = true <-> contains eqb k l = true /\ (t <= count_of eqb k l)%N).
Proof.
  intros K eqb SP t k l D. unfold count_of, contains. induction l as [|[j m] l IH]; cbn [filter find existsb fst snd].
  - split; [destruct (N.leb t 0); reflexivity|]. split; [discriminate|intros [F _]; discriminate].
  - unfold distinct in *. cbn [map fst] in D. inversion D as [|? ? NI D']; subst. destruct (IH D') as [C P].
    destruct (eqb k j) eqn:E.
    + apply SP in E. subst. cbn [snd orb].
      assert (NF : find (fun p => eqb j (fst p)) (filter (fun p => N.leb t (snd p)) l) = None).
      { destruct (find _ _) as [p|] eqn:F; [|reflexivity]. exfalso. apply find_some in F. destruct F as [F G].
        apply SP in G. subst. apply NI. apply filter_In in F. apply in_map. tauto. }
      assert (NC : existsb (fun p => eqb j (fst p)) (filter (fun p => N.leb t (snd p)) l) = false).
      { apply not_true_iff_false. intros F. apply existsb_exists in F. destruct F as (p & F & G).
        apply SP in G. subst. apply NI. apply filter_In in F. apply in_map. tauto. }
      destruct (N.leb t m) eqn:L; cbn [find existsb fst].
      * assert (T : eqb j j = true) by (apply SP; reflexivity). rewrite T. cbn [snd orb].
        split; [reflexivity|]. apply N.leb_le in L. tauto.
      * rewrite NF, NC. split; [reflexivity|]. apply N.leb_gt in L. split; [discriminate|]. intros [_ G]. lia.
    + destruct (N.leb t m); cbn [find existsb fst]; rewrite ?E; cbn [orb]; auto.
Qed.

Section Distinct.
  Context (s : schema).

  Lemma ok_fold : forall A (f : usage -> A -> usage), (forall u x, usage_ok u -> usage_ok (f u x)) ->
    forall l u, usage_ok u -> usage_ok (fold_left f l u).
  Proof. intros A f H. induction l as [|x l IH]; intros u U; [exact U|]. cbn. auto. Qed.

  Lemma ok_register : forall u, usage_ok u -> forall i k,
    usage_ok (register_field i u) /\ usage_ok (register_argument i u) /\ usage_ok (register_left_out i u) /\
    usage_ok (register_enum k u) /\ usage_ok (register_condition k u).
  Proof.
    intros u [F A E L C] i k.
    repeat match goal with |- _ /\ _ => split end; constructor;
      cbn [register_field register_argument register_left_out register_enum register_condition u_fields u_args u_enums u_left_out u_conditions];
      try assumption; apply bump_distinct; try assumption; [apply Nat.eqb_eq|apply Nat.eqb_eq|apply Nat.eqb_eq|apply pair_eqb_spec|apply pair_eqb_spec].
  Qed.

  Lemma ok_args : forall n f u x, usage_ok u -> usage_ok (use_argument s n f u x).
  Proof.
    intros n f u x U. unfold use_argument. destruct (find_argument s n f (fst x)) as [i|]; [|exact U].
    pose proof (proj1 (proj2 (ok_register u U i ("", "")))) as V.
    destruct (snd x); [|exact V]. destruct (nth_error (s_args s) i); [|exact V]. apply (ok_register _ V i).
  Qed.

  Lemma ok_left : forall x args u, usage_ok u -> usage_ok (left_out s x args u).
  Proof.
    intros x args u U. apply ok_fold; [|exact U]. intros v p V. destruct (_ && _); [|exact V]. apply (ok_register v V (fst p) ("", "")).
  Qed.

  Lemma ok_option : forall A (f : usage -> A -> option usage) l, (forall u x u', usage_ok u -> f u x = Some u' -> usage_ok u') ->
    forall u u', usage_ok u -> fold_option f l u = Some u' -> usage_ok u'.
  Proof.
    intros A f l H. induction l as [|x l IH]; intros u u' U F; cbn [fold_option] in F; [congruence|].
    destruct (f u x) eqn:E; [|discriminate]. eauto.
  Qed.

  Lemma ok_selection : forall fs fuel n u x u', usage_ok u -> aggregate_selection fuel s fs n u x = Some u' -> usage_ok u'.
  Proof.
    intros fs. induction fuel as [|fuel IH]; intros n u x u' U H; [discriminate|]. cbn [aggregate_selection] in H.
    destruct x as [f args sub|z|[on|] sub].
    - destruct (find_field s n f) as [i|]; [|congruence]. destruct (nth_error (s_fields s) i) as [y|]; [|congruence].
      destruct (fold_option _ sub _) as [v|] eqn:E; [|discriminate]. cbn [option_map] in H. injection H as <-.
      apply ok_left. eapply ok_option; [|  |exact E]; [intros; eapply IH; eauto|].
      apply ok_fold; [intros; apply ok_args; assumption|]. apply (ok_register u U i ("", "")).
    - destruct (find_fragment z fs) as [[on sub]|]; [|congruence]. eapply ok_option; [|exact U|exact H]. intros; eapply IH; eauto.
    - eapply ok_option; [| |exact H]; [intros; eapply IH; eauto|]. apply (ok_register u U 0).
    - eapply ok_option; [|exact U|exact H]. intros; eapply IH; eauto.
  Qed.

  Lemma ok_all : forall fuel ops u, aggregate_all fuel s ops = Some u -> usage_ok u.
  Proof.
    intros fuel ops u H. unfold aggregate_all in H. eapply ok_option; [| |exact H].
    - intros v [n o] w V E. unfold aggregate in E. cbn [fst snd] in E. eapply ok_option; [| |exact E].
      + intros; eapply ok_selection; eauto.
      + apply ok_fold; [|destruct V; constructor; assumption]. intros v' k V'. apply (ok_register v' V' 0 k).
    - constructor; constructor.
  Qed.
End Distinct.

(* C49: with a threshold, exactly that is still counted whose count reaches it. *)
Theorem C49_threshold : forall d fuel ops u t, aggregate_all fuel (schema_of d) ops = Some u ->
  forall e, counted (schema_of d) (apply_threshold t u) e <->
            counted (schema_of d) u e /\ (t <= count (schema_of d) u e)%N.
Proof.
  intros d fuel ops u t H e. destruct (ok_all _ _ _ _ H) as [F A E L C].
  destruct e as [n f|n f q|n v|n on|n f q]; cbn [counted count apply_threshold u_fields u_args u_enums u_left_out u_conditions].
  - destruct (find_field (schema_of d) n f) as [i|].
    + destruct (keep_count _ _ Nat.eqb_eq t i _ F) as [_ K]. split.
      * intros (j & [= <-] & X). apply K in X. destruct X. split; [eauto|assumption].
      * intros [(j & [= <-] & X) T]. exists i. split; [reflexivity|]. apply K. auto.
    + split; [intros (j & [=] & _)|intros [(j & [=] & _) _]].
  - destruct (find_argument (schema_of d) n f q) as [i|].
    + destruct (keep_count _ _ Nat.eqb_eq t i _ A) as [_ K]. split.
      * intros (j & [= <-] & X). apply K in X. destruct X. split; [eauto|assumption].
      * intros [(j & [= <-] & X) T]. exists i. split; [reflexivity|]. apply K. auto.
    + split; [intros (j & [=] & _)|intros [(j & [=] & _) _]].
  - apply (keep_count _ _ pair_eqb_spec t (n, v) _ E).
  - apply (keep_count _ _ pair_eqb_spec t (n, on) _ C).
  - destruct (find_argument (schema_of d) n f q) as [i|].
    + destruct (keep_count _ _ Nat.eqb_eq t i _ L) as [_ K]. split.
      * intros (j & [= <-] & X). apply K in X. destruct X. split; [eauto|assumption].
      * intros [(j & [= <-] & X) T]. exists i. split; [reflexivity|]. apply K. auto.
    + split; [intros (j & [=] & _)|intros [(j & [=] & _) _]].
Qed.
