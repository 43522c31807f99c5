(** The order: the loops end, and what stays true while they turn. *)
From Coq Require Import String List ZArith Bool Lia PeanoNat.
From Verif.ExtArgs Require Import Model.
From Verif.Defaults Require Import Model Spec Coerced.
Import ListNotations.
Local Open Scope nat_scope.
Local Open Scope list_scope.

Lemma mem_in : forall n l, mem n l = true <-> In n l.
Proof.
  intros n l. unfold mem. rewrite existsb_exists. split.
  - intros (x & I & E). apply Nat.eqb_eq in E. now subst x.
  - intro I. exists n. split; [exact I|apply Nat.eqb_refl].
Qed.

Lemma mem_out : forall n l, mem n l = false <-> ~ In n l.
Proof. intros n l. rewrite <- mem_in. destruct (mem n l); split; congruence. Qed.

Lemma left_settle : forall g id s x, In x (left (settle g id s)) <-> In x (left s) /\ x <> id.
Proof.
  intros g id s x. unfold settle. destruct (mem id (left s)) eqn:M.
  - assert (F : In x (filter (fun n => negb (Nat.eqb n id)) (left s)) <-> In x (left s) /\ x <> id).
    { rewrite filter_In. rewrite negb_true_iff, Nat.eqb_neq. reflexivity. }
    destruct (bind _ _); exact F.
  - apply mem_out in M. split; [|tauto]. intro I. split; [exact I|]. intros ->. contradiction.
Qed.

Lemma left_settle_nodup : forall g id s, NoDup (left s) -> NoDup (left (settle g id s)).
Proof.
  intros g id s H. unfold settle. destruct (mem id (left s)); [|exact H]. destruct (bind _ _); cbn [left]; now apply NoDup_filter.
Qed.

Lemma seen_settle : forall g id s, seen (settle g id s) = seen s.
Proof. intros g id s. unfold settle. destruct (mem id (left s)); [|reflexivity]. destruct (bind _ _); reflexivity. Qed.

Definition see (o : nat) (s : state) : state := {| left := left s; seen := o :: seen s; table := table s; errors := errors s |}.

Section Order.
  Variable g : graph.
  Notation fields_of := (fun o => field_ids (object_at g o)).
  Hypothesis kinds : forall id o, d_kind (input g id) = KObject o -> o < List.length (objects g).

  (** What the objects not seen yet can add to the stack. *)
  Definition weigh (sn : list nat) (l : list nat) : nat :=
    fold_right (fun o n => (if mem o sn then 0 else S (List.length (fields_of o))) + n) 0 l.

  Lemma weigh_other : forall o sn l, ~ In o l -> weigh (o :: sn) l = weigh sn l.
  Proof.
    intros o sn. induction l as [|x l IH]; intro N; [reflexivity|]. cbn [weigh fold_right]. cbn [weigh] in IH.
    fold (weigh (o :: sn) l). fold (weigh sn l). rewrite IH by (intro J; apply N; now right). f_equal.
    unfold mem. cbn [existsb]. replace (Nat.eqb x o) with false; [reflexivity|]. symmetry. apply Nat.eqb_neq. intros ->. apply N. now left.
  Qed.

  Lemma weigh_seen : forall o sn l, NoDup l -> In o l -> ~ In o sn ->
    weigh (o :: sn) l + S (List.length (fields_of o)) = weigh sn l.
  Proof.
    intros o sn. induction l as [|x l IH]; intros ND I N; [contradiction|]. inversion ND as [|? ? N1 N2]. subst.
    cbn [weigh fold_right]. fold (weigh (o :: sn) l). fold (weigh sn l). destruct I as [->|I].
    - rewrite weigh_other by exact N1. replace (mem o (o :: sn)) with true by (symmetry; apply mem_in; now left).
      replace (mem o sn) with false by (symmetry; now apply mem_out). lia.
    - rewrite <- (IH N2 I N). assert (NE : x <> o) by (intros ->; contradiction).
      replace (mem x (o :: sn)) with (mem x sn); [lia|]. unfold mem. cbn [existsb]. replace (Nat.eqb x o) with false; [reflexivity|].
      symmetry. now apply Nat.eqb_neq.
  Qed.

  Lemma weigh_most : forall sn l, weigh sn l <= weigh [] l.
  Proof.
    intro sn. induction l as [|x l IH]; [apply Nat.le_refl|]. cbn [weigh fold_right]. fold (weigh sn l). fold (weigh [] l).
    unfold mem at 2. cbn [existsb]. destruct (mem x sn); lia.
  Qed.

  Section Invariant.
    Variable I : list nat -> state -> Prop.
    Hypothesis I_settle : forall id rest s, I (id :: rest) s -> (forall o, d_kind (input g id) = KObject o -> In o (seen s)) ->
      I rest (settle g id s).
    Hypothesis I_see : forall id rest s o, I (id :: rest) s -> d_kind (input g id) = KObject o -> ~ In o (seen s) ->
      I (rev (fields_of o) ++ id :: rest) (see o s).

    Lemma inner_keeps : forall fuel stack s, List.length stack + weigh (seen s) (seq 0 (List.length (objects g))) < fuel -> I stack s ->
      exists s', inner fuel g stack s = Some s' /\ I [] s'.
    Proof.
      induction fuel as [|fuel IH]; intros stack s M H; [lia|]. cbn [inner]. destruct stack as [|id rest]; [now exists s|].
      cbn [List.length] in M.
      assert (SET : (forall o, d_kind (input g id) = KObject o -> In o (seen s)) ->
        exists s', inner fuel g rest (settle g id s) = Some s' /\ I [] s').
      { intro K. apply IH; [rewrite seen_settle; lia|]. now apply I_settle. }
      destruct (d_kind (input g id)) as [sc|vs|o] eqn:K; [apply SET; discriminate|apply SET; discriminate|].
      destruct (mem o (seen s)) eqn:E.
      - apply SET. intros o' X. injection X as <-. now apply mem_in.
      - apply mem_out in E. apply (IH _ (see o s)); [|exact (I_see id rest s o H K E)]. cbn [see seen].
        rewrite app_length, rev_length. cbn [List.length].
        pose proof (weigh_seen o (seen s) (seq 0 (List.length (objects g))) (seq_NoDup _ _)) as W.
        assert (In o (seq 0 (List.length (objects g)))) by (apply in_seq; split; [lia|]; cbn; exact (kinds id o K)).
        specialize (W H0 E). cbn beta in W. lia.
    Qed.
  End Invariant.

  Lemma turns_enough : forall (id : nat) s, List.length [id] + weigh (seen s) (seq 0 (List.length (objects g))) < turns g.
  Proof.
    intros id s. pose proof (weigh_most (seen s) (seq 0 (List.length (objects g)))) as W. cbn [List.length]. unfold turns.
    assert (E : weigh [] (seq 0 (List.length (objects g))) =
      fold_right (fun o n => S (List.length (field_ids (object_at g o))) + n) 0 (seq 0 (List.length (objects g)))) by reflexivity.
    lia.
  Qed.

  Section Outer.
    Variable pick : nat -> list nat -> nat.
    Hypothesis picks : forall n l, l <> [] -> In (pick n l) l.
    Variable I : list nat -> state -> Prop.
    Hypothesis I_settle : forall id rest s, I (id :: rest) s -> (forall o, d_kind (input g id) = KObject o -> In o (seen s)) ->
      I rest (settle g id s).
    Hypothesis I_see : forall id rest s o, I (id :: rest) s -> d_kind (input g id) = KObject o -> ~ In o (seen s) ->
      I (rev (fields_of o) ++ id :: rest) (see o s).
    Hypothesis I_start : forall id s, I [] s -> In id (left s) -> I [id] s.

    Lemma outer_keeps : forall fuel s, List.length (left s) <= fuel -> NoDup (left s) -> I [] s ->
      exists s', outer fuel pick g s = Some s' /\ left s' = [] /\ I [] s'.
    Proof.
      induction fuel as [|fuel IH]; intros s L ND H.
      - destruct (left s) as [|x l] eqn:E; [|cbn in L; lia]. exists s. cbn [outer]. rewrite E. auto.
      - cbn [outer]. destruct (left s) as [|x l] eqn:E; [exists s; auto|]. rewrite <- E in *.
        assert (NE : left s <> []) by congruence. pose proof (picks (S fuel) (left s) NE) as PI.
        set (p := pick (S fuel) (left s)) in *.
        destruct (inner_keeps (fun stack s' => I stack s' /\ NoDup (left s') /\ incl (left s') (left s) /\ (In p stack \/ ~ In p (left s'))))
          with (fuel := turns g) (stack := [p]) (s := s) as (s' & R & J1 & J2 & J3 & J4).
        + intros id rest t (A1 & A2 & A3 & A4) K. split; [now apply I_settle|]. split; [now apply left_settle_nodup|]. split.
          * intros y Y. apply left_settle in Y. now apply A3.
          * destruct A4 as [[->|A4]|A4]; [right|now left|right].
            -- intro Y. apply left_settle in Y. now destruct Y.
            -- intro Y. apply left_settle in Y. now destruct Y.
        + intros id rest t o (A1 & A2 & A3 & A4) K N. split; [now apply I_see|]. split; [exact A2|]. split; [exact A3|].
          destruct A4 as [A4|A4]; [left|now right]. apply in_or_app. now right.
        + apply turns_enough.
        + split; [now apply I_start|]. split; [exact ND|]. split; [apply incl_refl|]. left. now left.
        + rewrite R. cbn [bind]. destruct J4 as [[]|J4].
          assert (NoDup (p :: left s')) by now constructor.
          assert (incl (p :: left s') (left s)) by (intros y [<-|Y]; [exact PI|now apply J3]).
          pose proof (NoDup_incl_length H0 H1) as LL. cbn [List.length] in LL.
          apply IH; [lia|exact J2|exact J1].
    Qed.
  End Outer.
End Order.
