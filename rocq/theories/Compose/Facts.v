(* Facts about the helpers of the model: groups of the same name, distinct
   elements. *)
From Coq Require Import String List Bool Arith Permutation Sorted.
From Verif.SchemaDiff Require Import Search.
From Verif.Compose Require Import Model.
Import ListNotations.
Local Open Scope string_scope.
Local Open Scope list_scope.

Lemma str_leb_total : forall x y, str_leb x y = true \/ str_leb y x = true.
Proof. intros x y. unfold str_leb. rewrite (compare_flip y x). destruct (String.compare x y); cbn; auto. Qed.

Lemma str_leb_refl : forall x, str_leb x x = true.
Proof. intros x. unfold str_leb. rewrite compare_refl. reflexivity. Qed.

Lemma str_leb_trans : forall x y z, str_leb x y = true -> str_leb y z = true -> str_leb x z = true.
Proof.
  intros x y z. unfold str_leb. destruct (String.compare x y) eqn:E; try discriminate.
  - apply compare_eq in E. subst. auto.
  - destruct (String.compare y z) eqn:F; try discriminate.
    + apply compare_eq in F. subst. rewrite E. auto.
    + rewrite (compare_trans_lt _ _ _ E F). auto.
Qed.

Lemma str_leb_antisym : forall x y, str_leb x y = true -> str_leb y x = true -> x = y.
Proof.
  intros x y. unfold str_leb. rewrite (compare_flip y x).
  destruct (String.compare x y) eqn:E; cbn; try discriminate. intros _ _. apply compare_eq. exact E.
Qed.

Lemma mem_in : forall n l, mem n l = true <-> In n l.
Proof.
  intros. unfold mem. rewrite existsb_exists. split.
  - intros (x & I & E). apply String.eqb_eq in E. subst. exact I.
  - intros I. exists n. split; [exact I|apply String.eqb_refl].
Qed.

Lemma mem_not_in : forall n l, mem n l = false <-> ~ In n l.
Proof. intros. rewrite <- mem_in. destruct (mem n l); split; congruence. Qed.

Section distinct.
  Context {A : Type} (eqb : A -> A -> bool).
  Hypothesis eqb_eq : forall x y, eqb x y = true <-> x = y.

  Lemma existsb_eqb : forall x l, existsb (eqb x) l = true <-> In x l.
  Proof.
    intros. rewrite existsb_exists. split.
    - intros (y & I & E). apply eqb_eq in E. subst. exact I.
    - intros I. exists x. split; [exact I|]. apply eqb_eq. reflexivity.
  Qed.

  Lemma distinct_in : forall l x, In x (distinct eqb l) <-> In x l.
  Proof.
    induction l as [|y l IH]; intros x; cbn [distinct]; [reflexivity|].
    destruct (existsb (eqb y) l) eqn:E.
    - rewrite IH. cbn. split; [auto|]. intros [->|H]; [|exact H]. apply existsb_eqb. exact E.
    - cbn. rewrite IH. reflexivity.
  Qed.

  Lemma distinct_nodup : forall l, NoDup (distinct eqb l).
  Proof.
    induction l as [|y l IH]; cbn [distinct]; [constructor|].
    destruct (existsb (eqb y) l) eqn:E; [exact IH|]. constructor; [|exact IH].
    rewrite distinct_in. intros I. apply existsb_eqb in I. congruence.
  Qed.
End distinct.

Lemma names_eqb_eq : forall l m, names_eqb l m = true <-> l = m.
Proof.
  induction l as [|x l IH]; intros [|y m]; cbn [names_eqb]; try (split; congruence).
  rewrite andb_true_iff, String.eqb_eq, IH. split; [intros (-> & ->); reflexivity|]. intros [= -> ->]. auto.
Qed.

Section groups.
  Context {A : Type} (k : A -> name).

  Definition sel (l : list A) (n : name) : list A := filter (fun x => String.eqb (k x) n) l.

  Lemma sel_insert : forall n x l,
    sel (insert (fun a b => str_leb (k a) (k b)) x l) n = sel (x :: l) n.
  Proof.
    intros n x. induction l as [|y l IH]; [reflexivity|]. cbn [insert].
    destruct (str_leb (k x) (k y)) eqn:E; [reflexivity|].
    unfold sel in *. cbn [filter] in *. rewrite IH.
    destruct (String.eqb (k y) n) eqn:Y; destruct (String.eqb (k x) n) eqn:X; try reflexivity.
    apply String.eqb_eq in X, Y. rewrite X, Y, str_leb_refl in E. discriminate.
  Qed.

  Lemma sel_sort : forall n l, sel (sort (fun a b => str_leb (k a) (k b)) l) n = sel l n.
  Proof.
    intros n. induction l as [|x l IH]; [reflexivity|]. cbn [sort fold_right].
    fold (sort (fun a b => str_leb (k a) (k b)) l). rewrite sel_insert.
    unfold sel in *. cbn [filter]. rewrite IH. reflexivity.
  Qed.

  Lemma sel_none : forall l n, ~ In n (map k l) -> sel l n = nil.
  Proof.
    induction l as [|x l IH]; intros n H; [reflexivity|]. cbn in *.
    destruct (String.eqb (k x) n) eqn:E; [apply String.eqb_eq in E; tauto|]. apply IH. tauto.
  Qed.

  Lemma sel_in : forall l n x, In x (sel l n) <-> In x l /\ k x = n.
  Proof. intros. unfold sel. rewrite filter_In, String.eqb_eq. reflexivity. Qed.

  Lemma chunks_sorted : forall l, StronglySorted (fun a b => str_leb (k a) (k b) = true) l ->
    exists ns, chunk_by k l = map (sel l) ns /\ NoDup ns /\ (forall n, In n ns <-> In n (map k l)) /\
      match l with nil => ns = nil | x :: _ => exists ns', ns = k x :: ns' end.
  Proof.
    induction l as [|x l IH]; intros SS.
    - exists nil. split; [reflexivity|]. split; [constructor|]. split; [reflexivity|reflexivity].
    - apply StronglySorted_inv in SS. destruct SS as (SS & F).
      destruct (IH SS) as (ns & E & ND & M & HD). cbn [chunk_by]. rewrite E. clear IH E.
      destruct l as [|y l].
      + subst ns. exists [k x]. split; [cbn; rewrite String.eqb_refl; reflexivity|].
        split; [constructor; [easy|constructor]|]. split; [intros n; cbn; tauto|]. exists nil. reflexivity.
      + destruct HD as (ns' & ->). cbn [map].
        assert (HY : sel (y :: l) (k y) = y :: sel l (k y)) by (unfold sel; cbn; rewrite String.eqb_refl; reflexivity).
        rewrite HY. destruct (String.eqb (k x) (k y)) eqn:XY.
        * apply String.eqb_eq in XY. exists (k y :: ns'). split.
          -- cbn [map]. f_equal.
             ++ unfold sel. cbn. rewrite XY, String.eqb_refl. reflexivity.
             ++ apply map_ext_in. intros n I. unfold sel. cbn [filter].
                destruct (String.eqb (k x) n) eqn:XN; [|reflexivity].
                apply String.eqb_eq in XN. inversion ND; subst. congruence.
          -- split; [exact ND|]. split.
             ++ intros n. rewrite M. cbn. rewrite XY. tauto.
             ++ exists ns'. rewrite XY. reflexivity.
        * apply String.eqb_neq in XY.
          assert (NX : ~ In (k x) (map k (y :: l))).
          { intros I. apply in_map_iff in I. destruct I as (z & Z & I).
            destruct I as [->|I]; [congruence|].
            apply StronglySorted_inv in SS. destruct SS as (_ & FY).
            pose proof (proj1 (Forall_forall _ _) FY z I) as LY. cbn beta in LY.
            pose proof (proj1 (Forall_forall _ _) F y (or_introl eq_refl)) as LX. cbn beta in LX.
            rewrite Z in LY. apply XY. apply str_leb_antisym; assumption. }
          exists (k x :: k y :: ns'). split.
          -- cbn [map]. f_equal.
             ++ unfold sel. cbn [filter]. rewrite String.eqb_refl. f_equal. symmetry. apply (sel_none (y :: l)). exact NX.
             ++ rewrite <- HY. change (map (sel (y :: l)) (k y :: ns') = map (sel (x :: y :: l)) (k y :: ns')).
                apply map_ext_in. intros n I. unfold sel. cbn [filter].
                destruct (String.eqb (k x) n) eqn:XN; [|reflexivity].
                apply String.eqb_eq in XN. subst n. apply M in I. contradiction.
          -- split; [constructor; [rewrite M; exact NX|exact ND]|]. split.
             ++ intros n. cbn [In map]. cbn [In map] in M. specialize (M n). tauto.
             ++ exists (k y :: ns'). reflexivity.
  Qed.

  (* The groups are, for every name, what has the name, in order. *)
  Lemma groups_spec : forall l, exists ns,
    groups k l = map (sel l) ns /\ NoDup ns /\ (forall n, In n ns <-> In n (map k l)).
  Proof.
    intros l. unfold groups.
    destruct (chunks_sorted (sort (fun a b => str_leb (k a) (k b)) l)) as (ns & E & ND & M & _).
    { apply sort_sorted.
      - intros x y. apply str_leb_total.
      - intros x y z. apply str_leb_trans. }
    exists ns. split.
    - rewrite E. apply map_ext. intros n. apply sel_sort.
    - split; [exact ND|]. intros n. rewrite M. rewrite !in_map_iff. setoid_rewrite sort_in. reflexivity.
  Qed.

  Lemma groups_in : forall l c, In c (groups k l) -> exists x, c = sel l (k x) /\ hd_error c = Some x /\ In x l.
  Proof.
    intros l c I. destruct (groups_spec l) as (ns & E & _ & M). rewrite E in I.
    apply in_map_iff in I. destruct I as (n & <- & I). apply M, in_map_iff in I.
    destruct I as (z & <- & I).
    destruct (sel l (k z)) as [|x c] eqn:S.
    - exfalso. assert (In z (sel l (k z))) by (apply sel_in; auto). rewrite S in H. contradiction.
    - assert (J : In x (sel l (k z))) by (rewrite S; left; reflexivity).
      apply sel_in in J. destruct J as (J & KX). exists x. rewrite KX. split; [auto|]. split; [reflexivity|exact J].
  Qed.

  Lemma groups_has : forall l x, In x l -> In (sel l (k x)) (groups k l).
  Proof.
    intros l x I. destruct (groups_spec l) as (ns & E & _ & M). rewrite E. apply in_map. apply M. apply in_map. exact I.
  Qed.
End groups.

Lemma find_some_in : forall A (p : A -> bool) l x, find p l = Some x -> In x l /\ p x = true.
Proof. intros. apply find_some. assumption. Qed.

(* Lookup by a name that only one element has. *)
Lemma find_unique : forall A (k : A -> name) l x, NoDup (map k l) -> In x l ->
  find (fun y => String.eqb (k x) (k y)) l = Some x.
Proof.
  intros A k. induction l as [|y l IH]; intros x ND I; [contradiction|]. cbn in *. inversion ND; subst.
  destruct I as [->|I]; [rewrite String.eqb_refl; reflexivity|].
  destruct (String.eqb (k x) (k y)) eqn:E; [|apply IH; assumption].
  apply String.eqb_eq in E. exfalso. apply H1. rewrite <- E. apply in_map. exact I.
Qed.

Lemma find_key_none : forall A (k : A -> name) l n, ~ In n (map k l) -> find (fun y => String.eqb n (k y)) l = None.
Proof.
  intros A k. induction l as [|y l IH]; intros n H; [reflexivity|]. cbn in *.
  destruct (String.eqb n (k y)) eqn:E; [apply String.eqb_eq in E; subst; tauto|]. apply IH. tauto.
Qed.
