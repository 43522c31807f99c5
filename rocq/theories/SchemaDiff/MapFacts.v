(* Facts about the maps of the comparison of schemas (Diff.v). *)
From Coq Require Import String List Bool Arith Lia.
Import ListNotations.
From Verif.SchemaDiff Require Import Ast Search Diff.

Section Maps.
  Context {K V : Type} (eqb : K -> K -> bool) (EQ : forall x y, eqb x y = true <-> x = y).

  Notation emap := (list (entry (K := K) (V := V))).

  (* The value that the last of the entries gives to a key. *)
  Definition last_of (k : K) (l : list (K * V)) : option V :=
    fold_left (fun acc kv => if eqb (fst kv) k then Some (snd kv) else acc) l None.

  Lemma eqb_refl : forall k, eqb k k = true.
  Proof. intros. apply EQ. reflexivity. Qed.

  Lemma eqb_neq : forall x y, eqb x y = false <-> x <> y.
  Proof.
    intros. split.
    - intros E ->. rewrite eqb_refl in E. discriminate.
    - intros N. destruct (eqb x y) eqn:E; auto. apply EQ in E. contradiction.
  Qed.

  Lemma lookup_insert : forall k k' v (m : emap),
    lookup eqb k (insert_source eqb k' v m) = if eqb k' k then Some (Some v, None) else lookup eqb k m.
  Proof.
    induction m as [|[q e] m IH]; cbn; [reflexivity|].
    destruct (eqb q k') eqn:Q; cbn.
    - apply EQ in Q. subst q. destruct (eqb k' k) eqn:E; reflexivity.
    - destruct (eqb q k) eqn:E.
      + apply EQ in E. subst q. destruct (eqb k' k) eqn:E'; auto.
        apply EQ in E'. subst. rewrite eqb_refl in Q. discriminate.
      + exact IH.
  Qed.

  Lemma lookup_merge : forall k k' v (m : emap),
    lookup eqb k (merge_target eqb k' v m) =
    if eqb k' k then Some (match lookup eqb k m with Some e => fst e | None => None end, Some v) else lookup eqb k m.
  Proof.
    induction m as [|[q e] m IH]; cbn; [reflexivity|].
    destruct (eqb q k') eqn:Q; cbn.
    - apply EQ in Q. subst q. destruct (eqb k' k) eqn:E; reflexivity.
    - destruct (eqb q k) eqn:E.
      + apply EQ in E. subst q. destruct (eqb k' k) eqn:E'; auto.
        apply EQ in E'. subst. rewrite eqb_refl in Q. discriminate.
      + exact IH.
  Qed.

  Lemma keys_insert : forall k v (m : emap), NoDup (map fst m) ->
    NoDup (map fst (insert_source eqb k v m)) /\
    forall q, In q (map fst (insert_source eqb k v m)) -> q = k \/ In q (map fst m).
  Proof.
    induction m as [|[q e] m IH]; cbn; intros ND.
    - split; [constructor; [intros []|constructor]|]. intros q [<-|[]]. auto.
    - inversion ND; subst. destruct (IH H2) as [A B]. destruct (eqb q k) eqn:E; cbn.
      + split; [constructor; auto|]. intros x [<-|X]; auto.
      + split.
        * constructor; [|exact A]. intros X. destruct (B _ X) as [->|X']; [|contradiction].
          rewrite eqb_refl in E. discriminate.
        * intros x [<-|X]; auto. destruct (B _ X); auto.
  Qed.

  Lemma keys_merge : forall k v (m : emap), NoDup (map fst m) ->
    NoDup (map fst (merge_target eqb k v m)) /\
    forall q, In q (map fst (merge_target eqb k v m)) -> q = k \/ In q (map fst m).
  Proof.
    induction m as [|[q e] m IH]; cbn; intros ND.
    - split; [constructor; [intros []|constructor]|]. intros q [<-|[]]. auto.
    - inversion ND; subst. destruct (IH H2) as [A B]. destruct (eqb q k) eqn:E; cbn.
      + split; [constructor; auto|]. intros x [<-|X]; auto.
      + split.
        * constructor; [|exact A]. intros X. destruct (B _ X) as [->|X']; [|contradiction].
          rewrite eqb_refl in E. discriminate.
        * intros x [<-|X]; auto. destruct (B _ X); auto.
  Qed.

  Definition insert_all (l : list (K * V)) (m : emap) : emap :=
    fold_left (fun m kv => insert_source eqb (fst kv) (snd kv) m) l m.
  Definition merge_all (l : list (K * V)) (m : emap) : emap :=
    fold_left (fun m kv => merge_target eqb (fst kv) (snd kv) m) l m.

  Definition last_from (k : K) (l : list (K * V)) (o : option V) : option V :=
    fold_left (fun acc kv => if eqb (fst kv) k then Some (snd kv) else acc) l o.

  Lemma last_from_cases : forall k l o,
    last_from k l o = match last_of k l with Some v => Some v | None => o end.
  Proof.
    intros k l. unfold last_of, last_from. induction l as [|[q v] l IH] using rev_ind; intros o; [reflexivity|].
    rewrite !fold_left_app. cbn. destruct (eqb q k); [reflexivity|]. apply IH.
  Qed.

  Lemma lookup_insert_all : forall l k (m : emap),
    lookup eqb k (insert_all l m) =
    match last_of k l with Some v => Some (Some v, None) | None => lookup eqb k m end.
  Proof.
    unfold insert_all, last_of. induction l as [|[q v] l IH] using rev_ind; intros k m; [reflexivity|].
    rewrite !fold_left_app. cbn. rewrite lookup_insert, IH. destruct (eqb q k); reflexivity.
  Qed.

  Lemma lookup_merge_all : forall l k (m : emap),
    lookup eqb k (merge_all l m) =
    match last_of k l with
    | Some v => Some (match lookup eqb k m with Some e => fst e | None => None end, Some v)
    | None => lookup eqb k m
    end.
  Proof.
    unfold merge_all, last_of. induction l as [|[q v] l IH] using rev_ind; intros k m; [reflexivity|].
    rewrite !fold_left_app. cbn. rewrite lookup_merge, IH. destruct (eqb q k); [|reflexivity].
    destruct (fold_left _ l None); reflexivity.
  Qed.

  Lemma lookup_fill : forall k a b,
    lookup eqb k (fill eqb a b) =
    match last_of k a, last_of k b with
    | None, None => None
    | x, y => Some (x, y)
    end.
  Proof.
    intros. unfold fill. change (fold_left _ b _) with (merge_all b (insert_all a nil)).
    rewrite lookup_merge_all, lookup_insert_all. cbn.
    destruct (last_of k a), (last_of k b); reflexivity.
  Qed.

  Lemma keys_fill : forall a b : list (K * V), NoDup (map fst (fill eqb a b)).
  Proof.
    intros. unfold fill.
    assert (H : forall l m, NoDup (map fst m) -> NoDup (map fst (insert_all l m))).
    { unfold insert_all. induction l as [|[q v] l IH]; cbn; intros m M; auto. apply IH. apply keys_insert. exact M. }
    assert (H' : forall l m, NoDup (map fst m) -> NoDup (map fst (merge_all l m))).
    { unfold merge_all. induction l as [|[q v] l IH]; cbn; intros m M; auto. apply IH. apply keys_merge. exact M. }
    apply H'. apply H. constructor.
  Qed.

  Lemma lookup_in : forall k e (m : emap), NoDup (map fst m) -> (lookup eqb k m = Some e <-> In (k, e) m).
  Proof.
    induction m as [|[q x] m IH]; cbn; intros ND; [split; [discriminate|contradiction]|].
    inversion ND; subst. destruct (eqb q k) eqn:E.
    - apply EQ in E. subst q. split.
      + intros [= ->]. auto.
      + intros [[= ->]|X]; auto. exfalso. apply H1. apply in_map_iff. exists (k, e). auto.
    - rewrite (IH H2). split; [auto|]. intros [[= -> ->]|X]; auto. rewrite eqb_refl in E. discriminate.
  Qed.

  (* The entries of a filled map. *)
  Lemma in_fill : forall k s t a b,
    In (k, (s, t)) (fill eqb a b) <-> s = last_of k a /\ t = last_of k b /\ ~ (s = None /\ t = None).
  Proof.
    intros. rewrite <- (lookup_in k (s, t) _ (keys_fill a b)), lookup_fill.
    destruct (last_of k a) as [x|], (last_of k b) as [y|]; split.
    all: try (intros [= <- <-]; split; [|split]; auto; intros []; discriminate).
    all: try (intros (-> & -> & N); auto; exfalso; auto).
    discriminate.
  Qed.

  Lemma last_of_in : forall k v l, NoDup (map fst l) -> (last_of k l = Some v <-> In (k, v) l).
  Proof.
    intros k v l. unfold last_of. induction l as [|[q u] l IH] using rev_ind; intros ND.
    - cbn. split; [discriminate|contradiction].
    - rewrite fold_left_app. cbn. rewrite map_app in ND. cbn in ND.
      apply NoDup_remove in ND. rewrite app_nil_r in ND. destruct ND as [ND NI].
      rewrite in_app_iff. cbn. destruct (eqb q k) eqn:E.
      + apply EQ in E. subst q. split.
        * intros [= ->]. auto.
        * intros [X|[[= ->]|[]]]; auto. exfalso. apply NI. apply in_map_iff. exists (k, v). auto.
      + rewrite (IH ND). split; [auto|]. intros [X|[[= -> ->]|[]]]; auto. rewrite eqb_refl in E. discriminate.
  Qed.

  Lemma last_of_none : forall k l, last_of k l = None <-> ~ In k (map fst l).
  Proof.
    intros k l. unfold last_of. induction l as [|[q u] l IH] using rev_ind; [cbn; split; auto|].
    rewrite fold_left_app, map_app, in_app_iff. cbn. destruct (eqb q k) eqn:E.
    - apply EQ in E. subst. split; [discriminate|]. intros N. exfalso. apply N. auto.
    - rewrite IH. apply eqb_neq in E. split; [|auto]. intros N [X|[X|[]]]; auto.
  Qed.

  Lemma last_of_some_in : forall k v l, last_of k l = Some v -> In (k, v) l.
  Proof.
    intros k v l. unfold last_of. induction l as [|[q u] l IH] using rev_ind; [discriminate|].
    rewrite fold_left_app. cbn. destruct (eqb q k) eqn:E.
    - intros [= ->]. apply EQ in E. subst. apply in_or_app. cbn. auto.
    - intros H. apply in_or_app. auto.
  Qed.
End Maps.

Lemma key2_eqb_spec : forall x y, key2_eqb x y = true <-> x = y.
Proof.
  intros [a b] [c d]. unfold key2_eqb. cbn. rewrite andb_true_iff, !String.eqb_eq. split; [intros []; congruence|].
  intros [= -> ->]. auto.
Qed.

Lemma key3_eqb_spec : forall x y, key3_eqb x y = true <-> x = y.
Proof.
  intros [a b] [c d]. unfold key3_eqb. cbn. rewrite andb_true_iff, key2_eqb_spec, String.eqb_eq.
  split; [intros []; congruence|]. intros [= -> ->]. auto.
Qed.

Lemma concat_map_some : forall A B (f : A -> option (list B)) l,
  (forall x, In x l -> f x <> None) ->
  exists r, concat_map f l = Some r /\ forall y, In y r <-> exists x u, In x l /\ f x = Some u /\ In y u.
Proof.
  induction l as [|x l IH]; cbn; intros H.
  - exists nil. split; [reflexivity|]. intros y. split; [contradiction|]. intros (x & u & [] & _).
  - destruct (f x) as [u|] eqn:E; [|exfalso; apply (H x); auto].
    destruct IH as (r & -> & R); [intros; apply H; auto|].
    exists (u ++ r)%list. split; [reflexivity|]. intros y. rewrite in_app_iff, R. split.
    + intros [Y|(z & w & Z & W & Y)]; [exists x, u; auto|exists z, w; auto].
    + intros (z & w & [<-|Z] & W & Y); [left; congruence|right; eauto].
Qed.

Lemma concat_map_in : forall A B (f : A -> option (list B)) l r,
  concat_map f l = Some r ->
  (forall x, In x l -> f x <> None) /\
  (forall y, In y r <-> exists x u, In x l /\ f x = Some u /\ In y u).
Proof.
  induction l as [|x l IH]; cbn; intros r E.
  - injection E as <-. split; [contradiction|]. intros y. split; [contradiction|]. intros (x & u & [] & _).
  - destruct (f x) as [u|] eqn:F; [|discriminate]. destruct (concat_map f l) as [v|] eqn:G; [|discriminate].
    injection E as <-. destruct (IH v eq_refl) as [A1 A2]. split.
    + intros z [<-|Z]; [congruence|auto].
    + intros y. rewrite in_app_iff, A2. split.
      * intros [Y|(z & w & Z & W & Y)]; [exists x, u; auto|exists z, w; auto].
      * intros (z & w & [<-|Z] & W & Y); [left; congruence|right; eauto].
Qed.
