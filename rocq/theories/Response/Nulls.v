(** Proofs about the nulls applied when a part is ingested. *)

From Coq Require Import List Arith ZArith String Bool Sorted Permutation Lia.
From Verif Require Import Response.Model Response.Spec Response.Merge.
Import ListNotations.
Local Open Scope nat_scope.

(** ** A tree seen with some of its positions nulled *)

Definition hitf (N : list vid) (i : id) (k : rkey) : bool :=
  existsb (fun v => match v with IField o k' _ => ideqb o i && keqb k' k | _ => false end) N.
Definition hiti (N : list vid) (i : id) (n : nat) : bool :=
  existsb (fun v => match v with IIndex l m _ => ideqb l i && (m =? n) | _ => false end) N.

Lemma hitf_spec : forall N i k, hitf N i k = true <-> exists b, In (IField i k b) N.
Proof.
  intros N i k. unfold hitf. rewrite existsb_exists. split.
  - intros ([o k' b|l m b|p m] & I & E); try discriminate.
    apply andb_true_iff in E. destruct E as [E1 E2]. apply ideqb_eq in E1. apply keqb_eq in E2. subst.
    exists b. exact I.
  - intros (b & I). exists (IField i k b). split; [exact I|].
    rewrite (proj2 (ideqb_eq i i) eq_refl), (proj2 (keqb_eq k k) eq_refl). reflexivity.
Qed.

Lemma hiti_spec : forall N i n, hiti N i n = true <-> exists b, In (IIndex i n b) N.
Proof.
  intros N i n. unfold hiti. rewrite existsb_exists. split.
  - intros ([o k' b|l m b|p m] & I & E); try discriminate.
    apply andb_true_iff in E. destruct E as [E1 E2]. apply ideqb_eq in E1. apply Nat.eqb_eq in E2. subst.
    exists b. exact I.
  - intros (b & I). exists (IIndex i n b). split; [exact I|].
    rewrite (proj2 (ideqb_eq i i) eq_refl), Nat.eqb_refl. reflexivity.
Qed.

Section Shown.
  Variable N : list vid.

  Definition at_field (sh : tree -> out) (i : id) (f : rkey * tree) : out :=
    if hitf N i (fst f) then ONull else sh (snd f).

  Fixpoint shown (t : tree) : out :=
    match t with
    | TLeaf v => show (TLeaf v)
    | TList i l =>
        OList ((fix go (l : list tree) (n : nat) : list out :=
                  match l with
                  | [] => []
                  | x :: r => (if hiti N i n then ONull else shown x) :: go r (S n)
                  end) l 0)
    | TObj i _ fs =>
        OObj (flat_map (fun f => if fst (fst f) =? 0 then []
                                 else [(snd (fst f), if hitf N i (fst f) then ONull else shown (snd f))]) fs)
    | TInacc _ _ => ONull
    end.

  Fixpoint shown_list (i : id) (l : list tree) (n : nat) : list out :=
    match l with
    | [] => []
    | x :: r => (if hiti N i n then ONull else shown x) :: shown_list i r (S n)
    end.

  Lemma shown_list_eq : forall i l, shown (TList i l) = OList (shown_list i l 0).
  Proof.
    intros i l. cbn [shown]. f_equal. generalize 0. induction l as [|x l IH]; intros n; [reflexivity|].
    cbn [shown_list]. rewrite <- IH. reflexivity.
  Qed.
End Shown.

Lemma shown_nil : forall t, shown [] t = show t.
Proof.
  intros t. induction t as [v|i l IH|i d fs IH|i t IH] using tree_ind2; try reflexivity.
  - rewrite shown_list_eq. cbn [show]. f_equal. generalize 0.
    induction IH as [|x l Hx _ IHl]; intros n; [reflexivity|].
    cbn [shown_list map]. unfold hiti. cbn [existsb]. rewrite Hx, IHl. reflexivity.
  - cbn [show shown]. f_equal. induction fs as [|[k t] fs IHf]; [reflexivity|].
    cbn [map snd] in IH. inversion IH; subst. cbn [flat_map fst snd].
    rewrite IHf by assumption. unfold hitf at 1. cbn [existsb].
    match goal with H : shown [] t = _ |- _ => rewrite H end. reflexivity.
Qed.

(** The fields nulled exist. *)
Inductive okN (N : list vid) : tree -> Prop :=
| OkLeaf v : okN N (TLeaf v)
| OkList i l : Forall (okN N) l -> okN N (TList i l)
| OkObj i d fs :
    (forall k b, In (IField i k b) N -> In k (map fst fs)) ->
    Forall (okN N) (map snd fs) -> okN N (TObj i d fs)
| OkInacc i t : okN N t -> okN N (TInacc i t).

(** ** One position nulled *)

Definition hits (v : vid) (i : id) (k : rkey) : bool := hitf [v] i k.
Definition hits_index (v : vid) (i : id) (n : nat) : bool := hiti [v] i n.

Section Mark.
  Variable v : vid.
  Variable nid : id.

  Fixpoint mark (t : tree) : tree :=
    match t with
    | TLeaf x => TLeaf x
    | TList i l =>
        TList i ((fix go (l : list tree) (n : nat) : list tree :=
                    match l with
                    | [] => []
                    | x :: r => (if hiti [v] i n then TInacc nid (mark x) else mark x) :: go r (S n)
                    end) l 0)
    | TObj i d fs =>
        TObj i d (map (fun f => (fst f, if hitf [v] i (fst f) then TInacc nid (mark (snd f)) else mark (snd f))) fs)
    | TInacc i t => TInacc i (mark t)
    end.

  Fixpoint mark_list (i : id) (l : list tree) (n : nat) : list tree :=
    match l with
    | [] => []
    | x :: r => (if hiti [v] i n then TInacc nid (mark x) else mark x) :: mark_list i r (S n)
    end.

  Lemma mark_list_eq : forall i l, mark (TList i l) = TList i (mark_list i l 0).
  Proof.
    intros i l. cbn [mark]. f_equal. generalize 0. induction l as [|x l IH]; intros n; [reflexivity|].
    cbn [mark_list]. rewrite <- IH. reflexivity.
  Qed.

  Definition mark_fields (i : id) (fs : list (rkey * tree)) : list (rkey * tree) :=
    map (fun f => (fst f, if hitf [v] i (fst f) then TInacc nid (mark (snd f)) else mark (snd f))) fs.

  Lemma mark_fields_keys : forall i fs, map fst (mark_fields i fs) = map fst fs.
  Proof. intros i fs. unfold mark_fields. rewrite map_map. reflexivity. Qed.

  Lemma hitf_cons : forall N i k, hitf (v :: N) i k = hitf [v] i k || hitf N i k.
  Proof. intros N i k. unfold hitf. cbn [existsb]. rewrite orb_false_r. reflexivity. Qed.

  Lemma hiti_cons : forall N i n, hiti (v :: N) i n = hiti [v] i n || hiti N i n.
  Proof. intros N i n. unfold hiti. cbn [existsb]. rewrite orb_false_r. reflexivity. Qed.

  Lemma shown_mark : forall N t, shown N (mark t) = shown (v :: N) t.
  Proof.
    intros N t. induction t as [x|i l IH|i d fs IH|i t IH] using tree_ind2; try reflexivity.
    - rewrite mark_list_eq, !shown_list_eq. f_equal. generalize 0.
      induction IH as [|x l Hx _ IHl]; intros n; [reflexivity|].
      cbn [mark_list shown_list]. rewrite IHl, (hiti_cons N i n). f_equal.
      destruct (hiti [v] i n); cbn [orb shown].
      + destruct (hiti N i n); reflexivity.
      + destruct (hiti N i n); [reflexivity|exact Hx].
    - change (mark (TObj i d fs)) with (TObj i d (mark_fields i fs)). cbn [shown]. f_equal.
      induction fs as [|[k t] fs IHf]; [reflexivity|].
      cbn [map snd] in IH. inversion IH; subst. cbn [mark_fields map flat_map fst snd].
      fold (mark_fields i fs). rewrite IHf by assumption. f_equal.
      destruct (fst k =? 0); [reflexivity|]. rewrite (hitf_cons N i k). f_equal. f_equal.
      destruct (hitf [v] i k); cbn [orb shown].
      + destruct (hitf N i k); reflexivity.
      + destruct (hitf N i k); [reflexivity|assumption].
  Qed.

  Lemma okN_mark : forall N t, okN (v :: N) t -> okN N (mark t).
  Proof.
    intros N t. induction t as [x|i l IH|i d fs IH|i t IH] using tree_ind2; intros H; inversion H; subst.
    - constructor.
    - rewrite mark_list_eq. constructor. match goal with H : Forall (okN _) l |- _ => rename H into F end.
      generalize 0. clear H. induction IH as [|x l Hx _ IHl]; intros n; [constructor|].
      inversion F; subst. cbn [mark_list]. constructor; [|apply IHl; assumption].
      destruct (hiti [v] i n); [constructor|]; apply Hx; assumption.
    - change (mark (TObj i d fs)) with (TObj i d (mark_fields i fs)).
      match goal with H : Forall (okN _) _ |- _ => rename H into F end.
      match goal with H : forall k b, _ |- _ => rename H into K end.
      constructor.
      + intros k b I. rewrite mark_fields_keys. apply (K k b). right. exact I.
      + clear H K. induction fs as [|[k t] fs IHf]; [constructor|].
        cbn [map snd] in IH, F. inversion IH; subst. inversion F; subst. cbn [mark_fields map snd fst].
        constructor; [|apply IHf; assumption].
        destruct (hitf [v] i k); [constructor|]; auto.
    - constructor. apply IH. assumption.
  Qed.

  Lemma tidy_mark : forall t, tidy t -> tidy (mark t).
  Proof.
    intros t. induction t as [x|i l IH|i d fs IH|i t IH] using tree_ind2; intros H; inversion H; subst.
    - constructor.
    - rewrite mark_list_eq. constructor. match goal with H : Forall tidy l |- _ => rename H into F end.
      generalize 0. clear H. induction IH as [|x l Hx _ IHl]; intros n; [constructor|].
      inversion F; subst. cbn [mark_list]. constructor; [|apply IHl; assumption].
      destruct (hiti [v] i n); [constructor|]; apply Hx; assumption.
    - change (mark (TObj i d fs)) with (TObj i d (mark_fields i fs)).
      match goal with H : Forall tidy _ |- _ => rename H into F end.
      constructor; [unfold ordered; rewrite mark_fields_keys; assumption|].
      clear H. match goal with H : ordered fs |- _ => clear H end. induction fs as [|[k t] fs IHf]; [constructor|].
      cbn [map snd] in IH, F. inversion IH; subst. inversion F; subst. cbn [mark_fields map snd fst].
      constructor; [|apply IHf; assumption].
      destruct (hitf [v] i k); [constructor|]; auto.
    - constructor. apply IH. assumption.
  Qed.
End Mark.

(** ** The store after one null *)

Definition get_part_objs (ps : list part) (p : nat) : list obj :=
  match nth_error ps p with Some pt => p_objs pt | None => [] end.

(** Where a null can be applied. *)
Definition valid (ps : list part) (v : vid) : Prop :=
  match v with
  | IField o _ _ => exists ob, get_obj ps o = Some ob
  | IIndex l i _ => exists vs, get_list ps l = Some vs /\ i < List.length vs
  | INum _ _ => False
  end.

Lemma find_key_spec : forall k (l : fields) i,
  match find_key k l i with
  | Some n => i <= n /\ exists x, nth_error l (n - i) = Some (k, x)
  | None => ~ In k (map fst l)
  end.
Proof.
  intros k l. induction l as [|[k' x] l IH]; intros i; cbn [find_key]; [intros []|].
  cbn [fst]. destruct (keqb k' k) eqn:E.
  - apply keqb_eq in E. subst. split; [lia|]. exists x. rewrite Nat.sub_diag. reflexivity.
  - specialize (IH (S i)). destruct (find_key k l (S i)) as [n|].
    + destruct IH as [L (y & G)]. split; [lia|]. exists y.
      replace (n - i) with (S (n - S i)) by lia. exact G.
    + cbn [map fst]. intros [E'|I]; [|exact (IH I)]. subst. rewrite (proj2 (keqb_eq k k) eq_refl) in E. discriminate.
Qed.

Lemma set_value_spec : forall (l : fields) n k x y, nth_error l n = Some (k, x) -> NoDup (map fst l) ->
  set_value l n y = map (fun f => (fst f, if keqb (fst f) k then y else snd f)) l.
Proof.
  intros l n k x y G ND. unfold set_value. rewrite G. revert n G.
  induction l as [|[k' x'] l IH]; intros n G; [destruct n; discriminate|].
  cbn [map fst] in ND. inversion ND as [|? ? NI ND']; subst.
  destruct n as [|n]; cbn [nth_error] in G; cbn [set_nth map fst snd].
  - inversion G; subst. rewrite (proj2 (keqb_eq k k) eq_refl). f_equal.
    rewrite <- map_id at 1. apply map_ext_in. intros [a b] I. cbn [fst snd].
    destruct (keqb a k) eqn:E; [|reflexivity]. apply keqb_eq in E. subst.
    exfalso. apply NI. exact (in_map fst _ _ I).
  - rewrite (IH ND' n G). destruct (keqb k' k) eqn:E; [|reflexivity].
    apply keqb_eq in E. subst. exfalso. apply NI.
    apply nth_error_In in G. exact (in_map fst _ _ G).
Qed.

Lemma get_after_part : forall (ps : list part) p pt pt', nth_error ps p = Some pt ->
  forall q, nth_error (set_nth p pt' ps) q = if q =? p then Some pt' else nth_error ps q.
Proof. intros ps p pt pt' G q. rewrite nth_set_nth, G. reflexivity. Qed.

(** The effect of [null_at]: the store with the field or the element replaced. *)
Lemma null_at_spec : forall ps v, valid ps v ->
  exists ps' nid,
    null_at ps v = Ok ps' /\
    (forall u, valid ps u -> valid ps' u) /\
    (forall i w, get_inacc ps i = Some w -> get_inacc ps' i = Some w) /\
    (forall i, (forall k b, v <> IField i k b) -> get_obj ps' i = get_obj ps i) /\
    (forall i, (forall n b, v <> IIndex i n b) -> get_list ps' i = get_list ps i) /\
    match v with
    | IField o k _ =>
        forall ob, get_obj ps o = Some ob -> NoDup (map fst (o_fields ob)) -> In k (map fst (o_fields ob)) ->
        exists x, In (k, x) (o_fields ob) /\ get_inacc ps' nid = Some x /\
          get_obj ps' o = Some (MkObj (o_def ob)
            (map (fun f => (fst f, if keqb (fst f) k then VInacc nid else snd f)) (o_fields ob)))
    | IIndex l i _ =>
        forall vs, get_list ps l = Some vs ->
        exists x, nth_error vs i = Some x /\ get_inacc ps' nid = Some x /\
          get_list ps' l = Some (set_nth i (VInacc nid) vs)
    | INum _ _ => True
    end.
Proof.
  intros ps v V. unfold null_at. destruct v as [[p o] k nb|[p l] n nb|p n]; cbn [valid vid_part fst] in *; [| |contradiction].
  - destruct V as (ob & G). unfold get_obj in G. cbn [fst snd] in G.
    destruct (nth_error ps p) as [pt|] eqn:Ep; [|discriminate].
    unfold make_inaccessible. cbn [snd]. rewrite G.
    pose proof (find_key_spec k (o_fields ob) 0) as FK.
    destruct (find_key k (o_fields ob) 0) as [n|] eqn:Ef.
    + destruct FK as [_ (x & Gx)]. rewrite Nat.sub_0_r in Gx. rewrite Gx.
      set (nid := (p, List.length (p_inacc pt))).
      set (fs' := set_value (o_fields ob) n (VInacc nid)).
      set (pt' := with_inacc (put_obj pt (p, o) (MkObj (o_def ob) fs')) (p_inacc pt ++ [x])).
      exists (set_nth p pt' ps), nid. split; [reflexivity|].
      pose proof (get_after_part ps p pt pt' Ep) as GP.
      assert (GO : forall i, get_obj (set_nth p pt' ps) i = if ideqb i (p, o) then Some (MkObj (o_def ob) fs') else get_obj ps i).
      { intros [q m]. unfold get_obj. cbn [fst snd]. rewrite GP. unfold ideqb. cbn [fst snd].
        destruct (q =? p) eqn:Q; cbn [andb]; [|reflexivity]. apply Nat.eqb_eq in Q. subst q.
        unfold pt', put_obj, with_inacc, with_objs. cbn [p_objs snd]. rewrite nth_set_nth, G, Ep.
        destruct (m =? o); reflexivity. }
      assert (GL : forall i, get_list (set_nth p pt' ps) i = get_list ps i).
      { intros [q m]. unfold get_list. cbn [fst snd]. rewrite GP.
        destruct (q =? p) eqn:Q; [|reflexivity]. apply Nat.eqb_eq in Q. subst q. rewrite Ep. reflexivity. }
      assert (GI : forall i w, get_inacc ps i = Some w -> get_inacc (set_nth p pt' ps) i = Some w).
      { intros [q m] w. unfold get_inacc. cbn [fst snd]. rewrite GP.
        destruct (q =? p) eqn:Q; [|auto]. apply Nat.eqb_eq in Q. subst q. rewrite Ep.
        unfold pt', with_inacc. cbn [p_inacc]. intros Gw. rewrite nth_error_app1; [exact Gw|].
        apply nth_error_Some. congruence. }
      split; [|split; [exact GI|split; [|split; [intros i _; apply GL|]]]].
      * intros [o' k' b'|l' n' b'|p' n']; cbn [valid]; [| |auto].
        -- intros (ob' & G'). rewrite GO. destruct (ideqb o' (p, o)); eexists; [reflexivity|exact G'].
        -- rewrite GL. auto.
      * intros i Ni. rewrite GO. destruct (ideqb i (p, o)) eqn:E; [|reflexivity].
        apply ideqb_eq in E. subst. exfalso. exact (Ni k nb eq_refl).
      * intros ob' G' ND I. unfold get_obj in G'. cbn [fst snd] in G'. rewrite Ep, G in G'. inversion G'; subst ob'.
        exists x. split; [exact (nth_error_In _ _ Gx)|]. split.
        -- unfold get_inacc, nid. cbn [fst snd]. rewrite GP, Nat.eqb_refl. unfold pt', with_inacc. cbn [p_inacc].
           rewrite nth_error_app2 by lia. rewrite Nat.sub_diag. reflexivity.
        -- rewrite GO, (proj2 (ideqb_eq (p, o) (p, o)) eq_refl). unfold fs'.
           rewrite (set_value_spec _ _ _ _ _ Gx ND). reflexivity.
    + set (pt' := put_obj pt (p, o) (MkObj (o_def ob) (insert_field (k, VNull) (o_fields ob)))).
      exists (set_nth p pt' ps), (p, 0). split; [reflexivity|].
      pose proof (get_after_part ps p pt pt' Ep) as GP.
      assert (GO : forall i, get_obj (set_nth p pt' ps) i =
        if ideqb i (p, o) then Some (MkObj (o_def ob) (insert_field (k, VNull) (o_fields ob))) else get_obj ps i).
      { intros [q m]. unfold get_obj. cbn [fst snd]. rewrite GP. unfold ideqb. cbn [fst snd].
        destruct (q =? p) eqn:Q; cbn [andb]; [|reflexivity]. apply Nat.eqb_eq in Q. subst q.
        unfold pt', put_obj, with_objs. cbn [p_objs snd]. rewrite nth_set_nth, G, Ep.
        destruct (m =? o); reflexivity. }
      assert (GL : forall i, get_list (set_nth p pt' ps) i = get_list ps i).
      { intros [q m]. unfold get_list. cbn [fst snd]. rewrite GP.
        destruct (q =? p) eqn:Q; [|reflexivity]. apply Nat.eqb_eq in Q. subst q. rewrite Ep. reflexivity. }
      split; [|split; [|split; [|split; [intros i _; apply GL|]]]].
      * intros [o' k' b'|l' n' b'|p' n']; cbn [valid]; [| |auto].
        -- intros (ob' & G'). rewrite GO. destruct (ideqb o' (p, o)); eexists; [reflexivity|exact G'].
        -- rewrite GL. auto.
      * intros [q m] w. unfold get_inacc. cbn [fst snd]. rewrite GP.
        destruct (q =? p) eqn:Q; [|auto]. apply Nat.eqb_eq in Q. subst q. rewrite Ep. auto.
      * intros i Ni. rewrite GO. destruct (ideqb i (p, o)) eqn:E; [|reflexivity].
        apply ideqb_eq in E. subst. exfalso. exact (Ni k nb eq_refl).
      * intros ob' G' ND I. unfold get_obj in G'. cbn [fst snd] in G'. rewrite Ep, G in G'. inversion G'; subst ob'.
        contradiction.
  - destruct V as (vs & G & L). unfold get_list in G. cbn [fst snd] in G.
    destruct (nth_error ps p) as [pt|] eqn:Ep; [|discriminate].
    unfold make_inaccessible. cbn [snd]. rewrite G.
    destruct (nth_error vs n) as [x|] eqn:Gx; [|apply nth_error_None in Gx; lia].
    set (nid := (p, List.length (p_inacc pt))).
    set (pt' := with_inacc (put_list pt (p, l) (set_nth n (VInacc nid) vs)) (p_inacc pt ++ [x])).
    exists (set_nth p pt' ps), nid. split; [reflexivity|].
    pose proof (get_after_part ps p pt pt' Ep) as GP.
    assert (GL : forall i, get_list (set_nth p pt' ps) i = if ideqb i (p, l) then Some (set_nth n (VInacc nid) vs) else get_list ps i).
    { intros [q m]. unfold get_list. cbn [fst snd]. rewrite GP. unfold ideqb. cbn [fst snd].
      destruct (q =? p) eqn:Q; cbn [andb]; [|reflexivity]. apply Nat.eqb_eq in Q. subst q.
      unfold pt', put_list, with_inacc, with_lists. cbn [p_lists snd]. rewrite nth_set_nth, G, Ep.
      destruct (m =? l); reflexivity. }
    assert (GO : forall i, get_obj (set_nth p pt' ps) i = get_obj ps i).
    { intros [q m]. unfold get_obj. cbn [fst snd]. rewrite GP.
      destruct (q =? p) eqn:Q; [|reflexivity]. apply Nat.eqb_eq in Q. subst q. rewrite Ep. reflexivity. }
    split; [|split; [|split; [intros i _; apply GO|split]]].
    + intros [o' k' b'|l' n' b'|p' n']; cbn [valid]; [rewrite GO; auto| |auto].
      intros (vs' & G' & L'). rewrite GL. destruct (ideqb l' (p, l)) eqn:E.
      * apply ideqb_eq in E. subst. unfold get_list in G'. cbn [fst snd] in G'. rewrite Ep, G in G'.
        inversion G'; subst. eexists. split; [reflexivity|]. rewrite length_set_nth. exact L'.
      * exists vs'. auto.
    + intros [q m] w. unfold get_inacc. cbn [fst snd]. rewrite GP.
      destruct (q =? p) eqn:Q; [|auto]. apply Nat.eqb_eq in Q. subst q. rewrite Ep.
      unfold pt', with_inacc. cbn [p_inacc]. intros Gw. rewrite nth_error_app1; [exact Gw|].
      apply nth_error_Some. congruence.
    + intros i Ni. rewrite GL. destruct (ideqb i (p, l)) eqn:E; [|reflexivity].
      apply ideqb_eq in E. subst. exfalso. exact (Ni n nb eq_refl).
    + intros vs' G'. unfold get_list in G'. cbn [fst snd] in G'. rewrite Ep, G in G'. inversion G'; subst vs'.
      exists x. split; [exact Gx|]. split.
      * unfold get_inacc, nid. cbn [fst snd]. rewrite GP, Nat.eqb_refl. unfold pt', with_inacc. cbn [p_inacc].
        rewrite nth_error_app2 by lia. rewrite Nat.sub_diag. reflexivity.
      * rewrite GL, (proj2 (ideqb_eq (p, l) (p, l)) eq_refl). reflexivity.
Qed.

Lemma in_field_unique : forall (l : fields) k x y, NoDup (map fst l) -> In (k, x) l -> In (k, y) l -> x = y.
Proof.
  intros l k x y. induction l as [|[k' z] l IH]; intros ND I J; [destruct I|].
  cbn [map fst] in ND. inversion ND as [|? ? NI ND']; subst.
  destruct I as [I|I], J as [J|J].
  - congruence.
  - inversion I; subst. exfalso. apply NI. exact (in_map fst _ _ J).
  - inversion J; subst. exfalso. apply NI. exact (in_map fst _ _ I).
  - exact (IH ND' I J).
Qed.

(** A tree after one null. *)
Lemma rep_null_at : forall ps v, valid ps v -> exists ps' nid,
  null_at ps v = Ok ps' /\ (forall u, valid ps u -> valid ps' u) /\
  forall t x, rep ps x t -> tidy t -> okN [v] t -> rep ps' x (mark v nid t).
Proof.
  intros ps v V. destruct (null_at_spec ps v V) as (ps' & nid & E & Vs & GI & GO & GL & Sp).
  exists ps', nid. split; [exact E|]. split; [exact Vs|].
  intros t. induction t as [y|i ts IH|i d fs IH|i t IH] using tree_ind2; intros x R T K; inversion R; subst.
  - constructor. assumption.
  - rewrite mark_list_eq. match goal with H : get_list _ _ = Some vs |- _ => rename H into G end.
    match goal with H : Forall2 _ vs ts |- _ => rename H into F end.
    inversion T as [|? ? Ts| |]; subst. inversion K as [|? ? Ks| |]; subst.
    assert (Other : (forall n b, v <> IIndex i n b) -> rep ps' (VList i) (TList i (mark_list v nid i ts 0))).
    { intros N. econstructor; [rewrite GL; [exact G|exact N]|].
      assert (H0 : forall n, hiti [v] i n = false).
      { intros n. destruct (hiti [v] i n) eqn:H; [|reflexivity]. apply hiti_spec in H.
        destruct H as (b & [H|[]]). exfalso. exact (N n b H). }
      clear - IH F Ts Ks H0. generalize 0 as n. induction F as [|a t vs ts Ra F IHF]; intros n; [constructor|].
      inversion IH; subst. inversion Ts; subst. inversion Ks; subst. cbn [mark_list]. rewrite H0.
      constructor; [auto|apply IHF; assumption]. }
    destruct v as [o k b|l n b|p n]; [apply Other; discriminate| |apply Other; discriminate].
    destruct (ideqb l i) eqn:Eli.
    + apply ideqb_eq in Eli. subst l. destruct (Sp vs G) as (y & Gy & Gn & Gl).
      econstructor; [exact Gl|].
      assert (H0 : forall m, hiti [IIndex i n b] i m = (m =? n)).
      { intros m. unfold hiti. cbn [existsb]. rewrite (proj2 (ideqb_eq i i) eq_refl), orb_false_r.
        cbn [andb]. apply Nat.eqb_sym. }
      assert (Gen : forall m, m <= n -> forall vs ts, Forall2 (rep ps) vs ts ->
        Forall (fun t => forall x, rep ps x t -> tidy t -> okN [IIndex i n b] t -> rep ps' x (mark (IIndex i n b) nid t)) ts ->
        Forall tidy ts -> Forall (okN [IIndex i n b]) ts -> nth_error vs (n - m) = Some y ->
        Forall2 (rep ps') (set_nth (n - m) (VInacc nid) vs) (mark_list (IIndex i n b) nid i ts m)).
      { clear - H0 Gn. intros m Lm vs. revert m Lm.
        assert (Rest : forall vs ts m, n < m -> Forall2 (rep ps) vs ts ->
          Forall (fun t => forall x, rep ps x t -> tidy t -> okN [IIndex i n b] t -> rep ps' x (mark (IIndex i n b) nid t)) ts ->
          Forall tidy ts -> Forall (okN [IIndex i n b]) ts ->
          Forall2 (rep ps') vs (mark_list (IIndex i n b) nid i ts m)).
        { clear vs. intros vs ts m Lm F. revert m Lm. induction F as [|a t vs ts Ra F IHF]; intros m Lm IH Ts Ks; [constructor|].
          inversion IH; subst. inversion Ts; subst. inversion Ks; subst. cbn [mark_list]. rewrite H0.
          destruct (m =? n) eqn:Q; [apply Nat.eqb_eq in Q; lia|]. constructor; [auto|apply IHF; auto]. }
        induction vs as [|a vs IHv]; intros m Lm ts F IH Ts Ks Gy.
        - destruct (n - m); discriminate.
        - inversion F as [|? t ? ts' Ra F']; subst. inversion IH; subst. inversion Ts; subst. inversion Ks; subst.
          cbn [mark_list]. rewrite H0. destruct (n - m) as [|q] eqn:Eq.
          + assert (m = n) by lia. subst m. rewrite Nat.eqb_refl. cbn [set_nth]. cbn [nth_error] in Gy.
            inversion Gy; subst a. constructor.
            * econstructor; [exact Gn|]. auto.
            * apply Rest; auto.
          + destruct (m =? n) eqn:Q; [apply Nat.eqb_eq in Q; lia|]. cbn [set_nth nth_error] in *.
            constructor; [auto|]. replace q with (n - S m) in * by lia. apply IHv; auto. lia. }
      specialize (Gen 0 ltac:(lia) vs ts F IH Ts Ks). rewrite Nat.sub_0_r in Gen. apply Gen. exact Gy.
    + apply Other. intros m b' Eq. inversion Eq; subst. rewrite (proj2 (ideqb_eq i i) eq_refl) in Eli. discriminate.
  - change (mark v nid (TObj i d fs)) with (TObj i d (mark_fields v nid i fs)).
    match goal with H : get_obj _ _ = Some (MkObj d ?f) |- _ => rename H into G; rename f into fs0 end.
    match goal with H : map fst fs0 = _ |- _ => rename H into Ek end.
    match goal with H : Forall2 _ (map snd fs0) _ |- _ => rename H into F end.
    inversion T as [| |? ? ? O Ts|]; subst. inversion K as [| |? ? ? Kk Ks|]; subst.
    assert (Rec : forall fs0 fs, map fst fs0 = map fst fs -> Forall2 (rep ps) (map snd fs0) (map snd fs) ->
       Forall (fun t => forall x, rep ps x t -> tidy t -> okN [v] t -> rep ps' x (mark v nid t)) (map snd fs) ->
       Forall tidy (map snd fs) -> Forall (okN [v]) (map snd fs) ->
       (forall k a, In (k, a) fs0 -> hitf [v] i k = true -> get_inacc ps' nid = Some a) ->
       Forall2 (rep ps') (map (fun f => if hitf [v] i (fst f) then VInacc nid else snd f) fs0)
         (map snd (mark_fields v nid i fs))).
    { clear. induction fs0 as [|[k a] fs0 IHf]; intros [|[k' t] fs] Ek F IH Ts Ks Hn; try discriminate; [constructor|].
      cbn [map fst snd] in *. inversion Ek; subst. inversion F; subst. inversion IH; subst.
      inversion Ts; subst. inversion Ks; subst. constructor.
      - cbn [fst snd]. destruct (hitf [v] i k') eqn:H; [|auto]. econstructor; [apply (Hn k' a); [left; reflexivity|exact H]|]. auto.
      - apply IHf; auto. intros k0 a0 I. apply Hn. right. exact I. }
    assert (Keys : map fst (map (fun f : rkey * val => (fst f, if hitf [v] i (fst f) then VInacc nid else snd f)) fs0)
                   = map fst (mark_fields v nid i fs)).
    { rewrite mark_fields_keys, map_map. cbn [fst]. exact Ek. }
    assert (Snds : map snd (map (fun f : rkey * val => (fst f, if hitf [v] i (fst f) then VInacc nid else snd f)) fs0)
                   = map (fun f => if hitf [v] i (fst f) then VInacc nid else snd f) fs0).
    { rewrite map_map. reflexivity. }
    assert (Other : (forall k b, v <> IField i k b) -> rep ps' (VObj i) (TObj i d (mark_fields v nid i fs))).
    { intros N.
      assert (H0 : forall k, hitf [v] i k = false).
      { intros k. destruct (hitf [v] i k) eqn:H; [|reflexivity]. apply hitf_spec in H.
        destruct H as (b & [H|[]]). exfalso. exact (N k b H). }
      assert (E0 : map (fun f : rkey * val => (fst f, if hitf [v] i (fst f) then VInacc nid else snd f)) fs0 = fs0).
      { rewrite <- map_id. apply map_ext. intros [k a]. rewrite H0. reflexivity. }
      econstructor; [rewrite GO; [exact G|exact N]| |].
      - rewrite <- Keys, E0. reflexivity.
      - rewrite <- E0, Snds. apply Rec; auto. intros k a _ H. rewrite H0 in H. discriminate. }
    destruct v as [o k b|l n b|p n]; [|apply Other; discriminate|apply Other; discriminate].
    destruct (ideqb o i) eqn:Eoi.
    + apply ideqb_eq in Eoi. subst o.
      assert (ND : NoDup (map fst fs0)) by (rewrite Ek; apply ordered_nodup; exact O).
      assert (Ik : In k (map fst fs0)) by (rewrite Ek; apply (Kk k b); left; reflexivity).
      destruct (Sp _ G ND Ik) as (y & Iy & Gn & Gob). cbn [o_fields o_def] in *.
      assert (H0 : forall k', hitf [IField i k b] i k' = keqb k' k).
      { intros k'. unfold hitf. cbn [existsb]. rewrite (proj2 (ideqb_eq i i) eq_refl), orb_false_r.
        cbn [andb]. unfold keqb. rewrite (Nat.eqb_sym (fst k)), (Nat.eqb_sym (snd k)). reflexivity. }
      assert (E1 : map (fun f : rkey * val => (fst f, if keqb (fst f) k then VInacc nid else snd f)) fs0
                 = map (fun f => (fst f, if hitf [IField i k b] i (fst f) then VInacc nid else snd f)) fs0).
      { apply map_ext. intros [k' a]. rewrite H0. reflexivity. }
      rewrite E1 in Gob. econstructor; [exact Gob|exact Keys|]. rewrite Snds.
      apply Rec; auto. intros k' a I H. rewrite H0 in H. apply keqb_eq in H. subst k'.
      rewrite (in_field_unique _ _ _ _ ND I Iy). exact Gn.
    + apply Other. intros k' b' Eq. inversion Eq; subst. rewrite (proj2 (ideqb_eq i i) eq_refl) in Eoi. discriminate.
  - cbn [mark]. econstructor; [apply GI; eassumption|].
    inversion T; subst. inversion K; subst. apply IH; assumption.
Qed.

Lemma okN_incl : forall N N' t, incl N N' -> okN N' t -> okN N t.
Proof.
  intros N N' t I. induction t as [x|i l IH|i d fs IH|i t IH] using tree_ind2; intros H; inversion H; subst; constructor.
  - match goal with H : Forall (okN N') _ |- _ => rename H into F end.
    rewrite Forall_forall in *. intros x Ix. apply IH; auto.
  - intros k b Ib. match goal with H : forall k b, _ |- _ => apply (H k b) end. apply I. exact Ib.
  - match goal with H : Forall (okN N') _ |- _ => rename H into F end.
    rewrite Forall_forall in *. intros x Ix. apply IH; auto.
  - auto.
Qed.

(** The keys of an object. *)
Definition keys_of (t : tree) : list rkey := match t with TObj _ _ fs => map fst fs | _ => [] end.

Lemma keys_mark : forall v nid t, keys_of (mark v nid t) = keys_of t.
Proof. intros v nid t. destruct t; try reflexivity. cbn [mark keys_of]. rewrite map_map. reflexivity. Qed.

Lemma objs_mark : forall v nid t, objs (mark v nid t) = objs t.
Proof.
  intros v nid t. induction t as [x|i l IH|i d fs IH|i t IH] using tree_ind2; [reflexivity| | |cbn [mark objs]; exact IH].
  - rewrite mark_list_eq. cbn [objs]. generalize 0. induction IH as [|x l Hx _ IHl]; intros n; [reflexivity|].
    cbn [mark_list flat_map]. rewrite IHl. f_equal. destruct (hiti [v] i n); cbn [objs]; exact Hx.
  - cbn [mark objs]. f_equal. induction fs as [|[k x] fs IHf]; [reflexivity|].
    cbn [map snd] in IH. inversion IH as [|? ? Hx Hr]; subst. cbn [map flat_map fst snd]. rewrite IHf by exact Hr.
    f_equal. destruct (hitf [v] i k); cbn [objs]; exact Hx.
Qed.

(** A tree after every null of a part. *)
Lemma rep_null_all : forall N ps, Forall (valid ps) N -> exists ps',
  null_all ps N = Ok ps' /\ (forall u, valid ps u -> valid ps' u) /\
  forall t x, rep ps x t -> tidy t -> okN N t ->
    exists t', rep ps' x t' /\ tidy t' /\ show t' = shown N t /\ objs t' = objs t /\ keys_of t' = keys_of t.
Proof.
  induction N as [|v N IH]; intros ps V.
  - exists ps. split; [reflexivity|]. split; [auto|]. intros t x R T _. exists t.
    split; [exact R|]. split; [exact T|]. split; [symmetry; apply shown_nil|]. split; reflexivity.
  - inversion V as [|? ? Vv VN]; subst.
    destruct (rep_null_at ps v Vv) as (ps1 & nid & E1 & Vs1 & R1).
    destruct (IH ps1) as (ps2 & E2 & Vs2 & R2).
    { rewrite Forall_forall in *. intros u I. apply Vs1. apply VN. exact I. }
    exists ps2. split; [cbn [null_all]; rewrite E1; exact E2|]. split; [auto|].
    intros t x R T K.
    destruct (R2 (mark v nid t) x) as (t' & R' & T' & S' & O' & K').
    + apply R1; [exact R|exact T|]. apply (okN_incl [v] (v :: N)); [|exact K].
      intros u [<-|[]]. left. reflexivity.
    + apply tidy_mark. exact T.
    + apply okN_mark. exact K.
    + exists t'. split; [exact R'|]. split; [exact T'|]. split; [rewrite S'; apply shown_mark|].
      split; [rewrite O'; apply objs_mark|rewrite K'; apply keys_mark].
Qed.
