(** Proofs about merging (C21, C22). *)

From Coq Require Import List Arith ZArith String Bool Sorted Permutation Lia.
From Verif Require Import Response.Model Response.Spec.
Import ListNotations.
Local Open Scope nat_scope.

(** ** Keys *)

Lemma kcmp_lt : forall a b, kcmp a b = Lt <-> kbefore a b.
Proof.
  intros [a1 a2] [b1 b2]. unfold kcmp, kbefore. cbn [fst snd].
  destruct (Nat.compare_spec a1 b1) as [E|L|L].
  - subst. rewrite Nat.compare_lt_iff. lia.
  - split; [lia|reflexivity].
  - split; [discriminate|lia].
Qed.

Lemma kcmp_eq : forall a b, kcmp a b = Eq <-> a = b.
Proof.
  intros [a1 a2] [b1 b2]. unfold kcmp. cbn [fst snd].
  destruct (Nat.compare_spec a1 b1) as [E|L|L].
  - subst. rewrite Nat.compare_eq_iff. split; congruence.
  - split; [discriminate|intros E; inversion E; lia].
  - split; [discriminate|intros E; inversion E; lia].
Qed.

Lemma kcmp_gt : forall a b, kcmp a b = Gt <-> kbefore b a.
Proof.
  intros a b. split.
  - intros E. destruct a as [a1 a2], b as [b1 b2]. unfold kcmp, kbefore in *. cbn [fst snd] in *.
    destruct (Nat.compare_spec a1 b1) as [E'|L|L]; [|discriminate|left; exact L].
    subst. rewrite Nat.compare_gt_iff in E. right; split; [reflexivity|exact E].
  - intros B. destruct (kcmp a b) eqn:E; [|exfalso|reflexivity].
    + apply kcmp_eq in E. subst. unfold kbefore in B. lia.
    + apply kcmp_lt in E. unfold kbefore in *. lia.
Qed.

Lemma kbefore_irrefl : forall a, ~ kbefore a a.
Proof. intros a. unfold kbefore. lia. Qed.

Lemma kbefore_trans : forall a b c, kbefore a b -> kbefore b c -> kbefore a c.
Proof. intros a b c. unfold kbefore. lia. Qed.

Lemma kbefore_total : forall a b, kbefore a b \/ a = b \/ kbefore b a.
Proof.
  intros [a1 a2] [b1 b2]. unfold kbefore. cbn [fst snd].
  destruct (lt_eq_lt_dec a1 b1) as [[|]|]; try lia.
  subst. destruct (lt_eq_lt_dec a2 b2) as [[|]|]; try lia. subst. tauto.
Qed.

Lemma keqb_eq : forall a b, keqb a b = true <-> a = b.
Proof.
  intros [a1 a2] [b1 b2]. unfold keqb. cbn [fst snd].
  rewrite andb_true_iff, !Nat.eqb_eq. split; [intros [-> ->]; reflexivity|intros E; inversion E; auto].
Qed.

Lemma key_dec : forall a b : rkey, {a = b} + {a <> b}.
Proof. intros a b. decide equality; apply Nat.eq_dec. Qed.

Lemma ordered_cons : forall A (x : rkey * A) l,
  ordered (x :: l) <-> ordered l /\ (forall y, In y l -> kbefore (fst x) (fst y)).
Proof.
  intros A x l. unfold ordered. cbn [map]. split.
  - intros H. apply StronglySorted_inv in H. destruct H as [H F]. split; [exact H|].
    intros y I. rewrite Forall_forall in F. apply F. apply in_map. exact I.
  - intros [H F]. constructor; [exact H|]. rewrite Forall_forall. intros k I.
    apply in_map_iff in I. destruct I as (y & <- & I). apply F. exact I.
Qed.

Lemma ordered_nodup : forall A (l : list (rkey * A)), ordered l -> NoDup (map fst l).
Proof.
  intros A l. induction l as [|x l IH]; intros H; cbn [map]; [constructor|].
  apply ordered_cons in H. destruct H as [H F]. constructor; [|apply IH; exact H].
  intros I. apply in_map_iff in I. destruct I as (y & E & I).
  specialize (F y I). rewrite E in F. apply kbefore_irrefl in F. exact F.
Qed.

(** ** Sorting *)

Definition weak (a b : rkey) : Prop := a = b \/ kbefore a b.

Lemma insert_perm : forall f l, Permutation (f :: l) (insert_field f l).
Proof.
  intros f l. induction l as [|g l IH]; cbn [insert_field]; [reflexivity|].
  destruct (kcmp (fst f) (fst g)); [|reflexivity|];
    (etransitivity; [apply perm_swap|]; constructor; exact IH).
Qed.

Lemma sort_perm_acc : forall l acc,
  Permutation (l ++ acc) (fold_left (fun acc f => insert_field f acc) l acc).
Proof.
  intros l. induction l as [|f l IH]; intros acc; cbn [fold_left app]; [reflexivity|].
  rewrite <- IH. rewrite <- insert_perm. apply Permutation_middle.
Qed.

Lemma sort_perm : forall l, Permutation l (sort_fields l).
Proof. intros l. unfold sort_fields. rewrite <- (sort_perm_acc l []), app_nil_r. reflexivity. Qed.

Lemma insert_sorted : forall f l,
  StronglySorted weak (map fst l) -> StronglySorted weak (map fst (insert_field f l)).
Proof.
  intros f l. induction l as [|g l IH]; intros H; cbn [insert_field map].
  - constructor; constructor.
  - cbn [map] in H. apply StronglySorted_inv in H. destruct H as [H F].
    assert (W : forall h, weak (fst g) h -> In h (map fst (insert_field f l)) -> True) by tauto. clear W.
    destruct (kcmp (fst f) (fst g)) eqn:C; cbn [map].
    + constructor; [apply IH; exact H|]. rewrite Forall_forall in *. intros h I.
      apply (Permutation_in _ (Permutation_map fst (Permutation_sym (insert_perm f l)))) in I.
      cbn [map] in I. destruct I as [<-|I]; [|apply F; exact I].
      apply kcmp_eq in C. left. symmetry. exact C.
    + apply kcmp_lt in C. constructor; [constructor; assumption|].
      rewrite Forall_forall in *. intros h I. destruct I as [<-|I]; [right; exact C|].
      right. destruct (F _ I) as [<-|B]; [exact C|exact (kbefore_trans _ _ _ C B)].
    + constructor; [apply IH; exact H|]. rewrite Forall_forall in *. intros h I.
      apply (Permutation_in _ (Permutation_map fst (Permutation_sym (insert_perm f l)))) in I.
      cbn [map] in I. destruct I as [<-|I]; [|apply F; exact I].
      apply kcmp_gt in C. right. exact C.
Qed.

Lemma sort_sorted_acc : forall l acc, StronglySorted weak (map fst acc) ->
  StronglySorted weak (map fst (fold_left (fun acc f => insert_field f acc) l acc)).
Proof.
  intros l. induction l as [|f l IH]; intros acc H; cbn [fold_left]; [exact H|].
  apply IH. apply insert_sorted. exact H.
Qed.

Lemma weak_nodup_ordered : forall A (l : list (rkey * A)),
  StronglySorted weak (map fst l) -> NoDup (map fst l) -> ordered l.
Proof.
  intros A l. unfold ordered. induction (map fst l) as [|k ks IH]; intros H N; [constructor|].
  apply StronglySorted_inv in H. destruct H as [H F]. inversion N as [|? ? NI N']; subst.
  constructor; [apply IH; assumption|]. rewrite Forall_forall in *. intros x I.
  destruct (F x I) as [<-|B]; [contradiction|exact B].
Qed.

Lemma sort_ordered : forall l, NoDup (map fst l) -> ordered (sort_fields l).
Proof.
  intros l N. apply weak_nodup_ordered.
  - unfold sort_fields. apply sort_sorted_acc. constructor.
  - apply (Permutation_NoDup (Permutation_map fst (sort_perm l))). exact N.
Qed.

(** ** C21 *)

Definition dfield (d : rkey * option string) : rkey * val := (fst d, default_value (snd d)).

(** The fields pushed: the missing defaults, except that the trailing ones beyond
    the first take its key. *)
Lemma default_loop_spec : forall ds ex pushed, ordered ex -> ordered ds ->
  exists mid tl,
    default_loop ex ds pushed = pushed ++ map dfield mid ++ tl /\
    (forall d, In d mid -> (In d ds /\ ~ In (fst d) (map fst ex)) /\
                           exists f, In f ex /\ kbefore (fst d) (fst f)) /\
    ordered mid /\
    match tl with
    | [] =>
        (forall d, In d ds -> In d mid \/ In (fst d) (map fst ex)) /\
        (forall d, In d ds -> exists f, In f ex /\ (fst f = fst d \/ kbefore (fst d) (fst f)))
    | f :: tl' =>
        exists d rest,
          f = dfield d /\ tl' = map (fun r => (fst d, default_value (snd r))) rest /\
          (forall x, In x ds -> In x mid \/ In (fst x) (map fst ex) \/ In x (d :: rest)) /\
          (forall x, In x (d :: rest) -> In x ds /\ trailing ex x) /\
          (forall m, In m mid -> kbefore (fst m) (fst d)) /\
          ordered (d :: rest)
    end.
Proof.
  induction ds as [|[k v] ds IH]; intros ex pushed SE SD.
  - cbn [default_loop]. exists [], []. cbn [map app].
    rewrite app_nil_r. split; [reflexivity|]. split; [contradiction|]. split; [constructor|].
    split; contradiction.
  - apply ordered_cons in SD. destruct SD as [SD LD].
    assert (LD' : forall y, In y ds -> kbefore k (fst y)) by exact LD. clear LD.
    revert SE. induction ex as [|e ex IHx]; intros SE.
    + cbn [default_loop]. exists [], ((k, default_value v) :: map (fun d => (k, default_value (snd d))) ds).
      cbn [map app]. split; [reflexivity|]. split; [contradiction|]. split; [constructor|].
      exists (k, v), ds. split; [reflexivity|]. split; [reflexivity|].
      split; [intros x I; right; right; exact I|].
      split; [intros x I; split; [exact I|intros f []]|].
      split; [contradiction|]. apply ordered_cons. split; [exact SD|exact LD'].
    + pose proof SE as SE0. apply ordered_cons in SE. destruct SE as [SE LE].
      destruct (kcmp (fst e) k) eqn:C.
      * (* Eq *)
        apply kcmp_eq in C.
        assert (G : default_loop (e :: ex) ((k, v) :: ds) pushed = default_loop ex ds pushed).
        { cbn [default_loop]. rewrite (proj2 (kcmp_eq (fst e) k) C). reflexivity. }
        rewrite G. destruct (IH ex pushed SE SD) as (mid & tl & E & M & OM & T).
        exists mid, tl. split; [exact E|]. split.
        { intros d I. destruct (M d I) as [[I1 N] (f & If & B)].
          split; [|exists f; split; [right; exact If|exact B]]. split; [right; exact I1|].
          cbn [map]. intros [E1|I2]; [|exact (N I2)].
          specialize (LD' d I1). rewrite <- C, E1 in LD'. exact (kbefore_irrefl _ LD'). }
        split; [exact OM|]. destruct tl as [|f tl'].
        { destruct T as [T1 T2]. split.
          - intros d [<-|I]; [right; cbn [map fst]; left; exact C|].
            destruct (T1 d I) as [|I2]; [left; assumption|right; right; exact I2].
          - intros d [<-|I]; [exists e; split; [left; reflexivity|left; exact C]|].
            destruct (T2 d I) as (f & If & B). exists f. split; [right; exact If|exact B]. }
        { destruct T as (d & rest & Ef & Et & T1 & T2 & T3 & T4).
          exists d, rest. split; [exact Ef|]. split; [exact Et|]. split.
          - intros x [<-|I]; [right; left; cbn [map fst]; left; exact C|].
            destruct (T1 x I) as [|[|]]; [left; assumption|right; left; right; assumption|right; right; assumption].
          - split; [|split; assumption].
            intros x I. destruct (T2 x I) as [I1 Tr]. split; [right; exact I1|].
            intros g [<-|Ig]; [|apply Tr; exact Ig]. rewrite C. apply LD'. exact I1. }
      * (* Lt *)
        apply kcmp_lt in C.
        assert (G : default_loop (e :: ex) ((k, v) :: ds) pushed = default_loop ex ((k, v) :: ds) pushed).
        { cbn [default_loop]. rewrite (proj2 (kcmp_lt (fst e) k) C). reflexivity. }
        rewrite G. destruct (IHx SE) as (mid & tl & E & M & OM & T).
        assert (LX : forall d, In d ((k, v) :: ds) -> kbefore (fst e) (fst d)).
        { intros d [<-|I]; [exact C|]. exact (kbefore_trans _ _ _ C (LD' d I)). }
        exists mid, tl. split; [exact E|]. split.
        { intros d I. destruct (M d I) as [[I1 N] (f & If & B)].
          split; [|exists f; split; [right; exact If|exact B]]. split; [exact I1|].
          cbn [map]. intros [E1|I2]; [|exact (N I2)].
          specialize (LX d I1). rewrite E1 in LX. exact (kbefore_irrefl _ LX). }
        split; [exact OM|]. destruct tl as [|f tl'].
        { destruct T as [T1 T2]. split.
          - intros d I. destruct (T1 d I) as [|I2]; [left; assumption|right; right; exact I2].
          - intros d I. destruct (T2 d I) as (f & If & B). exists f. split; [right; exact If|exact B]. }
        { destruct T as (d & rest & Ef & Et & T1 & T2 & T3 & T4).
          exists d, rest. split; [exact Ef|]. split; [exact Et|]. split.
          - intros x I. destruct (T1 x I) as [|[|]]; [left; assumption|right; left; right; assumption|right; right; assumption].
          - split; [|split; assumption].
            intros x I. destruct (T2 x I) as [I1 Tr]. split; [exact I1|].
            intros g [<-|Ig]; [|apply Tr; exact Ig]. apply LX. exact I1. }
      * (* Gt *)
        apply kcmp_gt in C.
        assert (G : default_loop (e :: ex) ((k, v) :: ds) pushed
                    = default_loop (e :: ex) ds (pushed ++ [(k, default_value v)])).
        { cbn [default_loop]. rewrite (proj2 (kcmp_gt (fst e) k) C). reflexivity. }
        rewrite G. destruct (IH (e :: ex) (pushed ++ [(k, default_value v)]) SE0 SD) as (mid & tl & E & M & OM & T).
        exists ((k, v) :: mid), tl. split.
        { rewrite E. rewrite <- app_assoc. reflexivity. }
        split.
        { intros d [<-|I]; [|destruct (M d I) as [[I1 N] Q]; split; [split; [right; exact I1|exact N]|exact Q]].
          split; [|exists e; split; [left; reflexivity|exact C]].
          split; [left; reflexivity|]. cbn [fst map]. intros [E1|I2].
          - rewrite E1 in C. exact (kbefore_irrefl _ C).
          - apply in_map_iff in I2. destruct I2 as (y & Ey & Iy). specialize (LE y Iy).
            rewrite Ey in LE. exact (kbefore_irrefl _ (kbefore_trans _ _ _ C LE)). }
        split.
        { apply ordered_cons. split; [exact OM|]. intros y Iy. destruct (M y Iy) as [[I1 _] _]. exact (LD' y I1). }
        destruct tl as [|f tl'].
        { destruct T as [T1 T2]. split.
          - intros d [<-|I]; [left; left; reflexivity|].
            destruct (T1 d I) as [|I2]; [left; right; assumption|right; exact I2].
          - intros d [<-|I]; [exists e; split; [left; reflexivity|right; exact C]|exact (T2 d I)]. }
        { destruct T as (d & rest & Ef & Et & T1 & T2 & T3 & T4).
          exists d, rest. split; [exact Ef|]. split; [exact Et|]. split.
          - intros x [<-|I]; [left; left; reflexivity|].
            destruct (T1 x I) as [|[|]]; [left; right; assumption|right; left; assumption|right; right; assumption].
          - split; [intros x I; destruct (T2 x I) as [I1 Tr]; split; [right; exact I1|exact Tr]|].
            split; [|assumption].
            intros m [<-|Im]; [|apply T3; exact Im].
            destruct (T2 d (or_introl eq_refl)) as [I1 _]. exact (LD' d I1). }
Qed.

Lemma in_dfield : forall d mid, In d mid -> In (dfield d) (map dfield mid).
Proof. intros d mid I. apply in_map. exact I. Qed.

Lemma map_fst_dfield : forall l, map fst (map dfield l) = map fst l.
Proof. intros l. rewrite map_map. apply map_ext. intros [k v]. reflexivity. Qed.

Lemma nodup_app : forall A (l1 l2 : list A),
  NoDup l1 -> NoDup l2 -> (forall x, In x l1 -> ~ In x l2) -> NoDup (l1 ++ l2).
Proof.
  intros A l1. induction l1 as [|x l1 IH]; intros l2 N1 N2 D; cbn [app]; [exact N2|].
  inversion N1 as [|? ? NI N1']; subst. constructor.
  - intros I. apply in_app_iff in I. destruct I as [I|I]; [exact (NI I)|exact (D x (or_introl eq_refl) I)].
  - apply IH; [exact N1'|exact N2|]. intros y I. apply D. right. exact I.
Qed.

Lemma nodup_app_r : forall A (l1 l2 : list A), NoDup (l1 ++ l2) -> NoDup l2.
Proof.
  intros A l1. induction l1 as [|x l1 IH]; intros l2 N; [exact N|].
  inversion N; subst. apply IH. assumption.
Qed.

Lemma nodup_app_l : forall A (l1 l2 : list A), NoDup (l1 ++ l2) -> NoDup l1.
Proof.
  intros A l1. induction l1 as [|x l1 IH]; intros l2 N; [constructor|].
  inversion N as [|? ? NI N']; subst. constructor; [|apply (IH l2); exact N'].
  intros I. apply NI. apply in_or_app. left. exact I.
Qed.

Lemma nodup_app_disjoint : forall A (l1 l2 : list A) x, NoDup (l1 ++ l2) -> In x l1 -> In x l2 -> False.
Proof.
  intros A l1. induction l1 as [|y l1 IH]; intros l2 x N I I'; [exact I|].
  inversion N as [|? ? NI N']; subst. destruct I as [<-|I].
  - apply NI. apply in_or_app. right. exact I'.
  - exact (IH l2 x N' I I').
Qed.

(** With at most one trailing default the result is right, otherwise it isn't. *)
Lemma defaults_exact : forall ex ds, ordered ex -> ordered ds ->
  (completed ex ds (sort_fields (ex ++ default_loop ex ds [])) <->
   (forall d d', In d ds -> In d' ds -> trailing ex d -> trailing ex d' -> d = d')).
Proof.
  intros ex ds SE SD. destruct (default_loop_spec ds ex [] SE SD) as (mid & tl & E & M & OM & T).
  cbn [app] in E. rewrite E.
  assert (P : Permutation (ex ++ map dfield mid ++ tl) (sort_fields (ex ++ map dfield mid ++ tl))) by apply sort_perm.
  assert (Pk := Permutation_map fst P).
  destruct tl as [|f tl'].
  - destruct T as [T1 T2]. split.
    + intros _ d d' I I' Tr Tr'. destruct (T2 d I) as (f & If & B). specialize (Tr f If).
      exfalso. destruct B as [B|B].
      * rewrite B in Tr. exact (kbefore_irrefl _ Tr).
      * exact (kbefore_irrefl _ (kbefore_trans _ _ _ B Tr)).
    + intros _. rewrite app_nil_r in *. split; [|split; [|split]].
      * intros g I. apply (Permutation_in _ P). apply in_or_app. left. exact I.
      * intros k v I N. apply (Permutation_in _ P). apply in_or_app. right.
        destruct (T1 _ I) as [I1|I1]; [|contradiction]. apply in_dfield in I1.
        unfold dfield, default_value in I1. cbn [fst snd] in I1. exact I1.
      * intros k I. apply (Permutation_in _ (Permutation_sym Pk)) in I.
        rewrite map_app, map_fst_dfield in I. apply in_app_iff in I. destruct I as [I|I]; [left; exact I|].
        right. apply in_map_iff in I. destruct I as (d & <- & I). apply in_map. apply (proj1 (M _ I)).
      * apply (Permutation_NoDup Pk). rewrite map_app, map_fst_dfield. apply nodup_app.
        -- apply ordered_nodup. exact SE.
        -- apply ordered_nodup. exact OM.
        -- intros k I I'. apply in_map_iff in I'. destruct I' as (d & <- & I'). exact (proj2 (proj1 (M d I')) I).
  - destruct T as (d & rest & -> & -> & T1 & T2 & T3 & T4). split.
    + intros (_ & _ & _ & ND). destruct rest as [|r rest].
      * intros a a' Ia Ia' Tr Tr'.
        assert (X : forall a, In a ds -> trailing ex a -> a = d).
        { clear a a' Ia Ia' Tr Tr'. intros a Ia Tr.
          destruct (T1 a Ia) as [I|[I|I]].
          - exfalso. destruct (M a I) as [_ Q].
            destruct Q as (f & If & B). specialize (Tr f If).
            exact (kbefore_irrefl _ (kbefore_trans _ _ _ B Tr)).
          - exfalso. apply in_map_iff in I. destruct I as (f & Ef & If). specialize (Tr f If).
            rewrite Ef in Tr. exact (kbefore_irrefl _ Tr).
          - destruct I as [<-|[]]. reflexivity. }
        rewrite (X a Ia Tr), (X a' Ia' Tr'). reflexivity.
      * exfalso. apply (Permutation_NoDup (Permutation_sym Pk)) in ND.
        rewrite !map_app in ND. apply nodup_app_r in ND. apply nodup_app_r in ND.
        cbn [map dfield fst] in ND. inversion ND as [|? ? NI _]; subst. apply NI. left. reflexivity.
    + intros U. assert (rest = []) as ->.
      { destruct rest as [|r rest]; [reflexivity|exfalso].
        destruct (T2 d (or_introl eq_refl)) as [Id Td]. destruct (T2 r (or_intror (or_introl eq_refl))) as [Ir Tr].
        apply ordered_cons in T4. destruct T4 as [_ L]. specialize (L r (or_introl eq_refl)).
        rewrite (U d r Id Ir Td Tr) in L. exact (kbefore_irrefl _ L). }
      cbn [map] in *. destruct (T2 d (or_introl eq_refl)) as [Id Td].
      assert (ED : map dfield mid ++ [dfield d] = map dfield (mid ++ [d])) by (rewrite map_app; reflexivity).
      rewrite ED in *. split; [|split; [|split]].
      * intros g I. apply (Permutation_in _ P). apply in_or_app. left. exact I.
      * intros k v I N. apply (Permutation_in _ P). apply in_or_app. right.
        assert (I1 : In (k, v) (mid ++ [d])).
        { apply in_or_app. destruct (T1 _ I) as [I1|[I1|I1]]; [left; exact I1|contradiction|right; exact I1]. }
        apply in_dfield in I1. unfold dfield, default_value in I1. cbn [fst snd] in I1. exact I1.
      * intros k I. apply (Permutation_in _ (Permutation_sym Pk)) in I.
        rewrite map_app, map_fst_dfield in I. apply in_app_iff in I. destruct I as [I|I]; [left; exact I|].
        right. apply in_map_iff in I. destruct I as (x & <- & I). apply in_map.
        apply in_app_iff in I. destruct I as [I|[<-|[]]]; [exact (proj1 (proj1 (M x I)))|exact Id].
      * apply (Permutation_NoDup Pk). rewrite map_app, map_fst_dfield. apply nodup_app.
        -- apply ordered_nodup. exact SE.
        -- rewrite map_app. apply nodup_app; [apply ordered_nodup; exact OM|constructor; [intros []|constructor]|].
           intros k I [<-|[]]. apply in_map_iff in I. destruct I as (m & Em & I). specialize (T3 m I).
           rewrite Em in T3. exact (kbefore_irrefl _ T3).
        -- intros k I I'. apply in_map_iff in I'. destruct I' as (x & <- & I').
           apply in_app_iff in I'. destruct I' as [I'|[<-|[]]]; [exact (proj2 (proj1 (M x I')) I)|].
           apply in_map_iff in I. destruct I as (f & Ef & If). specialize (Td f If). rewrite Ef in Td.
           exact (kbefore_irrefl _ Td).
Qed.

(** ** The store *)

Lemma nth_set_nth : forall A n (x : A) l m,
  nth_error (set_nth n x l) m =
  if m =? n then match nth_error l n with Some _ => Some x | None => None end else nth_error l m.
Proof.
  intros A n x l. revert n. induction l as [|y l IH]; intros n m.
  - cbn [set_nth]. destruct n, m; cbn; try reflexivity. destruct (m =? n); reflexivity.
  - destruct n as [|n]; cbn [set_nth].
    + destruct m; reflexivity.
    + destruct m as [|m]; [reflexivity|]. cbn [nth_error Nat.eqb]. apply IH.
Qed.

Lemma length_set_nth : forall A n (x : A) l, List.length (set_nth n x l) = List.length l.
Proof.
  intros A n x l. revert n. induction l as [|y l IH]; intros [|n]; cbn [set_nth List.length]; auto.
Qed.

Lemma ideqb_eq : forall a b, ideqb a b = true <-> a = b.
Proof. exact keqb_eq. Qed.

Lemma get_set_fields : forall ps i fs o, get_obj ps i = Some o -> forall j,
  get_obj (set_fields ps i fs) j = if ideqb j i then Some (MkObj (o_def o) fs) else get_obj ps j.
Proof.
  intros ps [p n] fs o G [q m]. unfold set_fields, get_obj in *. cbn [fst snd] in *.
  destruct (nth_error ps p) as [pt|] eqn:Ep; [|discriminate]. rewrite G.
  rewrite nth_set_nth, Ep. unfold ideqb. cbn [fst snd].
  destruct (q =? p) eqn:Q; cbn [andb].
  - apply Nat.eqb_eq in Q. subst q. rewrite Ep. unfold put_obj, with_objs. cbn [p_objs snd].
    rewrite nth_set_nth, G. destruct (m =? n); reflexivity.
  - destruct (nth_error ps q); reflexivity.
Qed.

Lemma get_list_set_fields : forall ps i fs j, get_list (set_fields ps i fs) j = get_list ps j.
Proof.
  intros ps [p n] fs [q m]. unfold set_fields, get_list. cbn [fst snd].
  destruct (nth_error ps p) as [pt|] eqn:Ep; [|reflexivity].
  destruct (nth_error (p_objs pt) n) as [o|]; [|reflexivity].
  rewrite nth_set_nth, Ep. destruct (q =? p) eqn:Q; [|reflexivity].
  apply Nat.eqb_eq in Q. subst q. rewrite Ep. reflexivity.
Qed.

Lemma get_inacc_set_fields : forall ps i fs j, get_inacc (set_fields ps i fs) j = get_inacc ps j.
Proof.
  intros ps [p n] fs [q m]. unfold set_fields, get_inacc. cbn [fst snd].
  destruct (nth_error ps p) as [pt|] eqn:Ep; [|reflexivity].
  destruct (nth_error (p_objs pt) n) as [o|]; [|reflexivity].
  rewrite nth_set_nth, Ep. destruct (q =? p) eqn:Q; [|reflexivity].
  apply Nat.eqb_eq in Q. subst q. rewrite Ep. reflexivity.
Qed.

(** The stores agree except for the objects in [l]; those still exist. *)
Definition frame (l : list id) (ps ps' : list part) : Prop :=
  (forall i, ~ In i l -> get_obj ps' i = get_obj ps i) /\
  (forall i o, get_obj ps i = Some o -> exists fs, get_obj ps' i = Some (MkObj (o_def o) fs)) /\
  (forall i, get_list ps' i = get_list ps i) /\
  (forall i, get_inacc ps' i = get_inacc ps i).

Lemma frame_refl : forall l ps, frame l ps ps.
Proof.
  intros l ps. split; [reflexivity|]. split; [|split; reflexivity].
  intros i [d fs] G. exists fs. exact G.
Qed.

Lemma frame_trans : forall l ps1 ps2 ps3, frame l ps1 ps2 -> frame l ps2 ps3 -> frame l ps1 ps3.
Proof.
  intros l ps1 ps2 ps3 (A1 & B1 & C1 & D1) (A2 & B2 & C2 & D2).
  split; [intros i N; rewrite A2, A1; auto|]. split.
  - intros i o G. destruct (B1 i o G) as (fs & G1). destruct (B2 _ _ G1) as (fs2 & G2).
    exists fs2. exact G2.
  - split; [intros i; rewrite C2; apply C1|intros i; rewrite D2; apply D1].
Qed.

Lemma frame_weaken : forall l l' ps ps', incl l l' -> frame l ps ps' -> frame l' ps ps'.
Proof.
  intros l l' ps ps' I (A & B & C & D). split; [|split; [exact B|split; assumption]].
  intros i N. apply A. intros Il. apply N. apply I. exact Il.
Qed.

Lemma frame_set : forall ps i fs o, get_obj ps i = Some o -> frame [i] ps (set_fields ps i fs).
Proof.
  intros ps i fs o G. split; [|split; [|split]].
  - intros j N. rewrite (get_set_fields ps i fs o G). destruct (ideqb j i) eqn:E; [|reflexivity].
    apply ideqb_eq in E. subst. exfalso. apply N. left. reflexivity.
  - intros j [d f] Gj. rewrite (get_set_fields ps i fs o G). destruct (ideqb j i) eqn:E.
    + apply ideqb_eq in E. subst. exists fs. rewrite G in Gj. inversion Gj. reflexivity.
    + exists f. exact Gj.
  - intros j. apply get_list_set_fields.
  - intros j. apply get_inacc_set_fields.
Qed.

(** ** Induction on trees *)

Section TreeInd.
  Variable P : tree -> Prop.
  Hypothesis HLeaf : forall v, P (TLeaf v).
  Hypothesis HList : forall i l, Forall P l -> P (TList i l).
  Hypothesis HObj : forall i d fs, Forall P (map snd fs) -> P (TObj i d fs).
  Hypothesis HInacc : forall i t, P t -> P (TInacc i t).

  Fixpoint tree_ind2 (t : tree) : P t :=
    match t with
    | TLeaf v => HLeaf v
    | TList i l =>
        HList i l ((fix go l := match l return Forall P l with
                                | [] => Forall_nil P
                                | x :: r => Forall_cons x (tree_ind2 x) (go r)
                                end) l)
    | TObj i d fs =>
        HObj i d fs ((fix go (l : list (rkey * tree)) := match l return Forall P (map snd l) with
                                | [] => Forall_nil P
                                | (k, x) :: r => Forall_cons x (tree_ind2 x) (go r)
                                end) fs)
    | TInacc i t => HInacc i t (tree_ind2 t)
    end.
End TreeInd.

Lemma objs_fields : forall fs : list (rkey * tree),
  flat_map (fun f => objs (snd f)) fs = flat_map objs (map snd fs).
Proof. intros fs. induction fs as [|[k t] fs IH]; cbn; [reflexivity|]. rewrite IH. reflexivity. Qed.

Lemma objs_obj : forall i d fs, objs (TObj i d fs) = i :: flat_map objs (map snd fs).
Proof. intros i d fs. cbn [objs]. rewrite objs_fields. reflexivity. Qed.

Lemma rep_frame_all : forall l ps ps', frame l ps ps' ->
  forall t v, (forall i, In i l -> ~ In i (objs t)) -> rep ps v t -> rep ps' v t.
Proof.
  intros l ps ps' (A & _ & C & D).
  assert (L : forall ts, Forall (fun t => forall v, (forall i, In i l -> ~ In i (objs t)) -> rep ps v t -> rep ps' v t) ts ->
            forall vs, (forall i, In i l -> ~ In i (flat_map objs ts)) -> Forall2 (rep ps) vs ts -> Forall2 (rep ps') vs ts).
  { intros ts F. induction F as [|t ts Ht _ IH]; intros vs N R; inversion R; subst; [constructor|].
    constructor.
    - apply Ht; [|assumption]. intros i I Io. apply (N i I). cbn [flat_map]. apply in_or_app. left. exact Io.
    - apply IH; [|assumption]. intros i I Io. apply (N i I). cbn [flat_map]. apply in_or_app. right. exact Io. }
  intros t. induction t as [v0|i ts IH|i d fs IH|i t IH] using tree_ind2; intros v N R; inversion R; subst.
  - constructor. assumption.
  - econstructor; [rewrite C; eassumption|]. apply L; [exact IH|exact N|assumption].
  - rewrite objs_obj in N. econstructor; [rewrite A; [eassumption|]|assumption|].
    + intros I. apply (N i I). left. reflexivity.
    + apply L; [exact IH| |assumption]. intros j I Io. apply (N j I). right. exact Io.
  - econstructor; [rewrite D; eassumption|]. apply IH; [exact N|assumption].
Qed.

Lemma reps_frame : forall l ps ps', frame l ps ps' ->
  forall ts vs, (forall i, In i l -> ~ In i (flat_map objs ts)) -> Forall2 (rep ps) vs ts -> Forall2 (rep ps') vs ts.
Proof.
  intros l ps ps' F ts. induction ts as [|t ts IH]; intros vs N R; inversion R; subst; [constructor|].
  constructor.
  - apply (rep_frame_all l ps ps' F); [|assumption]. intros i I Io. apply (N i I). cbn [flat_map]. apply in_or_app. left. exact Io.
  - apply IH; [|assumption]. intros i I Io. apply (N i I). cbn [flat_map]. apply in_or_app. right. exact Io.
Qed.

(** ** What is serialised is what the tree shows *)

Lemma drop_hidden_show : forall (fs : fields) (ts : list (rkey * tree)) (g : val -> option out),
  map fst fs = map fst ts -> ordered ts ->
  Forall2 (fun v t => g v = Some (show t)) (map snd fs) (map snd ts) ->
  all_some (map (fun f => option_map (pair (snd (fst f))) (g (snd f))) (drop_hidden fs))
  = Some (flat_map (fun f => if fst (fst f) =? 0 then [] else [(snd (fst f), show (snd f))]) ts).
Proof.
  intros fs ts g. revert fs.
  assert (V : forall (ts : list (rkey * tree)) (fs : fields), (forall f, In f ts -> fst (fst f) <> 0) ->
            map fst fs = map fst ts ->
            Forall2 (fun v t => g v = Some (show t)) (map snd fs) (map snd ts) ->
            all_some (map (fun f => option_map (pair (snd (fst f))) (g (snd f))) fs)
            = Some (flat_map (fun f => if fst (fst f) =? 0 then [] else [(snd (fst f), show (snd f))]) ts)).
  { clear ts. induction ts as [|[k t] ts IH]; intros [|[k' v] fs] N E F; try discriminate; [reflexivity|].
    cbn [map fst snd] in E, F. inversion F as [|? ? ? ? G F']; subst. inversion E as [[E1 E2]]. subst k'.
    cbn [map flat_map fst snd all_some]. rewrite G. cbn [option_map].
    rewrite (IH fs); [|intros f I; apply N; right; exact I|exact E2|exact F'].
    destruct (fst k =? 0) eqn:Z; [|reflexivity]. apply Nat.eqb_eq in Z.
    exfalso. exact (N (k, t) (or_introl eq_refl) Z). }
  induction ts as [|[k t] ts IH]; intros [|[k' v] fs] E O F; try discriminate; [reflexivity|].
  cbn [drop_hidden fst]. cbn [map fst] in E. inversion E as [[E1 E2]]. subst k'.
  destruct (fst k =? 0) eqn:Z.
  - cbn [flat_map fst]. rewrite Z. cbn [app]. apply IH.
    + exact E2.
    + apply ordered_cons in O. apply O.
    + cbn [map snd] in F. inversion F. assumption.
  - apply V; [|cbn [map fst]; rewrite E2; reflexivity|exact F].
    apply Nat.eqb_neq in Z. apply ordered_cons in O. destruct O as [_ L].
    intros f [<-|I]; [exact Z|]. specialize (L f I). unfold kbefore in L. cbn [fst] in L. lia.
Qed.

Lemma depth_in_list : forall t l, In t l -> depth t <= fold_right (fun t n => Nat.max (depth t) n) 0 l.
Proof.
  intros t l. induction l as [|x l IH]; intros I; [destruct I|]. cbn [fold_right].
  destruct I as [<-|I]; [lia|]. specialize (IH I). lia.
Qed.

Lemma depth_fields : forall fs : list (rkey * tree),
  fold_right (fun f n => Nat.max (depth (snd f)) n) 0 fs
  = fold_right (fun t n => Nat.max (depth t) n) 0 (map snd fs).
Proof. intros fs. induction fs as [|f fs IH]; cbn; [reflexivity|]. rewrite IH. reflexivity. Qed.

Lemma ser_show : forall ps t v fuel,
  rep ps v t -> tidy t -> depth t <= fuel -> ser fuel ps v = Some (show t).
Proof.
  intros ps t. induction t as [v0|i ts IH|i d fs IH|i t IH] using tree_ind2; intros v fuel R T D; inversion R; subst.
  - destruct fuel; destruct v0; try discriminate; reflexivity.
  - inversion T; subst. destruct fuel as [|fuel]; [cbn in D; lia|].
    cbn [ser]. match goal with H : get_list _ _ = _ |- _ => rewrite H end.
    cbn [show]. cbn [depth] in D.
    assert (G : all_some (map (ser fuel ps) vs) = Some (map show ts)).
    { match goal with H : Forall2 _ vs ts |- _ => rename H into F end.
      match goal with H : Forall tidy ts |- _ => rename H into Q end.
      assert (D' : forall t, In t ts -> depth t <= fuel).
      { intros t I. pose proof (depth_in_list t ts I). lia. }
      clear - IH F Q D'. induction F as [|v t vs ts Rv F IHF]; [reflexivity|].
      inversion IH; subst. inversion Q; subst. cbn [map all_some].
      match goal with H : forall v fuel, rep _ v t -> _ |- _ => rewrite (H v fuel Rv) end;
        [|assumption|apply D'; left; reflexivity].
      rewrite IHF; [reflexivity|assumption|assumption|]. intros u I. apply D'. right. exact I. }
    rewrite G. reflexivity.
  - inversion T as [| |? ? ? O Q|]; subst. destruct fuel as [|fuel]; [cbn in D; lia|].
    match goal with H : map fst ?f = map fst fs |- _ => rename f into fs0; rename H into E end.
    match goal with H : Forall2 _ (map snd fs0) _ |- _ => rename H into F end.
    cbn [ser]. match goal with H : get_obj _ _ = _ |- _ => rewrite H end. cbn [o_fields show].
    cbn [depth] in D. rewrite depth_fields in D.
    rewrite (drop_hidden_show fs0 fs (ser fuel ps) E O); [reflexivity|].
    assert (D' : forall t, In t (map snd fs) -> depth t <= fuel).
    { intros t I. pose proof (depth_in_list t _ I). lia. }
    clear - IH F Q D'. induction F as [|v t vs ts Rv F IHF]; [constructor|].
    inversion IH; subst. inversion Q; subst. constructor.
    + match goal with H : forall v fuel, rep _ v t -> _ |- _ => apply (H v fuel Rv) end;
        [assumption|apply D'; left; reflexivity].
    + apply IHF; [assumption|assumption|]. intros u I. apply D'. right. exact I.
  - destruct fuel; reflexivity.
Qed.

(** ** C22 *)

Lemma freps_frame : forall l ps ps', frame l ps ps' ->
  forall fs ts, (forall i, In i l -> ~ In i (fobjs ts)) -> freps ps fs ts -> freps ps' fs ts.
Proof.
  intros l ps ps' F fs ts N [E R]. split; [exact E|]. exact (reps_frame l ps ps' F _ _ N R).
Qed.

Lemma freps_cons : forall ps f fs k t ts,
  freps ps (f :: fs) ((k, t) :: ts) <-> (fst f = k /\ rep ps (snd f) t) /\ freps ps fs ts.
Proof.
  intros ps f fs k t ts. unfold freps. cbn [map fst snd]. split.
  - intros [E R]. inversion E; inversion R; subst. auto.
  - intros ((E & R) & E' & R'). split; [congruence|constructor; assumption].
Qed.

Lemma freps_app : forall ps fs ts fs' ts', freps ps fs ts -> freps ps fs' ts' -> freps ps (fs ++ fs') (ts ++ ts').
Proof.
  intros ps fs ts fs' ts' [E R] [E' R']. split; rewrite !map_app; [congruence|apply Forall2_app; assumption].
Qed.

Lemma fobjs_cons : forall k t ts, fobjs ((k, t) :: ts) = objs t ++ fobjs ts.
Proof. reflexivity. Qed.

Lemma fobjs_app : forall a b, fobjs (a ++ b) = fobjs a ++ fobjs b.
Proof. intros a b. unfold fobjs. rewrite map_app. apply flat_map_app. Qed.

Definition outcome (r : res (list part)) (ps : list part) (v1 : val) (t1 t2 : tree) : Prop :=
  (exists ps' t, r = Ok ps' /\ agrees t1 t2 /\ merged t1 t2 t /\ rep ps' v1 t /\ tidy t /\
     NoDup (objs t) /\ incl (objs t) (objs t1 ++ objs t2) /\ frame (objs t1 ++ objs t2) ps ps')
  \/ (r = Panic /\ ~ agrees t1 t2).

Definition merges (mv : list part -> val -> val -> res (list part)) (B : nat) : Prop :=
  forall t1 t2 ps v1 v2, depth t1 + depth t2 < B ->
    rep ps v1 t1 -> rep ps v2 t2 -> tidy t1 -> tidy t2 -> NoDup (objs t1 ++ objs t2) ->
    outcome (mv ps v1 v2) ps v1 t1 t2.

Definition tidies (l : list (rkey * tree)) : Prop := Forall tidy (map snd l).

Lemma in_nokey : forall A k (t : A) (l : list (rkey * A)), In (k, t) l -> In k (map fst l).
Proof. intros A k t l I. apply (in_map fst) in I. exact I. Qed.

Lemma not_in_before : forall A (l : list (rkey * A)) k,
  (forall y, In y l -> kbefore k (fst y)) -> ~ In k (map fst l).
Proof.
  intros A l k H I. apply in_map_iff in I. destruct I as (y & E & I). specialize (H y I).
  rewrite E in H. exact (kbefore_irrefl _ H).
Qed.

Lemma merge_loop_spec : forall mv B, merges mv B ->
  forall new tnew ex tex ps pushed,
  freps ps ex tex -> freps ps new tnew -> ordered tex -> ordered tnew ->
  tidies tex -> tidies tnew -> NoDup (fobjs tex ++ fobjs tnew) ->
  (forall f g, In f tex -> In g tnew -> depth (snd f) + depth (snd g) < B) ->
  (exists ps' extra textra tex',
     merge_loop mv ps ex new pushed = Ok (ps', pushed ++ extra) /\
     freps ps' ex tex' /\ freps ps' extra textra /\ tidies tex' /\ tidies textra /\
     (ordered textra /\ forall k t, In (k, t) textra <-> In (k, t) tnew /\ ~ In k (map fst tex)) /\
     (forall k t t', In (k, t) tex -> In (k, t') tnew ->
        agrees t t' /\ exists u, In (k, u) tex' /\ merged t t' u) /\
     (forall k t, In (k, t) tex -> ~ In k (map fst tnew) -> In (k, t) tex') /\
     NoDup (fobjs tex' ++ fobjs textra) /\
     incl (fobjs tex' ++ fobjs textra) (fobjs tex ++ fobjs tnew) /\
     frame (fobjs tex ++ fobjs tnew) ps ps')
  \/ (merge_loop mv ps ex new pushed = Panic /\
      exists k t t', In (k, t) tex /\ In (k, t') tnew /\ ~ agrees t t').
Proof.
  intros mv B HM. induction new as [|f new IH]; intros tnew ex tex ps pushed RE RN OE ON TE TN ND DB.
  - assert (tnew = []) as -> by (destruct RN as [E _]; destruct tnew; [reflexivity|discriminate]).
    left. exists ps, [], [], tex. cbn [merge_loop]. rewrite app_nil_r.
    split; [destruct ex; reflexivity|]. split; [exact RE|]. split; [exact RN|]. split; [exact TE|].
    split; [exact TN|]. split; [split; [constructor|intros k t; cbn; tauto]|].
    split; [contradiction|]. split; [auto|]. split; [exact ND|]. split; [apply incl_refl|apply frame_refl].
  - destruct tnew as [|[kf tf] tnew]; [destruct RN as [E _]; discriminate|].
    pose proof RN as RN0. apply freps_cons in RN. destruct RN as [[Ef Rf] RN].
    pose proof ON as ON0. apply ordered_cons in ON. destruct ON as [ON LN]. cbn [fst] in LN.
    revert tex RE OE TE ND DB. induction ex as [|e ex IHx]; intros tex RE OE TE ND DB.
    + assert (tex = []) as -> by (destruct RE as [E _]; destruct tex; [reflexivity|discriminate]).
      left. exists ps, (f :: new), ((kf, tf) :: tnew), []. cbn [merge_loop].
      split; [reflexivity|]. split; [exact RE|]. split; [exact RN0|]. split; [constructor|]. split; [exact TN|].
      split; [split; [exact ON0|intros k t; cbn; tauto]|]. split; [contradiction|]. split; [contradiction|].
      split; [exact ND|]. split; [apply incl_refl|apply frame_refl].
    + destruct tex as [|[ke te] tex]; [destruct RE as [E _]; discriminate|].
      pose proof RE as RE0. apply freps_cons in RE. destruct RE as [[Ee Re] RE].
      pose proof OE as OE0. apply ordered_cons in OE. destruct OE as [OE LE]. cbn [fst] in LE.
      pose proof TE as TE0. unfold tidies in TE. cbn [map snd] in TE. inversion TE as [|? ? Tte TE']; subst.
      pose proof TN as TN0. unfold tidies in TN. cbn [map snd] in TN. inversion TN as [|? ? Ttf TN']; subst.
      rewrite !fobjs_cons in ND.
      destruct (kcmp (fst e) (fst f)) eqn:C.
      * (* Eq *)
        pose proof C as C'. apply kcmp_eq in C'.
        assert (G : merge_loop mv ps (e :: ex) (f :: new) pushed
                    = bind (mv ps (snd e) (snd f)) (fun ps' => merge_loop mv ps' ex new pushed)).
        { cbn [merge_loop]. rewrite C. reflexivity. }
        rewrite G.
        assert (NDp : NoDup ((objs te ++ objs tf) ++ (fobjs tex ++ fobjs tnew))).
        { eapply Permutation_NoDup; [|exact ND]. rewrite <- !app_assoc. apply Permutation_app_head.
          rewrite !app_assoc. apply Permutation_app_tail. apply Permutation_app_comm. }
        destruct (HM te tf ps (snd e) (snd f)) as [(ps1 & u & E1 & Ag & Mg & Ru & Tu & Nu & Iu & F1)|[E1 Ag]];
          [exact (DB _ _ (or_introl eq_refl) (or_introl eq_refl))|exact Re|exact Rf|exact Tte|exact Ttf|
           exact (nodup_app_l _ _ _ NDp)| |].
        -- rewrite E1. cbn [bind].
           assert (DJ : forall i, In i (objs te ++ objs tf) -> In i (fobjs tex ++ fobjs tnew) -> False)
             by (intros i I I'; exact (nodup_app_disjoint _ _ _ i NDp I I')).
           assert (RE1 : freps ps1 ex tex).
           { apply (freps_frame _ _ _ F1); [|exact RE]. intros i I I'. apply (DJ i I). apply in_or_app. left. exact I'. }
           assert (RN1 : freps ps1 new tnew).
           { apply (freps_frame _ _ _ F1); [|exact RN]. intros i I I'. apply (DJ i I). apply in_or_app. right. exact I'. }
           destruct (IH tnew ex tex ps1 pushed RE1 RN1 OE ON TE' TN' (nodup_app_r _ _ _ NDp)) as
             [(ps2 & extra & textra & tex' & E2 & Rx & Ry & Tx & Ty & (Oy & My) & Mx & Kx & Nx & Ix & F2)|
              (E2 & k & t & t' & I1 & I2 & NA)].
           { intros a b Ia Ib. exact (DB a b (or_intror Ia) (or_intror Ib)). }
           ++ left. exists ps2, extra, textra, ((fst e, u) :: tex').
              assert (Ru2 : rep ps2 (snd e) u).
              { apply (rep_frame_all _ _ _ F2); [|exact Ru]. intros i I I'. exact (DJ i (Iu i I') I). }
              assert (NKtex : ~ In (fst e) (map fst tex)).
              { rewrite C'. apply not_in_before. rewrite <- C'. exact LE. }
              assert (NKtnew : ~ In (fst f) (map fst tnew)) by (apply not_in_before; exact LN).
              split; [exact E2|].
              split; [apply freps_cons; split; [split; [reflexivity|exact Ru2]|exact Rx]|].
              split; [exact Ry|]. split; [constructor; assumption|]. split; [exact Ty|].
              split; [split; [exact Oy|]|split; [|split; [|split; [|split]]]].
              ** intros k t. rewrite My. cbn [map fst In]. split.
                 --- intros [I N]. split; [right; exact I|]. intros [E|I']; [|exact (N I')].
                     subst k. apply NKtnew. rewrite <- C'. exact (in_nokey _ _ _ _ I).
                 --- intros [[E|I] N].
                     +++ inversion E; subst. exfalso. apply N. left. exact C'.
                     +++ split; [exact I|]. intros I'. apply N. right. exact I'.
              ** intros k t t' [E|I] [E'|I'].
                 --- inversion E; inversion E'; subst. split; [exact Ag|]. exists u. split; [left; reflexivity|exact Mg].
                 --- inversion E; subst. exfalso. apply NKtnew. rewrite <- C'. exact (in_nokey _ _ _ _ I').
                 --- inversion E'; subst. exfalso. apply NKtex. rewrite C'. exact (in_nokey _ _ _ _ I).
                 --- destruct (Mx k t t' I I') as (A & w & Iw & Mw). split; [exact A|].
                     exists w. split; [right; exact Iw|exact Mw].
              ** intros k t [E|I] N.
                 --- inversion E; subst. exfalso. apply N. left. symmetry. exact C'.
                 --- right. apply Kx; [exact I|]. intros I'. apply N. right. exact I'.
              ** rewrite fobjs_cons, <- app_assoc. apply nodup_app; [exact Nu|exact Nx|].
                 intros i I I'. exact (DJ i (Iu i I) (Ix i I')).
              ** rewrite !fobjs_cons, <- app_assoc. intros i I. apply in_app_iff in I.
                 destruct I as [I|I].
                 --- apply Iu in I. rewrite !in_app_iff in *. tauto.
                 --- apply Ix in I. rewrite !in_app_iff in *. tauto.
              ** apply (frame_trans _ ps ps1 ps2).
                 --- apply (frame_weaken (objs te ++ objs tf)); [|exact F1].
                     rewrite !fobjs_cons. intros i I. rewrite !in_app_iff in *. tauto.
                 --- apply (frame_weaken (fobjs tex ++ fobjs tnew)); [|exact F2].
                     rewrite !fobjs_cons. intros i I. rewrite !in_app_iff in *. tauto.
           ++ right. split; [exact E2|]. exists k, t, t'. split; [right; exact I1|]. split; [right; exact I2|exact NA].
        -- right. rewrite E1. split; [reflexivity|]. exists (fst e), te, tf. split; [left; reflexivity|].
           split; [left; rewrite C'; reflexivity|exact Ag].
      * (* Lt *)
        pose proof C as C'. apply kcmp_lt in C'.
        assert (G : merge_loop mv ps (e :: ex) (f :: new) pushed = merge_loop mv ps ex (f :: new) pushed).
        { cbn [merge_loop]. rewrite C. reflexivity. }
        rewrite G.
        assert (NK : ~ In (fst e) (map fst ((fst f, tf) :: tnew))).
        { cbn [map fst]. intros [E|I].
          - rewrite E in C'. exact (kbefore_irrefl _ C').
          - apply in_map_iff in I. destruct I as (y & Ey & Iy). specialize (LN y Iy). rewrite Ey in LN.
            exact (kbefore_irrefl _ (kbefore_trans _ _ _ C' LN)). }
        assert (DJ : forall i, In i (objs te) -> In i (fobjs tex ++ fobjs ((fst f, tf) :: tnew)) -> False).
        { intros i I I'. rewrite <- app_assoc in ND. exact (nodup_app_disjoint _ _ _ i ND I I'). }
        destruct (IHx tex RE OE TE') as
          [(ps2 & extra & textra & tex' & E2 & Rx & Ry & Tx & Ty & (Oy & My) & Mx & Kx & Nx & Ix & F2)|
           (E2 & k & t & t' & I1 & I2 & NA)].
        { rewrite fobjs_cons. rewrite <- app_assoc in ND. exact (nodup_app_r _ _ _ ND). }
        { intros a b Ia Ib. exact (DB a b (or_intror Ia) Ib). }
        -- left. exists ps2, extra, textra, ((fst e, te) :: tex').
           assert (Re2 : rep ps2 (snd e) te).
           { apply (rep_frame_all _ _ _ F2); [|exact Re]. intros i I I'. exact (DJ i I' I). }
           split; [exact E2|].
           split; [apply freps_cons; split; [split; [reflexivity|exact Re2]|exact Rx]|].
           split; [exact Ry|]. split; [constructor; assumption|]. split; [exact Ty|].
           split; [split; [exact Oy|]|split; [|split; [|split; [|split]]]].
           ++ intros k t. rewrite My. split.
              ** intros [I N]. split; [exact I|]. cbn [map fst]. intros [E|I']; [|exact (N I')].
                 subst k. apply NK. exact (in_nokey _ _ _ _ I).
              ** intros [I N]. split; [exact I|]. intros I'. apply N. right. exact I'.
           ++ intros k t t' [E|I] I'.
              ** inversion E; subst. exfalso. apply NK. exact (in_nokey _ _ _ _ I').
              ** destruct (Mx k t t' I I') as (A & w & Iw & Mw). split; [exact A|].
                 exists w. split; [right; exact Iw|exact Mw].
           ++ intros k t [E|I] N; [left; exact E|right; apply Kx; assumption].
           ++ rewrite fobjs_cons, <- app_assoc. apply nodup_app.
              ** rewrite <- app_assoc in ND. exact (nodup_app_l _ _ _ ND).
              ** exact Nx.
              ** intros i I I'. exact (DJ i I (Ix i I')).
           ++ rewrite (fobjs_cons (fst e) te tex), (fobjs_cons (fst e) te tex'), <- !app_assoc.
              apply incl_app_app; [apply incl_refl|exact Ix].
           ++ apply (frame_weaken (fobjs tex ++ fobjs ((fst f, tf) :: tnew))); [|exact F2].
              rewrite (fobjs_cons (fst e) te tex), <- !app_assoc. apply incl_appr. apply incl_refl.
        -- right. split; [exact E2|]. exists k, t, t'. split; [right; exact I1|]. split; [exact I2|exact NA].
      * (* Gt *)
        pose proof C as C'. apply kcmp_gt in C'.
        assert (G : merge_loop mv ps (e :: ex) (f :: new) pushed = merge_loop mv ps (e :: ex) new (pushed ++ [f])).
        { cbn [merge_loop]. rewrite C. reflexivity. }
        rewrite G.
        assert (NK : ~ In (fst f) (map fst ((fst e, te) :: tex))).
        { cbn [map fst]. intros [E|I].
          - rewrite E in C'. exact (kbefore_irrefl _ C').
          - apply in_map_iff in I. destruct I as (y & Ey & Iy). specialize (LE y Iy). rewrite Ey in LE.
            exact (kbefore_irrefl _ (kbefore_trans _ _ _ C' LE)). }
        assert (NDp : NoDup (objs tf ++ (fobjs ((fst e, te) :: tex) ++ fobjs tnew))).
        { rewrite fobjs_cons. eapply Permutation_NoDup; [|exact ND].
          rewrite (app_assoc (objs tf)), (app_assoc (objs te ++ fobjs tex)).
          apply Permutation_app_tail. apply Permutation_app_comm. }
        assert (DJ : forall i, In i (objs tf) -> In i (fobjs ((fst e, te) :: tex) ++ fobjs tnew) -> False).
        { intros i I I'. exact (nodup_app_disjoint _ _ _ i NDp I I'). }
        destruct (IH tnew (e :: ex) ((fst e, te) :: tex) ps (pushed ++ [f]) RE0 RN OE0 ON TE0 TN' (nodup_app_r _ _ _ NDp)) as
          [(ps2 & extra & textra & tex' & E2 & Rx & Ry & Tx & Ty & (Oy & My) & Mx & Kx & Nx & Ix & F2)|
           (E2 & k & t & t' & I1 & I2 & NA)].
        { intros a b Ia Ib. exact (DB a b Ia (or_intror Ib)). }
        -- left. exists ps2, (f :: extra), ((fst f, tf) :: textra), tex'.
           assert (Rf2 : rep ps2 (snd f) tf).
           { apply (rep_frame_all _ _ _ F2); [|exact Rf]. intros i I I'. exact (DJ i I' I). }
           split; [rewrite E2, <- app_assoc; reflexivity|].
           split; [exact Rx|].
           split; [apply freps_cons; split; [split; [reflexivity|exact Rf2]|exact Ry]|].
           split; [exact Tx|]. split; [constructor; assumption|].
           split; [split; [|]|split; [|split; [|split; [|split]]]].
           ++ apply ordered_cons. split; [exact Oy|]. intros [k t] I. apply My in I. destruct I as [I _].
              exact (LN _ I).
           ++ intros k t. cbn [In]. rewrite My. split.
              ** intros [E|[I N]]; [inversion E; subst; split; [left; reflexivity|exact NK]|].
                 split; [right; exact I|exact N].
              ** intros [[E|I] N]; [left; exact E|right; split; [exact I|exact N]].
           ++ intros k t t' I [E|I'].
              ** inversion E; subst. exfalso. apply NK. exact (in_nokey _ _ _ _ I).
              ** exact (Mx k t t' I I').
           ++ intros k t I N. apply Kx; [exact I|]. intros I'. apply N. right. exact I'.
           ++ rewrite fobjs_cons.
              eapply Permutation_NoDup; [|apply (nodup_app _ (objs tf) (fobjs tex' ++ fobjs textra))].
              ** rewrite !app_assoc. apply Permutation_app_tail. apply Permutation_app_comm.
              ** exact (nodup_app_l _ _ _ NDp).
              ** exact Nx.
              ** intros i I I'. exact (DJ i I (Ix i I')).
           ++ intros i I. rewrite (fobjs_cons (fst f) tf textra) in I. rewrite (fobjs_cons (fst f) tf tnew).
              specialize (Ix i). rewrite !in_app_iff in *. tauto.
           ++ apply (frame_weaken (fobjs ((fst e, te) :: tex) ++ fobjs tnew)); [|exact F2].
              rewrite (fobjs_cons (fst f) tf tnew). intros i I. rewrite !in_app_iff in *. tauto.
        -- right. split; [exact E2|]. exists k, t, t'. split; [exact I1|]. split; [right; exact I2|exact NA].
Qed.

Lemma Forall2_length' : forall A B (R : A -> B -> Prop) l l', Forall2 R l l' -> List.length l = List.length l'.
Proof. intros A B R l l' F. induction F; cbn [List.length]; congruence. Qed.

Lemma merge_elems_spec : forall mv B, merges mv B ->
  forall ex tex new tnew ps,
  Forall2 (rep ps) ex tex -> Forall2 (rep ps) new tnew ->
  Forall tidy tex -> Forall tidy tnew -> NoDup (flat_map objs tex ++ flat_map objs tnew) ->
  (forall f g, In f tex -> In g tnew -> depth f + depth g < B) ->
  (exists ps' tex',
     merge_elems mv ps ex new = Ok ps' /\
     Forall2 (rep ps') ex tex' /\ Forall tidy tex' /\
     (forall n t t', nth_error tex n = Some t -> nth_error tnew n = Some t' ->
        agrees t t' /\ exists u, nth_error tex' n = Some u /\ merged t t' u) /\
     (forall n t, nth_error tex n = Some t -> nth_error tnew n = None -> nth_error tex' n = Some t) /\
     NoDup (flat_map objs tex') /\
     incl (flat_map objs tex') (flat_map objs tex ++ flat_map objs tnew) /\
     frame (flat_map objs tex ++ flat_map objs tnew) ps ps')
  \/ (merge_elems mv ps ex new = Panic /\
      exists n t t', nth_error tex n = Some t /\ nth_error tnew n = Some t' /\ ~ agrees t t').
Proof.
  intros mv B HM. induction ex as [|e ex IH]; intros tex new tnew ps RE RN TE TN ND DB.
  - inversion RE; subst. left. exists ps, []. cbn [merge_elems].
    split; [reflexivity|]. split; [constructor|]. split; [constructor|].
    split; [intros [|n] t t' E; discriminate|]. split; [intros [|n] t E; discriminate|].
    split; [constructor|]. split; [intros i []|apply frame_refl].
  - inversion RE as [|? te ? tex1 Re RE1]; subst. destruct new as [|f new].
    + inversion RN; subst. left. exists ps, (te :: tex1). cbn [merge_elems].
      split; [reflexivity|]. split; [exact RE|]. split; [exact TE|].
      split; [intros [|n] t t' _ E; discriminate|]. split; [auto|].
      cbn [flat_map] in *. rewrite app_nil_r in *. split; [exact ND|]. split; [apply incl_refl|apply frame_refl].
    + inversion RN as [|? tf ? tnew1 Rf RN1]; subst.
      inversion TE as [|? ? Tte TE']; subst. inversion TN as [|? ? Ttf TN']; subst.
      cbn [flat_map] in ND. cbn [merge_elems].
      assert (NDp : NoDup ((objs te ++ objs tf) ++ (flat_map objs tex1 ++ flat_map objs tnew1))).
      { eapply Permutation_NoDup; [|exact ND]. rewrite <- !app_assoc. apply Permutation_app_head.
        rewrite !app_assoc. apply Permutation_app_tail. apply Permutation_app_comm. }
      destruct (HM te tf ps e f) as [(ps1 & u & E1 & Ag & Mg & Ru & Tu & Nu & Iu & F1)|[E1 Ag]];
        [exact (DB _ _ (or_introl eq_refl) (or_introl eq_refl))|exact Re|exact Rf|exact Tte|exact Ttf|
         exact (nodup_app_l _ _ _ NDp)| |].
      * rewrite E1. cbn [bind].
        assert (DJ : forall i, In i (objs te ++ objs tf) -> In i (flat_map objs tex1 ++ flat_map objs tnew1) -> False)
          by (intros i I I'; exact (nodup_app_disjoint _ _ _ i NDp I I')).
        assert (RE2 : Forall2 (rep ps1) ex tex1).
        { apply (reps_frame _ _ _ F1); [|exact RE1]. intros i I I'. apply (DJ i I). apply in_or_app. left. exact I'. }
        assert (RN2 : Forall2 (rep ps1) new tnew1).
        { apply (reps_frame _ _ _ F1); [|exact RN1]. intros i I I'. apply (DJ i I). apply in_or_app. right. exact I'. }
        destruct (IH tex1 new tnew1 ps1 RE2 RN2 TE' TN' (nodup_app_r _ _ _ NDp)) as
          [(ps2 & tex' & E2 & Rx & Tx & Mx & Kx & Nx & Ix & F2)|(E2 & n & t & t' & I1 & I2 & NA)].
        { intros a b Ia Ib. exact (DB a b (or_intror Ia) (or_intror Ib)). }
        -- left. exists ps2, (u :: tex').
           assert (Ru2 : rep ps2 e u).
           { apply (rep_frame_all _ _ _ F2); [|exact Ru]. intros i I I'. exact (DJ i (Iu i I') I). }
           split; [exact E2|]. split; [constructor; assumption|]. split; [constructor; assumption|].
           split; [|split; [|split; [|split]]].
           ++ intros [|n] t t' G G'; cbn [nth_error] in *.
              ** inversion G; inversion G'; subst. split; [exact Ag|]. exists u. split; [reflexivity|exact Mg].
              ** exact (Mx n t t' G G').
           ++ intros [|n] t G G'; cbn [nth_error] in *; [discriminate|exact (Kx n t G G')].
           ++ cbn [flat_map]. apply nodup_app; [exact Nu|exact Nx|].
              intros i I I'. exact (DJ i (Iu i I) (Ix i I')).
           ++ cbn [flat_map]. intros i I. apply in_app_iff in I. destruct I as [I|I].
              ** apply Iu in I. rewrite !in_app_iff in *. tauto.
              ** apply Ix in I. rewrite !in_app_iff in *. tauto.
           ++ apply (frame_trans _ ps ps1 ps2).
              ** apply (frame_weaken (objs te ++ objs tf)); [|exact F1].
                 cbn [flat_map]. intros i I. rewrite !in_app_iff in *. tauto.
              ** apply (frame_weaken (flat_map objs tex1 ++ flat_map objs tnew1)); [|exact F2].
                 cbn [flat_map]. intros i I. rewrite !in_app_iff in *. tauto.
        -- right. split; [exact E2|]. exists (S n), t, t'. auto.
      * right. rewrite E1. split; [reflexivity|]. exists 0, te, tf. auto.
Qed.

Lemma rep_obj_inv : forall ps v i d ts, rep ps v (TObj i d ts) ->
  v = VObj i /\ exists fs, get_obj ps i = Some (MkObj d fs) /\ freps ps fs ts.
Proof. intros ps v i d ts R. inversion R; subst. split; [reflexivity|]. exists fs. repeat split; assumption. Qed.

(** Merging fields into an object. *)
Lemma merge_obj_spec : forall mv B, merges mv B ->
  forall ps i d ts new tnew fs,
  get_obj ps i = Some (MkObj d fs) -> freps ps fs ts -> freps ps new tnew ->
  ordered ts -> ordered tnew -> tidies ts -> tidies tnew ->
  NoDup (objs (TObj i d ts) ++ fobjs tnew) ->
  (forall f g, In f ts -> In g tnew -> depth (snd f) + depth (snd g) < B) ->
  (exists ps' r,
     merge_obj mv ps i new = Ok ps' /\
     (forall k t t', In (k, t) ts -> In (k, t') tnew -> agrees t t') /\
     (forall i' d', merged (TObj i d ts) (TObj i' d' tnew) (TObj i d r)) /\
     rep ps' (VObj i) (TObj i d r) /\ tidy (TObj i d r) /\
     NoDup (objs (TObj i d r)) /\
     incl (objs (TObj i d r)) (objs (TObj i d ts) ++ fobjs tnew) /\
     frame (objs (TObj i d ts) ++ fobjs tnew) ps ps')
  \/ (merge_obj mv ps i new = Panic /\
      exists k t t', In (k, t) ts /\ In (k, t') tnew /\ ~ agrees t t').
Proof.
  intros mv B HM ps i d ts new tnew fs G RE RN OE ON TE TN ND DB.
  rewrite objs_obj in *. fold (fobjs ts) in *. cbn [app] in ND. inversion ND as [|? ? NI ND']; subst.
  unfold merge_obj. destruct new as [|f0 new0].
  - assert (tnew = []) as -> by (destruct RN as [E _]; destruct tnew; [reflexivity|discriminate]).
    left. exists ps, ts. split; [reflexivity|]. split; [contradiction|]. split.
    { intros i' d'. constructor; [exact OE| | | |].
      - intros k t I _. exact I.
      - contradiction.
      - contradiction.
      - intros k I. left. exact I. }
    split; [destruct RE; econstructor; eassumption|]. split; [constructor; assumption|].
    rewrite objs_obj. fold (fobjs ts). unfold fobjs at 2 4 6. cbn [map flat_map]. rewrite app_nil_r.
    split; [constructor; [intros I; apply NI; apply in_or_app; left; exact I|exact (nodup_app_l _ _ _ ND')]|].
    split; [apply incl_refl|apply frame_refl].
  - set (new := f0 :: new0) in *. rewrite G. cbn [o_fields].
    pose proof (frame_set ps i [] _ G) as F0.
    assert (DJ : forall j, In j [i] -> ~ In j (fobjs ts) /\ ~ In j (fobjs tnew)).
    { intros j [<-|[]]. split; intros I; apply NI; apply in_or_app; [left|right]; exact I. }
    assert (RE1 : freps (set_fields ps i []) fs ts)
      by (apply (freps_frame _ _ _ F0); [intros j I; exact (proj1 (DJ j I))|exact RE]).
    assert (RN1 : freps (set_fields ps i []) new tnew)
      by (apply (freps_frame _ _ _ F0); [intros j I; exact (proj2 (DJ j I))|exact RN]).
    destruct (merge_loop_spec mv B HM new tnew fs ts _ [] RE1 RN1 OE ON TE TN ND' DB) as
      [(ps2 & extra & textra & tex' & E2 & Rx & Ry & Tx & Ty & (Oy & My) & Mx & Kx & Nx & Ix & F2)|
       (E2 & k & t & t' & I1 & I2 & NA)].
    + left. rewrite E2. cbn [bind fst snd app].
      (* the trees of the sorted fields *)
      assert (Q : exists r, freps ps2 (sort_fields (fs ++ extra)) r /\ Permutation (tex' ++ textra) r).
      { assert (R : freps ps2 (fs ++ extra) (tex' ++ textra)) by (apply freps_app; assumption).
        pose proof (sort_perm (fs ++ extra)) as P.
        clear - R P. revert R. generalize (tex' ++ textra).
        induction P as [|x l l' P IH|x y l|l l' l'' P1 IH1 P2 IH2]; intros ts R.
        - exists ts. split; [exact R|reflexivity].
        - destruct ts as [|[k t] ts]; [destruct R as [E _]; discriminate|].
          apply freps_cons in R. destruct R as [[E R1] R]. destruct (IH ts R) as (r & Rr & Pr).
          exists ((k, t) :: r). split; [apply freps_cons; auto|]. constructor. exact Pr.
        - destruct ts as [|[k1 t1] [|[k2 t2] ts]]; [destruct R as [E _]; discriminate|destruct R as [E _]; discriminate|].
          apply freps_cons in R. destruct R as [R1 R]. apply freps_cons in R. destruct R as [R2 R].
          exists ((k2, t2) :: (k1, t1) :: ts). split; [|constructor].
          apply freps_cons; split; [exact R2|]. apply freps_cons; split; [exact R1|exact R].
        - destruct (IH1 ts R) as (r1 & Rr1 & Pr1). destruct (IH2 r1 Rr1) as (r2 & Rr2 & Pr2).
          exists r2. split; [exact Rr2|]. rewrite Pr1. exact Pr2. }
      destruct Q as (r & Rr & Pr).
      assert (Kt : map fst tex' = map fst ts) by (destruct Rx as [Ex _]; destruct RE as [Ee _]; congruence).
      assert (NK : NoDup (map fst (tex' ++ textra))).
      { rewrite map_app, Kt. apply nodup_app; [apply ordered_nodup; exact OE|apply ordered_nodup; exact Oy|].
        intros k I I'. apply in_map_iff in I'. destruct I' as ([k' t'] & <- & I').
        apply My in I'. exact (proj2 I' I). }
      assert (Or : ordered r).
      { assert (NKs : NoDup (map fst (fs ++ extra))).
        { assert (E : map fst (fs ++ extra) = map fst (tex' ++ textra)).
          { rewrite !map_app. destruct Rx as [-> _]. destruct Ry as [-> _]. reflexivity. }
          rewrite E. exact NK. }
        pose proof (sort_ordered (fs ++ extra) NKs) as O. unfold ordered in *. destruct Rr as [Er _].
        rewrite <- Er. exact O. }
      assert (Gi : exists fs', get_obj ps2 i = Some (MkObj d fs')).
      { destruct F0 as (_ & B0 & _). destruct (B0 i _ G) as (g & Gg).
        destruct F2 as (_ & B2 & _). destruct (B2 i _ Gg) as (h & Gh). exists h. exact Gh. }
      destruct Gi as (fs' & Gi).
      pose proof (frame_set ps2 i (sort_fields (fs ++ extra)) _ Gi) as F3.
      exists (set_fields ps2 i (sort_fields (fs ++ extra))), r.
      assert (Po : Permutation (fobjs tex' ++ fobjs textra) (fobjs r)).
      { rewrite <- fobjs_app. unfold fobjs. apply Permutation_flat_map. apply Permutation_map. exact Pr. }
      assert (Ir : incl (fobjs r) (fobjs ts ++ fobjs tnew)).
      { intros j I. apply Ix. apply (Permutation_in _ (Permutation_sym Po)). exact I. }
      split; [reflexivity|]. split; [intros k t t' I I'; exact (proj1 (Mx k t t' I I'))|]. split.
      { intros i' d'. constructor; [exact Or| | | |].
        - intros k t I N. apply (Permutation_in _ Pr). apply in_or_app. left. apply Kx; assumption.
        - intros k t I N. apply (Permutation_in _ Pr). apply in_or_app. right. apply My. auto.
        - intros k t t' I I'. destruct (Mx k t t' I I') as (_ & u & Iu & Mu). exists u.
          split; [|exact Mu]. apply (Permutation_in _ Pr). apply in_or_app. left. exact Iu.
        - intros k I. apply (Permutation_in _ (Permutation_map fst (Permutation_sym Pr))) in I.
          rewrite map_app, Kt in I. apply in_app_iff in I. destruct I as [I|I]; [left; exact I|].
          right. apply in_map_iff in I. destruct I as ([k' t'] & <- & I). apply My in I.
          exact (in_nokey _ _ _ _ (proj1 I)). }
      split.
      { assert (R3 : freps (set_fields ps2 i (sort_fields (fs ++ extra))) (sort_fields (fs ++ extra)) r).
        { apply (freps_frame _ _ _ F3); [|exact Rr]. intros j [<-|[]] I. apply NI. apply Ir. exact I. }
        destruct R3 as [Ek Rk]. econstructor; [|exact Ek|exact Rk].
        rewrite (get_set_fields _ _ _ _ Gi). rewrite (proj2 (ideqb_eq i i) eq_refl). reflexivity. }
      split.
      { constructor; [exact Or|]. rewrite Forall_forall. intros t I.
        apply in_map_iff in I. destruct I as (kt & <- & I). apply (Permutation_in _ (Permutation_sym Pr)) in I.
        unfold tidies in *. rewrite Forall_forall in Tx, Ty. apply in_app_iff in I.
        destruct I as [I|I]; [apply Tx|apply Ty]; apply in_map; exact I. }
      rewrite objs_obj. fold (fobjs r). split.
      { constructor; [intros I; apply NI; apply Ir; exact I|]. exact (Permutation_NoDup Po Nx). }
      split.
      { intros j [<-|I]; [left; reflexivity|right; apply Ir; exact I]. }
      apply (frame_trans _ _ (set_fields ps i [])).
      { apply (frame_weaken [i]); [intros j [<-|[]]; left; reflexivity|exact F0]. }
      apply (frame_trans _ _ ps2).
      { apply (frame_weaken (fobjs ts ++ fobjs tnew)); [intros j I; right; exact I|exact F2]. }
      apply (frame_weaken [i]); [intros j [<-|[]]; left; reflexivity|exact F3].
    + right. rewrite E2. split; [reflexivity|]. exists k, t, t'. auto.
Qed.

Lemma merged_obj_any : forall i d fs fs' r i' d' i2 d2,
  merged (TObj i d fs) (TObj i' d' fs') (TObj i d r) -> merged (TObj i d fs) (TObj i2 d2 fs') (TObj i d r).
Proof. intros i d fs fs' r i' d' i2 d2 M. inversion M; subst. constructor; assumption. Qed.

Lemma rep_notinacc : forall ps v t, rep ps v t -> (forall i, v <> VInacc i) -> forall j u, t <> TInacc j u.
Proof. intros ps v t R N j u E. subst. inversion R; subst. exact (N j eq_refl). Qed.

Lemma merge_value_spec : forall n, merges (merge_value n) n.
Proof.
  induction n as [|n IH]; intros t1 t2 ps v1 v2 D R1 R2 T1 T2 ND; [lia|].
  cbn [merge_value].
  (* the hidden values *)
  assert (Both : forall i1 u1 i2 u2, t1 = TInacc i1 u1 -> t2 = TInacc i2 u2 ->
     outcome (match get_inacc ps i1, get_inacc ps i2 with
              | Some ve, Some vn => merge_value n ps ve vn | _, _ => Panic end) ps v1 t1 t2).
  { intros i1 u1 i2 u2 -> ->. inversion R1 as [| | |? w1 ? G1 Ru1]; subst. inversion R2 as [| | |? w2 ? G2 Ru2]; subst.
    rewrite G1, G2. inversion T1; subst. inversion T2; subst. cbn [objs] in *. cbn [depth] in D.
    destruct (IH u1 u2 ps w1 w2 ltac:(lia) Ru1 Ru2) as [(ps' & t & E & A & M & R & T & N & I & F)|[E A]];
      [assumption|assumption|assumption| |].
    - left. exists ps', (TInacc i1 t). split; [exact E|]. split; [constructor; exact A|].
      split; [constructor; exact M|]. split; [econstructor; [|exact R]|].
      { destruct F as (_ & _ & _ & Fi). rewrite Fi. exact G1. }
      split; [constructor; exact T|]. split; [exact N|]. split; [exact I|exact F].
    - right. split; [exact E|]. intros A'. inversion A'; subst; [contradiction| |].
      + match goal with H : forall j u, _ <> _ |- _ => exact (H _ _ eq_refl) end.
      + match goal with H : forall j u, _ <> _ |- _ => exact (H _ _ eq_refl) end. }
  assert (Left : forall i1 u1, t1 = TInacc i1 u1 -> (forall j u, t2 <> TInacc j u) ->
     outcome (match get_inacc ps i1 with Some ve => merge_value n ps ve v2 | None => Panic end) ps v1 t1 t2).
  { intros i1 u1 -> NI. inversion R1 as [| | |? w1 ? G1 Ru1]; subst. rewrite G1.
    inversion T1; subst. cbn [objs] in *. cbn [depth] in D.
    destruct (IH u1 t2 ps w1 v2 ltac:(lia) Ru1 R2) as [(ps' & t & E & A & M & R & T & N & I & F)|[E A]];
      [assumption|assumption|assumption| |].
    - left. exists ps', (TInacc i1 t). split; [exact E|]. split; [apply AgInaccL; assumption|].
      split; [apply MgInaccL; assumption|]. split; [econstructor; [|exact R]|].
      { destruct F as (_ & _ & _ & Fi). rewrite Fi. exact G1. }
      split; [constructor; exact T|]. split; [exact N|]. split; [exact I|exact F].
    - right. split; [exact E|]. intros A'. inversion A'; subst.
      + exact (NI _ _ eq_refl).
      + contradiction.
      + exact (NI _ _ eq_refl). }
  assert (Right : forall i2 u2, t2 = TInacc i2 u2 -> (forall j u, t1 <> TInacc j u) ->
     outcome (match get_inacc ps i2 with Some vn => merge_value n ps v1 vn | None => Panic end) ps v1 t1 t2).
  { intros i2 u2 -> NI. inversion R2 as [| | |? w2 ? G2 Ru2]; subst. rewrite G2.
    inversion T2; subst. cbn [objs] in *. cbn [depth] in D.
    destruct (IH t1 u2 ps v1 w2 ltac:(lia) R1 Ru2) as [(ps' & t & E & A & M & R & T & N & I & F)|[E A]];
      [assumption|assumption|assumption| |].
    - left. exists ps', t. split; [exact E|]. split; [apply AgInaccR; assumption|].
      split; [apply MgInaccR; assumption|]. split; [exact R|].
      split; [exact T|]. split; [exact N|]. split; [exact I|exact F].
    - right. split; [exact E|]. intros A'. inversion A'; subst.
      + exact (NI _ _ eq_refl).
      + exact (NI _ _ eq_refl).
      + contradiction. }
  destruct R1 as [v1 L1|i1 vs1 ts1 G1 F1|i1 d1 fs1 ts1 G1 K1 F1|i1 w1 u1 G1 Ru1];
    destruct R2 as [v2 L2|i2 vs2 ts2 G2 F2|i2 d2 fs2 ts2 G2 K2 F2|i2 w2 u2 G2 Ru2].
  all: try (apply (Both _ _ _ _ eq_refl eq_refl)).
  all: try (destruct v2; try discriminate L2; apply (Left _ _ eq_refl); intros j u E; discriminate).
  all: try (apply (Left _ _ eq_refl); intros j u E; discriminate).
  all: try (destruct v1; try discriminate L1; apply (Right _ _ eq_refl); intros j u E; discriminate).
  all: try (apply (Right _ _ eq_refl); intros j u E; discriminate).
  - (* two leaves *)
    destruct (match v1, v2 with VNull, VNull => true | _, _ => false end) eqn:Q.
    + destruct v1, v2; try discriminate. left. exists ps, (TLeaf VNull).
      split; [reflexivity|]. split; [constructor|]. split; [constructor|]. split; [constructor; reflexivity|].
      split; [constructor|]. split; [constructor|]. split; [intros i []|apply frame_refl].
    + right. split; [destruct v1, v2; try discriminate; reflexivity|].
      intros A. inversion A; subst; discriminate.
  - right. split; [destruct v1; try discriminate; reflexivity|]. intros A; inversion A.
  - right. split; [destruct v1; try discriminate; reflexivity|]. intros A; inversion A.
  - right. split; [destruct v2; try discriminate; reflexivity|]. intros A; inversion A.
  - (* two lists *)
    unfold merge_list. rewrite G1, G2. cbn [depth] in D. inversion T1; subst. inversion T2; subst.
    cbn [objs] in ND.
    destruct (merge_elems_spec (merge_value n) n IH vs1 ts1 vs2 ts2 ps F1 F2) as
      [(ps' & r & E & R & T & M & K & N & I & F)|(E & m & t & t' & I1 & I2 & NA)];
      [assumption|assumption|assumption| | |].
    + intros f g If Ig. pose proof (depth_in_list _ _ If). pose proof (depth_in_list _ _ Ig). lia.
    + left. exists ps', (TList i1 r). split; [exact E|].
      split; [constructor; intros m t t' A A'; exact (proj1 (M m t t' A A'))|].
      assert (LR : List.length r = List.length ts1).
      { apply Forall2_length' in R. apply Forall2_length' in F1. congruence. }
      split; [constructor; [exact LR| |exact K]|].
      { intros m t t' A A'. exact (proj2 (M m t t' A A')). }
      split; [econstructor; [|exact R]|].
      { destruct F as (_ & _ & Fl & _). rewrite Fl. exact G1. }
      split; [constructor; exact T|]. cbn [objs]. auto.
    + right. split; [exact E|]. intros A. inversion A as [| |? ? ? ? H| | |]; subst. apply NA.
      exact (H m t t' I1 I2).
  - right. split; [reflexivity|]. intros A; inversion A.
  - right. split; [destruct v2; try discriminate; reflexivity|]. intros A; inversion A.
  - right. split; [reflexivity|]. intros A; inversion A.
  - (* two objects *)
    rewrite G2. cbn [o_fields].
    cbn [depth] in D. rewrite !depth_fields in D.
    inversion T1 as [| |? ? ? O1 Q1|]; subst. inversion T2 as [| |? ? ? O2 Q2|]; subst.
    rewrite (objs_obj i2) in ND. fold (fobjs ts2) in ND.
    pose proof (frame_set ps i2 [] _ G2) as F0.
    assert (NDp : NoDup (i2 :: objs (TObj i1 d1 ts1) ++ fobjs ts2)).
    { eapply Permutation_NoDup; [|exact ND]. symmetry. apply Permutation_middle. }
    assert (NI : ~ In i2 (objs (TObj i1 d1 ts1) ++ fobjs ts2)) by (apply NoDup_cons_iff in NDp; apply NDp).
    assert (ND' : NoDup (objs (TObj i1 d1 ts1) ++ fobjs ts2)) by (apply NoDup_cons_iff in NDp; apply NDp).
    assert (N21 : ideqb i1 i2 = false).
    { destruct (ideqb i1 i2) eqn:E; [|reflexivity]. apply ideqb_eq in E. subst. exfalso. apply NI.
      apply in_or_app. left. left. reflexivity. }
    assert (G1' : get_obj (set_fields ps i2 []) i1 = Some (MkObj d1 fs1)).
    { rewrite (get_set_fields ps i2 [] _ G2), N21. exact G1. }
    assert (A1 : freps (set_fields ps i2 []) fs1 ts1).
    { apply (freps_frame _ _ _ F0); [|split; assumption]. intros j [<-|[]] I. apply NI.
      apply in_or_app. left. change (In i2 (objs (TObj i1 d1 ts1))). rewrite objs_obj. right. exact I. }
    assert (A2 : freps (set_fields ps i2 []) fs2 ts2).
    { apply (freps_frame _ _ _ F0); [|split; assumption]. intros j [<-|[]] I. apply NI.
      apply in_or_app. right. exact I. }
    destruct (merge_obj_spec (merge_value n) n IH _ i1 d1 ts1 fs2 ts2 fs1 G1' A1 A2 O1 O2 Q1 Q2 ND') as
      [(ps' & r & E & Ag & M & R & T & N & I & F)|(E & k & t & t' & I1 & I2 & NA)].
    + intros f g If Ig. pose proof (depth_in_list _ _ (in_map snd _ _ If)). pose proof (depth_in_list _ _ (in_map snd _ _ Ig)). lia.
    + left. exists ps', (TObj i1 d1 r). split; [exact E|]. split; [constructor; exact Ag|].
      split; [apply M|]. split; [exact R|]. split; [exact T|]. split; [exact N|].
      rewrite (objs_obj i2). fold (fobjs ts2). split.
      * intros j Ij. apply I in Ij. apply in_app_iff in Ij. apply in_or_app.
        destruct Ij as [Ij|Ij]; [left; exact Ij|right; right; exact Ij].
      * apply (frame_trans _ _ (set_fields ps i2 [])).
        -- apply (frame_weaken [i2]); [|exact F0]. intros j [<-|[]]. apply in_or_app. right. left. reflexivity.
        -- apply (frame_weaken (objs (TObj i1 d1 ts1) ++ fobjs ts2)); [|exact F].
           intros j Ij. apply in_app_iff in Ij. apply in_or_app.
           destruct Ij as [Ij|Ij]; [left; exact Ij|right; right; exact Ij].
    + right. split; [exact E|]. intros A. inversion A as [|? ? ? ? ? ? H| | | |]; subst. apply NA. exact (H k t t' I1 I2).
Qed.
