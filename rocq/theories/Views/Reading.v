(** Proofs: what is written is what is to be read. *)

From Coq Require Import List Arith ZArith String Bool Lia.
From Verif Require Import Response.Model Response.Spec Response.Merge Views.Model Views.Spec Views.Trees.
Import ListNotations.
Local Open Scope nat_scope.

(** ** Fields, types, leaves *)

Lemma find_value_some : forall (fs : list (rkey * tree)) k t,
  find_value k fs = Some t -> carries fs k t.
Proof.
  intros fs k t. unfold find_value, carries. induction fs as [|[[p k'] t'] fs IH]; [discriminate|].
  cbn [find fst snd]. destruct (Nat.eqb k' k) eqn:E.
  - cbn [option_map snd]. intros H. injection H as <-. apply Nat.eqb_eq in E. subst k'. exists p. left. reflexivity.
  - intros H. destruct (IH H) as (q & Iq). exists q. right. exact Iq.
Qed.

Lemma find_value_none : forall (fs : list (rkey * tree)) k, find_value k fs = None -> lacks fs k.
Proof.
  intros fs k H t (p & Ip). unfold find_value in H. induction fs as [|[[p' k'] t'] fs IH]; [destruct Ip|].
  cbn [find fst snd] in H. destruct (Nat.eqb k' k) eqn:E; [discriminate|].
  destruct Ip as [E'|Ip]; [|exact (IH H Ip)].
  injection E' as -> -> ->. rewrite Nat.eqb_refl in E. discriminate.
Qed.

Lemma carries_find : forall (fs : list (rkey * tree)) k t, NoDup (map (fun f => snd (fst f)) fs) ->
  carries fs k t -> find_value k fs = Some t.
Proof.
  intros fs k t N (p & Ip). unfold find_value. induction fs as [|[[p' k'] t'] fs IH]; [destruct Ip|].
  cbn [map fst snd] in N. inversion N as [|? ? N1 N2]; subst. cbn [find fst snd].
  destruct (Nat.eqb k' k) eqn:E.
  - apply Nat.eqb_eq in E. subst k'. destruct Ip as [E'|Ip].
    + injection E' as -> ->. reflexivity.
    + exfalso. apply N1. apply (in_map (fun f : rkey * tree => snd (fst f))) in Ip. exact Ip.
  - destruct Ip as [E'|Ip]; [|exact (IH N2 Ip)].
    injection E' as -> -> ->. rewrite Nat.eqb_refl in E. discriminate.
Qed.

Lemma lacks_find : forall (fs : list (rkey * tree)) k, lacks fs k -> find_value k fs = None.
Proof.
  intros fs k L. destruct (find_value k fs) as [t|] eqn:E; [|reflexivity].
  exfalso. exact (L t (find_value_some fs k t E)).
Qed.

Lemma skips_other : forall d e, skips d e = true <-> other_type d e.
Proof.
  intros d e. unfold skips, other_type. destruct d as [o|].
  - rewrite negb_true_iff. split.
    + intros H. exists o. split; [reflexivity|]. destruct e as [o'|l]; cbn [is_a] in H.
      * apply Nat.eqb_neq in H. exact H.
      * intros I. assert (X : existsb (Nat.eqb o) l = true).
        { apply existsb_exists. exists o. split; [exact I|apply Nat.eqb_refl]. }
        rewrite X in H. discriminate.
    + intros (o' & E & H). injection E as <-. destruct e as [o'|l]; cbn [is_a].
      * apply Nat.eqb_neq. exact H.
      * destruct (existsb (Nat.eqb o) l) eqn:X; [|reflexivity]. apply existsb_exists in X.
        destruct X as (x & I & E). apply Nat.eqb_eq in E. subst x. exfalso. exact (H I).
  - split; [discriminate|]. intros (o & E & _). discriminate.
Qed.

Lemma leaf_plain : forall v x, leaf v = VOk x <-> plain v x.
Proof.
  intros v x. split.
  - destruct v; cbn [leaf]; intros H; try discriminate; injection H as <-; constructor.
  - intros P. destruct P; reflexivity.
Qed.

Definition calm {A} (r : vres A) : Prop := r <> VCrash /\ r <> VFuel.

Lemma leaf_calm : forall v, calm (leaf v).
Proof. intros v. destruct v; split; discriminate. Qed.

Lemma vbind_ok : forall A B (r : vres A) (k : A -> vres B) b,
  vbind r k = VOk b <-> exists a, r = VOk a /\ k a = VOk b.
Proof.
  intros A B r k b. destruct r as [a| | |]; cbn [vbind]; split; try discriminate.
  - intros H. exists a. auto.
  - intros (a' & E & H). injection E as <-. exact H.
  - intros (a' & E & _). discriminate.
  - intros (a' & E & _). discriminate.
  - intros (a' & E & _). discriminate.
Qed.

Lemma vbind_calm : forall A B (r : vres A) (k : A -> vres B), calm r -> (forall a, r = VOk a -> calm (k a)) -> calm (vbind r k).
Proof.
  intros A B r k [C1 C2] H. destruct r as [a| | |]; cbn [vbind].
  - apply H. reflexivity.
  - split; discriminate.
  - congruence.
  - congruence.
Qed.

Lemma ok_calm : forall A (a : A), calm (VOk a).
Proof. intros A a. split; discriminate. Qed.

Lemma vall_ok : forall A (l : list (vres A)) xs, vall l = VOk xs <-> Forall2 (fun r x => r = VOk x) l xs.
Proof.
  intros A l. induction l as [|r l IH]; intros xs; cbn [vall].
  - split; [intros H; injection H as <-; constructor|intros H; inversion H; reflexivity].
  - rewrite vbind_ok. split.
    + intros (a & E & H). apply vbind_ok in H. destruct H as (b & Eb & H). injection H as <-.
      constructor; [exact E|]. apply IH. exact Eb.
    + intros F. inversion F as [|? x ? xs' E F']; subst. exists x. split; [reflexivity|].
      apply vbind_ok. exists xs'. split; [apply IH; exact F'|reflexivity].
Qed.

Lemma vall_calm : forall A (l : list (vres A)), Forall calm l -> calm (vall l).
Proof.
  intros A l F. induction F as [|r l C F IH]; cbn [vall]; [apply ok_calm|].
  apply vbind_calm; [exact C|]. intros a _. apply vbind_calm; [exact IH|]. intros b _. apply ok_calm.
Qed.

(** Lists are read element by element. *)
Lemma list_ok : forall (f : tree -> vres out) (P : tree -> out -> Prop) l xs,
  (forall t x, In t l -> (f t = VOk x <-> P t x)) ->
  (vall (map f l) = VOk xs <-> Forall2 P l xs).
Proof.
  intros f P l xs H. rewrite vall_ok. revert xs. induction l as [|t l IH]; intros xs; cbn [map].
  - split; intros F; inversion F; constructor.
  - assert (H' : forall t x, In t l -> (f t = VOk x <-> P t x)) by (intros; apply H; right; assumption).
    split; intros F; inversion F; subst; constructor.
    + apply H; [left; reflexivity|assumption].
    + apply IH; assumption.
    + apply H; [left; reflexivity|assumption].
    + apply (IH H'). assumption.
Qed.

(** ** Requirements *)

Definition tree_required := tview (list req) (@required_object).
Definition tree_set := tview (list req * list item) (@set_object).
Definition tree_inject := tview (list req * inj) (@inject_object).

Definition asked (q : req) (t : tree) (e : nat * out) : Prop := fst e = q_name q /\ reads (q_sub q) t (snd e).

Lemma required_fields_ok : forall (vv : list req -> tree -> vres out) d fs,
  NoDup (map (fun f => snd (fst f)) fs) ->
  (forall f r x, In f fs -> (vv r (snd f) = VOk x <-> reads r (snd f) x)) ->
  forall r es, required_fields vv d fs r = VOk es <-> picks d fs q_key q_parent asked r es.
Proof.
  intros vv d fs N H r. induction r as [|q r IH]; intros es; cbn [required_fields].
  - split; [intros E; injection E as <-; constructor|intros P; inversion P; reflexivity].
  - assert (H' : forall t r x, carries fs (q_key q) t -> (vv r t = VOk x <-> reads r t x)).
    { intros t r' x (p & Ip). exact (H _ r' x Ip). }
    split.
    + destruct (find_value (q_key q) fs) as [t|] eqn:E.
      * pose proof (find_value_some _ _ _ E) as C. intros X. apply vbind_ok in X. destruct X as (x & Ex & X).
        apply vbind_ok in X. destruct X as (l & El & X). injection X as <-.
        apply (PkHas _ _ _ _ _ q t); [exact C| |apply IH; exact El].
        split; [reflexivity|]. apply (H' t); assumption.
      * destruct (skips d (q_parent q)) eqn:Sk; [|discriminate]. intros X.
        apply PkNot; [apply find_value_none; exact E|apply skips_other; exact Sk|apply IH; exact X].
    + intros P. inversion P as [|? t e ? es' C [En R] P'|? ? ? L O P']; subst.
      * rewrite (carries_find fs _ t N C). apply vbind_ok. exists (snd e). split; [apply (H' t); assumption|].
        apply vbind_ok. exists es'. split; [apply IH; exact P'|]. rewrite <- En. destruct e. reflexivity.
      * rewrite (lacks_find _ _ L). rewrite (proj2 (skips_other _ _) O). apply IH. exact P'.
Qed.

Lemma required_fields_calm : forall (vv : list req -> tree -> vres out) d fs,
  (forall f r, In f fs -> calm (vv r (snd f))) -> forall r, calm (required_fields vv d fs r).
Proof.
  intros vv d fs H r. induction r as [|q r IH]; cbn [required_fields]; [apply ok_calm|].
  destruct (find_value (q_key q) fs) as [t|] eqn:E.
  - destruct (find_value_some _ _ _ E) as (p & Ip). apply vbind_calm; [exact (H _ _ Ip)|].
    intros x _. apply vbind_calm; [exact IH|]. intros l _. apply ok_calm.
  - destruct (skips d (q_parent q)); [exact IH|split; discriminate].
Qed.

Lemma tree_required_ok : forall n t r, distinct t -> depth t < n ->
  (forall x, tree_required n r t = VOk x <-> reads r t x) /\ calm (tree_required n r t).
Proof.
  induction n as [|n IH]; intros t r Ds D; [lia|].
  destruct t as [v|i l|i d fs|i t]; unfold tree_required; cbn [tview].
  - split; [|apply leaf_calm]. intros x. rewrite leaf_plain. split; [intros P; constructor; exact P|intros R; inversion R; assumption].
  - inversion Ds as [|? ? Dl| |]; subst.
    assert (Q : forall t, In t l -> (forall x, tree_required n r t = VOk x <-> reads r t x) /\ calm (tree_required n r t)).
    { intros t It. apply IH; [rewrite Forall_forall in Dl; exact (Dl t It)|exact (depth_list_lt i l t n It D)]. }
    split.
    + intros x. rewrite vbind_ok. split.
      * intros (xs & E & X). injection X as <-. constructor.
        apply (list_ok (tree_required n r)); [|exact E]. intros t y It. exact (proj1 (Q t It) y).
      * intros R. inversion R; subst. exists xs. split; [|reflexivity].
        apply (list_ok (tree_required n r) (reads r)); [|assumption]. intros t y It. exact (proj1 (Q t It) y).
    + apply vbind_calm; [|intros; apply ok_calm]. apply vall_calm. apply Forall_forall. intros y Iy.
      apply in_map_iff in Iy. destruct Iy as (t & <- & It). exact (proj2 (Q t It)).
  - inversion Ds as [| |? ? ? N Dl|]; subst.
    assert (Q : forall f r, In f fs -> (forall x, tree_required n r (snd f) = VOk x <-> reads r (snd f) x) /\ calm (tree_required n r (snd f))).
    { intros f r' If. apply IH; [|exact (depth_obj_lt i d fs f n If D)].
      rewrite Forall_forall in Dl. apply Dl. apply in_map. exact If. }
    unfold required_object. split.
    + intros x. rewrite vbind_ok. split.
      * intros (es & E & X). injection X as <-. constructor.
        apply (required_fields_ok (tree_required n) d fs N); [|exact E]. intros f r' y If. exact (proj1 (Q f r' If) y).
      * intros R. inversion R; subst. exists es. split; [|reflexivity].
        apply (required_fields_ok (tree_required n) d fs N); [|assumption]. intros f r' y If. exact (proj1 (Q f r' If) y).
    + apply vbind_calm; [|intros; apply ok_calm]. apply required_fields_calm. intros f r' If. exact (proj2 (Q f r' If)).
  - inversion Ds; subst. cbn [depth] in D. destruct (IH t r) as [Q1 Q2]; [assumption|lia|].
    split; [|exact Q2]. intros x. split.
    + intros E. constructor. apply Q1. exact E.
    + intros R. inversion R; subst. apply Q1. assumption.
Qed.

(** ** Field sets *)

Lemma increasing_unique : forall r q q', increasing (map q_field r) -> In q r -> In q' r ->
  q_field q = q_field q' -> q = q'.
Proof.
  intros r q q' H. induction r as [|a r IH]; [contradiction|]. cbn [map] in H. inversion H as [|? ? F H']; subst.
  rewrite Forall_forall in F.
  assert (G : forall b, In b r -> q_field a < q_field b) by (intros b Ib; apply F; apply in_map; exact Ib).
  intros [<-|I1] [<-|I2] E; [reflexivity| | |exact (IH H' I1 I2 E)].
  - specialize (G q' I2). lia.
  - specialize (G q I1). lia.
Qed.

Lemma seek_at : forall f r q, increasing (map q_field r) -> In q r -> q_field q = f ->
  exists rest, seek f r = SeekAt q rest /\ increasing (map q_field (q :: rest)) /\
    (forall q', In q' (q :: rest) -> In q' r) /\
    (forall q', In q' r -> f < q_field q' -> In q' rest) /\ (forall q', In q' r -> f <= q_field q' -> In q' (q :: rest)).
Proof.
  intros f r q H Iq E. induction r as [|a r IH]; [destruct Iq|].
  cbn [map] in H. inversion H as [|? ? F H']; subst. rewrite Forall_forall in F.
  assert (G : forall b, In b r -> q_field a < q_field b) by (intros b Ib; apply F; apply in_map; exact Ib).
  cbn [seek]. destruct Iq as [->|Iq].
  - rewrite (proj2 (Nat.compare_eq_iff _ _) eq_refl). exists r. split; [reflexivity|]. split; [exact H|].
    split; [auto|]. split.
    + intros q' [<-|I'] L; [lia|exact I'].
    + intros q' I' _. exact I'.
  - pose proof (G q Iq) as L. rewrite (proj2 (Nat.compare_gt_iff _ _) L).
    destruct (IH H' Iq) as (rest & E1 & E2 & E3 & E4 & E5). exists rest.
    split; [exact E1|]. split; [exact E2|]. split; [intros q' I'; right; exact (E3 q' I')|]. split.
    + intros q' [<-|I'] L'; [lia|exact (E4 q' I' L')].
    + intros q' [<-|I'] L'; [lia|exact (E5 q' I' L')].
Qed.

Definition asked_set (p : req * item) (t : tree) (e : nat * out) : Prop :=
  fst e = q_name (fst p) /\ reads_set (q_sub (fst p)) (i_sub (snd p)) t (snd e).

Lemma set_fields_ok : forall (vv : list req * list item -> tree -> vres out) d fs R,
  NoDup (map (fun f => snd (fst f)) fs) -> increasing (map q_field R) ->
  forall s r, increasing (map i_field s) -> increasing (map q_field r) -> (forall q, In q r -> In q R) ->
  (forall i, In i s -> exists q, In q r /\ q_field q = i_field i /\
     forall f, In f fs -> (forall x, vv (q_sub q, i_sub i) (snd f) = VOk x <-> reads_set (q_sub q) (i_sub i) (snd f) x) /\
                          calm (vv (q_sub q, i_sub i) (snd f))) ->
  (forall es, set_fields_of vv d fs s r = VOk es <->
    exists qs, Forall2 (matches R) s (map fst qs) /\ map snd qs = s /\
      picks d fs (fun p => q_key (fst p)) (fun p => q_parent (fst p)) asked_set qs es) /\
  calm (set_fields_of vv d fs s r).
Proof.
  intros vv d fs R N HR s. induction s as [|i s IH]; intros r Hs Hr Sub Has; cbn [set_fields_of].
  - split; [|apply ok_calm]. intros es. split.
    + intros E. injection E as <-. exists []. split; [constructor|]. split; [reflexivity|constructor].
    + intros (qs & _ & E & P). destruct qs; [|discriminate]. inversion P. reflexivity.
  - cbn [map] in Hs. inversion Hs as [|? ? Fs Hs']; subst. rewrite Forall_forall in Fs.
    destruct (Has i (or_introl eq_refl)) as (q & Iq & Eq & Hq).
    destruct (seek_at _ r q Hr Iq Eq) as (rest & E1 & E2 & E3 & E4 & _). rewrite E1.
    cbn [map] in E2. inversion E2 as [|? ? _ E2']; subst.
    destruct (IH rest Hs' E2') as [IH1 IH2].
    { intros q' I'. apply Sub. apply E3. right. exact I'. }
    { intros j Ij. destruct (Has j (or_intror Ij)) as (q' & I' & Eq' & H'). exists q'.
      split; [|split; [exact Eq'|exact H']]. apply E4; [exact I'|]. rewrite Eq'. apply Fs. apply in_map. exact Ij. }
    assert (U : forall q', matches R i q' -> q' = q).
    { intros q' [I' E']. apply (increasing_unique R); [exact HR|exact I'|exact (Sub q Iq)|congruence]. }
    assert (Hq' : forall t, carries fs (q_key q) t ->
      (forall x, vv (q_sub q, i_sub i) t = VOk x <-> reads_set (q_sub q) (i_sub i) t x) /\ calm (vv (q_sub q, i_sub i) t)).
    { intros t (p & Ip). exact (Hq _ Ip). }
    split.
    + intros es. split.
      * intros X. assert (Ex : exists qs0, Forall2 (matches R) s (map fst qs0) /\ map snd qs0 = s /\
          picks d fs (fun p => q_key (fst p)) (fun p => q_parent (fst p)) asked_set ((q, i) :: qs0) es).
        { destruct (find_value (q_key q) fs) as [t|] eqn:E.
          - pose proof (find_value_some _ _ _ E) as C. apply vbind_ok in X. destruct X as (x & Ex & X).
            apply vbind_ok in X. destruct X as (l & El & X). injection X as <-.
            apply IH1 in El. destruct El as (qs & M & Es & P). exists qs. split; [exact M|]. split; [exact Es|].
            apply (PkHas _ _ _ _ _ _ t); [exact C| |exact P].
            split; [reflexivity|]. apply (Hq' t C). exact Ex.
          - destruct (skips d (q_parent q)) eqn:Sk; [|discriminate].
            apply IH1 in X. destruct X as (qs & M & Es & P). exists qs. split; [exact M|]. split; [exact Es|].
            apply PkNot; [apply find_value_none; exact E|apply skips_other; exact Sk|exact P]. }
        destruct Ex as (qs & M & Es & P). exists ((q, i) :: qs). split.
        { cbn [map fst]. constructor; [split; [exact (Sub q Iq)|exact Eq]|exact M]. }
        split; [cbn [map snd]; rewrite Es; reflexivity|exact P].
      * intros (qs & M & Es & P). destruct qs as [|[q' i'] qs]; [discriminate|]. cbn [map fst snd] in *.
        injection Es as -> Es. inversion M as [|? ? ? ? M1 M2]; subst. rewrite (U q' M1) in *. clear U M1.
        inversion P as [|? t e ? es' C [En Rd] P'|? ? ? L O P']; subst; cbn [fst snd] in *.
        -- rewrite (carries_find fs _ t N C). apply vbind_ok. exists (snd e). split; [apply (Hq' t C); exact Rd|].
           apply vbind_ok. exists es'. split; [apply IH1; exists qs; auto|]. rewrite <- En. destruct e. reflexivity.
        -- rewrite (lacks_find _ _ L). rewrite (proj2 (skips_other _ _) O). apply IH1. exists qs. auto.
    + destruct (find_value (q_key q) fs) as [t|] eqn:E.
      * apply vbind_calm; [exact (proj2 (Hq' t (find_value_some _ _ _ E)))|].
        intros x _. apply vbind_calm; [exact IH2|]. intros l _. apply ok_calm.
      * destruct (skips d (q_parent q)); [exact IH2|split; discriminate].
Qed.

Lemma sorted_sub : forall r q, sorted_reqs r -> In q r -> sorted_reqs (q_sub q).
Proof.
  intros r q H I. inversion H as [? _ F]; subst. rewrite Forall_forall in F. apply F. apply in_map. exact I.
Qed.

Lemma tree_set_ok : forall n t r s, distinct t -> depth t < n -> sorted_reqs r -> has_set r s ->
  (forall x, tree_set n (r, s) t = VOk x <-> reads_set r s t x) /\ calm (tree_set n (r, s) t).
Proof.
  induction n as [|n IH]; intros t r s Ds D Sr Hs; [lia|].
  destruct t as [v|i l|i d fs|i t]; unfold tree_set; cbn [tview].
  - split; [|apply leaf_calm]. intros x. rewrite leaf_plain. split; [intros P; constructor; exact P|intros R; inversion R; assumption].
  - inversion Ds as [|? ? Dl| |]; subst.
    assert (Q : forall t, In t l -> (forall x, tree_set n (r, s) t = VOk x <-> reads_set r s t x) /\ calm (tree_set n (r, s) t)).
    { intros t It. apply IH; [rewrite Forall_forall in Dl; exact (Dl t It)|exact (depth_list_lt i l t n It D)|exact Sr|exact Hs]. }
    split.
    + intros x. rewrite vbind_ok. split.
      * intros (xs & E & X). injection X as <-. constructor.
        apply (list_ok (tree_set n (r, s))); [|exact E]. intros t y It. exact (proj1 (Q t It) y).
      * intros R. inversion R; subst. exists xs. split; [|reflexivity].
        apply (list_ok (tree_set n (r, s)) (reads_set r s)); [|assumption]. intros t y It. exact (proj1 (Q t It) y).
    + apply vbind_calm; [|intros; apply ok_calm]. apply vall_calm. apply Forall_forall. intros y Iy.
      apply in_map_iff in Iy. destruct Iy as (t & <- & It). exact (proj2 (Q t It)).
  - inversion Ds as [| |? ? ? N Dl|]; subst.
    assert (Sr' : increasing (map q_field r)) by (inversion Sr; assumption).
    inversion Hs as [? ? Hi Hm]; subst.
    destruct (set_fields_ok (tree_set n) d fs r N Sr' s r Hi Sr' (fun q I => I)) as [Q1 Q2].
    { intros j Ij. destruct (Hm j Ij) as (q & [Iq Eq] & Hq). exists q. split; [exact Iq|]. split; [exact Eq|].
      intros f If. apply IH; [|exact (depth_obj_lt i d fs f n If D)|exact (sorted_sub r q Sr Iq)|exact Hq].
      rewrite Forall_forall in Dl. apply Dl. apply in_map. exact If. }
    unfold set_object. cbn [fst snd]. split.
    + intros x. rewrite vbind_ok. split.
      * intros (es & E & X). injection X as <-. apply Q1 in E. destruct E as (qs & E1 & E2 & E3).
        apply (RsObj r s i d fs qs); assumption.
      * intros R. inversion R; subst. exists es. split; [|reflexivity]. apply Q1. exists qs. auto.
    + apply vbind_calm; [exact Q2|intros; apply ok_calm].
  - inversion Ds; subst. cbn [depth] in D. destruct (IH t r s) as [Q1 Q2]; [assumption|lia|exact Sr|exact Hs|].
    split; [|exact Q2]. intros x. split.
    + intros E. constructor. apply Q1. exact E.
    + intros R. inversion R; subst. apply Q1. assumption.
Qed.

(** ** Injections *)

Definition says {A} (r : vres A) (P : A -> Prop) (M : Prop) : Prop :=
  (forall x, r = VOk x <-> P x) /\ (r = VCrash -> M) /\ r <> VFuel.

Section InjectObject.
  Variable vv : list req * inj -> tree -> vres out.
  Variables (d : option nat) (fs : list (rkey * tree)) (r : list req).
  Hypothesis N : NoDup (map (fun f => snd (fst f)) fs).
  Hypothesis Hr : increasing (map q_field r).
  Hypothesis Hv : forall f q next, In f fs -> In q r -> within (q_sub q) next ->
    says (vv (q_sub q, next) (snd f)) (fills (q_sub q) next (snd f)) (misfit (q_sub q) next (snd f)).

  Lemma entries_says : forall l r', ordered_entries l -> Forall (within r) (map snd l) ->
    Forall (fun p => within r (snd p) ->
      says (inject vv d fs r (snd p)) (fills_object r (snd p) d fs) (misfit_object r (snd p) fs)) l ->
    increasing (map q_field r') -> (forall q, In q r' -> In q r) ->
    (forall k f next q, In (k, ISelect f next) l -> In q r -> q_field q = f -> In q r') ->
    says (entries vv d fs (inject vv d fs r) l r') (fills_entries r l d fs)
      (exists k i, In (k, i) l /\ misfit_object r i fs).
  Proof.
    intros l. induction l as [|[k i] l IH]; intros r' Ho Hw Hs Hr' Sub Has.
    - cbn [entries]. split; [|split; discriminate]. intros es. split.
      + intros E. injection E as <-. constructor.
      + intros F. inversion F. reflexivity.
    - inversion Ho as [|? ? ? Ho1 Ho2]; subst. cbn [map snd] in Hw. inversion Hw as [|? ? Hw1 Hw2]; subst.
      inversion Hs as [|? ? Hs1 Hs2]; subst. cbn [snd] in Hs1. specialize (Hs1 Hw1).
      assert (Tail : forall r0, increasing (map q_field r0) -> (forall q, In q r0 -> In q r) ->
        (forall k f next q, In (k, ISelect f next) l -> In q r -> q_field q = f -> In q r0) ->
        says (entries vv d fs (inject vv d fs r) l r0) (fills_entries r l d fs)
          (exists k i, In (k, i) l /\ misfit_object r i fs)).
      { intros r0. apply IH; assumption. }
      clear IH.
      assert (Plain : (forall f next, i <> ISelect f next) ->
        says (vbind (inject vv d fs r i) (fun x =>
              vbind (entries vv d fs (inject vv d fs r) l r') (fun l => VOk ((k, x) :: l))))
          (fills_entries r ((k, i) :: l) d fs) (exists k0 i0, In (k0, i0) ((k, i) :: l) /\ misfit_object r i0 fs)).
      { intros Ns. destruct Hs1 as (S1 & S2 & S3).
        destruct (Tail r' Hr' Sub) as (T1 & T2 & T3).
        { intros k0 f next q I Iq E. exact (Has k0 f next q (or_intror I) Iq E). }
        split; [|split].
        - intros es. rewrite vbind_ok. split.
          + intros (x & Ex & X). apply vbind_ok in X. destruct X as (l' & El & X). injection X as <-.
            constructor; [apply S1; exact Ex|apply T1; exact El].
          + intros F. inversion F as [|? ? ? ? ? ? x es' F1 F2|]; subst; [|exfalso; eapply Ns; reflexivity].
            exists x. split; [apply S1; exact F1|]. apply vbind_ok. exists es'. split; [apply T1; exact F2|reflexivity].
        - destruct (inject vv d fs r i) as [x| | |] eqn:Ei; cbn [vbind]; try discriminate.
          + destruct (entries vv d fs (inject vv d fs r) l r') as [y| | |] eqn:El; cbn [vbind]; try discriminate.
            intros _. destruct (T2 eq_refl) as (k0 & i0 & I0 & M0). exists k0, i0. split; [right; exact I0|exact M0].
          + intros _. exists k, i. split; [left; reflexivity|]. apply S2. reflexivity.
        - destruct (inject vv d fs r i) as [x| | |]; cbn [vbind]; try discriminate; [|congruence].
          destruct (entries vv d fs (inject vv d fs r) l r') as [y| | |]; cbn [vbind]; try discriminate. congruence. }
      destruct i as [f next|l'|x|].
      + clear Plain Hs1. cbn [entries]. inversion Hw1 as [| |? ? ? q Iq Eq Wq|]; subst.
        pose proof (Has k _ next q (or_introl eq_refl) Iq eq_refl) as Iq'.
        destruct (seek_at _ r' q Hr' Iq' eq_refl) as (rest & E1 & E2 & E3 & _ & E5). rewrite E1.
        destruct (Tail (q :: rest) E2 (fun q' I' => Sub q' (E3 q' I'))) as (T1 & T2 & T3).
        { intros k0 f0 next0 q0 I0 Iq0 E0. apply E5; [exact (Has k0 f0 next0 q0 (or_intror I0) Iq0 E0)|].
          rewrite E0. exact (Ho1 _ _ _ _ _ eq_refl I0). }
        assert (U : forall q', In q' r -> q_field q' = q_field q -> q' = q).
        { intros q' I' E'. exact (increasing_unique r q' q Hr I' Iq E'). }
        destruct (find_value (q_key q) fs) as [t|] eqn:E.
        * pose proof (find_value_some _ _ _ E) as C.
          assert (V : says (vv (q_sub q, next) t) (fills (q_sub q) next t) (misfit (q_sub q) next t)).
          { destruct C as (p & Ip). exact (Hv _ q next Ip Iq Wq). }
          destruct V as (V1 & V2 & V3). split; [|split].
          -- intros es. rewrite vbind_ok. split.
             ++ intros (x & Ex & X). apply vbind_ok in X. destruct X as (l' & El & X). injection X as <-.
                constructor; [|apply T1; exact El].
                apply (FoSelect r (q_field q) next d fs q t x Iq eq_refl C). apply V1. exact Ex.
             ++ intros F. inversion F as [|? ? ? ? ? ? x es' F1 F2|? ? ? ? ? ? ? q' ? I' E' L O F2]; subst.
                ** inversion F1 as [|? ? ? ? ? q' t' ? I' E' C' F'|]; subst. rewrite (U q' I' E') in *.
                   rewrite (carries_find fs _ t' N C') in E. injection E as ->.
                   exists x. split; [apply V1; exact F'|]. apply vbind_ok. exists es'. split; [apply T1; exact F2|reflexivity].
                ** rewrite (U q' I' E') in *. exfalso. exact (L t C).
          -- destruct (vv (q_sub q, next) t) as [x| | |] eqn:Ev; cbn [vbind]; try discriminate.
             ++ destruct (entries vv d fs (inject vv d fs r) l (q :: rest)) as [y| | |]; cbn [vbind]; try discriminate.
                intros _. destruct (T2 eq_refl) as (k0 & i0 & I0 & M0). exists k0, i0. split; [right; exact I0|exact M0].
             ++ intros _. exists k, (ISelect (q_field q) next). split; [left; reflexivity|].
                apply (MoSelect r (q_field q) next fs q t Iq eq_refl C). apply V2. reflexivity.
          -- destruct (vv (q_sub q, next) t) as [x| | |]; cbn [vbind]; try discriminate; [|congruence].
             destruct (entries vv d fs (inject vv d fs r) l (q :: rest)) as [y| | |]; cbn [vbind]; try discriminate. congruence.
        * pose proof (find_value_none _ _ E) as L.
          destruct (skips d (q_parent q)) eqn:Sk.
          -- apply skips_other in Sk. split; [|split; [|exact T3]].
             ++ intros es. rewrite T1. split.
                ** intros F. exact (FeNot r k (q_field q) next l d fs q es Iq eq_refl L Sk F).
                ** intros F. inversion F as [|? ? ? ? ? ? x es' F1 F2|? ? ? ? ? ? ? q' ? I' E' L' O F2]; subst; [|exact F2].
                   inversion F1 as [|? ? ? ? ? q' t' ? I' E' C' F'|]; subst. rewrite (U q' I' E') in *.
                   exfalso. exact (L t' C').
             ++ intros Cr. destruct (T2 Cr) as (k0 & i0 & I0 & M0). exists k0, i0. split; [right; exact I0|exact M0].
          -- split; [|split; discriminate]. intros es. split; [discriminate|]. intros F. exfalso.
             inversion F as [|? ? ? ? ? ? x es' F1 F2|? ? ? ? ? ? ? q' ? I' E' L' O F2]; subst.
             ++ inversion F1 as [|? ? ? ? ? q' t' ? I' E' C' F'|]; subst. rewrite (U q' I' E') in *. exact (L t' C').
             ++ rewrite (U q' I' E') in *. apply skips_other in O. rewrite O in Sk. discriminate.
      + cbn [entries]. apply Plain. discriminate.
      + cbn [entries]. assert (P := Plain ltac:(discriminate)). exact P.
      + cbn [entries]. apply Plain. discriminate.
  Qed.

  Lemma inject_says : forall i, within r i ->
    says (inject vv d fs r i) (fills_object r i d fs) (misfit_object r i fs).
  Proof.
    intros i. induction i as [f next _|l IH|x|] using inj_ind2; intros W.
    - inversion W as [| |? ? ? q Iq Eq Wq|]; subst. cbn [inject].
      assert (F : find (fun q0 => Nat.eqb (q_field q0) (q_field q)) r = Some q).
      { destruct (find (fun q0 => Nat.eqb (q_field q0) (q_field q)) r) as [q'|] eqn:E.
        - apply find_some in E. destruct E as [I' E']. apply Nat.eqb_eq in E'.
          rewrite (increasing_unique r q' q Hr I' Iq E'). reflexivity.
        - pose proof (find_none _ _ E q Iq) as E'. cbn in E'. rewrite Nat.eqb_refl in E'. discriminate. }
      rewrite F.
      assert (U : forall q', In q' r -> q_field q' = q_field q -> q' = q).
      { intros q' I' E'. exact (increasing_unique r q' q Hr I' Iq E'). }
      destruct (find_value (q_key q) fs) as [t|] eqn:E.
      + pose proof (find_value_some _ _ _ E) as C. destruct C as (p & Ip).
        destruct (Hv _ q next Ip Iq Wq) as (V1 & V2 & V3). cbn [snd] in *. split; [|split; [|exact V3]].
        * intros x. rewrite V1. split.
          -- intros X. apply (FoSelect r (q_field q) next d fs q t x Iq eq_refl); [exists p; exact Ip|exact X].
          -- intros X. inversion X as [|? ? ? ? ? q' t' ? I' E' C' F'|]; subst. rewrite (U q' I' E') in *.
             rewrite (carries_find fs _ t' N C') in E. injection E as ->. exact F'.
        * intros X. apply (MoSelect r (q_field q) next fs q t Iq eq_refl); [exists p; exact Ip|exact (V2 X)].
      + split; [|split; discriminate]. intros x. split; [discriminate|]. intros X.
        inversion X as [|? ? ? ? ? q' t' ? I' E' C' F'|]; subst. rewrite (U q' I' E') in *.
        rewrite (carries_find fs _ t' N C') in E. discriminate.
    - inversion W as [| | |? ? Wo Wl]; subst. cbn [inject].
      destruct (entries_says l r Wo Wl) as (E1 & E2 & E3); [|exact Hr|auto|auto|].
      { exact IH. }
      split; [|split].
      + intros x. rewrite vbind_ok. split.
        * intros (es & E & X). injection X as <-. constructor. apply E1. exact E.
        * intros X. inversion X as [| |? ? ? ? es F]; subst. exists es. split; [apply E1; exact F|reflexivity].
      + destruct (entries vv d fs (inject vv d fs r) l r) as [y| | |]; cbn [vbind]; try discriminate.
        intros _. destruct (E2 eq_refl) as (k & i & I & M). exact (MoObject r l fs k i I M).
      + destruct (entries vv d fs (inject vv d fs r) l r) as [y| | |]; cbn [vbind]; try discriminate. congruence.
    - cbn [inject]. split; [|split; discriminate]. intros y. split.
      + intros E. injection E as <-. constructor.
      + intros X. inversion X; subst. reflexivity.
    - cbn [inject]. split; [|split; [intros _; constructor|discriminate]]. intros x. split; [discriminate|].
      intros X. inversion X.
  Qed.
End InjectObject.

Lemma tree_inject_says : forall n t r i, distinct t -> depth t < n -> sorted_reqs r -> within r i ->
  says (tree_inject n (r, i) t) (fills r i t) (misfit r i t).
Proof.
  induction n as [|n IH]; intros t r i Ds D Sr W; [lia|].
  destruct t as [v|j l|j d fs|j t]; unfold tree_inject; cbn [tview].
  - destruct (leaf_calm v) as [C1 C2]. split; [|split; [intros X; contradiction|exact C2]].
    intros x. rewrite leaf_plain. split; [intros P; constructor; exact P|intros R; inversion R; assumption].
  - inversion Ds as [|? ? Dl| |]; subst.
    assert (Q : forall t, In t l -> says (tree_inject n (r, i) t) (fills r i t) (misfit r i t)).
    { intros t It. apply IH; [rewrite Forall_forall in Dl; exact (Dl t It)|exact (depth_list_lt j l t n It D)|exact Sr|exact W]. }
    split; [|split].
    + intros x. rewrite vbind_ok. split.
      * intros (xs & E & X). injection X as <-. constructor.
        apply (list_ok (tree_inject n (r, i))); [|exact E]. intros t y It. exact (proj1 (Q t It) y).
      * intros R. inversion R; subst. exists xs. split; [|reflexivity].
        apply (list_ok (tree_inject n (r, i)) (fills r i)); [|assumption]. intros t y It. exact (proj1 (Q t It) y).
    + assert (G : vall (map (tree_inject n (r, i)) l) = VCrash -> exists t, In t l /\ misfit r i t).
      { clear D Dl Ds. induction l as [|t l IHl]; cbn [map vall]; [discriminate|].
        destruct (Q t (or_introl eq_refl)) as (_ & Q2 & _).
        destruct (tree_inject n (r, i) t) as [x| | |]; cbn [vbind]; try discriminate.
        - destruct (vall (map (tree_inject n (r, i)) l)) as [y| | |]; cbn [vbind]; try discriminate.
          intros _. destruct IHl as (t' & I' & M'); [intros t' I'; apply Q; right; exact I'|reflexivity|].
          exists t'. split; [right; exact I'|exact M'].
        - intros _. exists t. split; [left; reflexivity|apply Q2; reflexivity]. }
      unfold tree_inject in G. destruct (vall (map (tview (list req * inj) (@inject_object) n (r, i)) l)) as [y| | |]; cbn [vbind]; try discriminate.
      intros _. destruct (G eq_refl) as (t & It & M). exact (MfList r i j l t It M).
    + assert (G : vall (map (tree_inject n (r, i)) l) <> VFuel).
      { clear D Dl Ds. induction l as [|t l IHl]; cbn [map vall]; [discriminate|].
        destruct (Q t (or_introl eq_refl)) as (_ & _ & Q3).
        destruct (tree_inject n (r, i) t) as [x| | |]; cbn [vbind]; try discriminate; [|congruence].
        assert (IHl' : vall (map (tree_inject n (r, i)) l) <> VFuel) by (apply IHl; intros t' I'; apply Q; right; exact I').
        destruct (vall (map (tree_inject n (r, i)) l)) as [y| | |]; cbn [vbind]; try discriminate. congruence. }
      unfold tree_inject in G. destruct (vall (map (tview (list req * inj) (@inject_object) n (r, i)) l)) as [y| | |]; cbn [vbind]; try discriminate.
      congruence.
  - inversion Ds as [| |? ? ? N Dl|]; subst.
    assert (Sr' : increasing (map q_field r)) by (inversion Sr; assumption).
    unfold inject_object. cbn [fst snd].
    destruct (inject_says (tree_inject n) d fs r N Sr') with (i := i) as (Q1 & Q2 & Q3); [|exact W|].
    { intros f q next If Iq Wn. apply IH; [|exact (depth_obj_lt j d fs f n If D)|exact (sorted_sub r q Sr Iq)|exact Wn].
      rewrite Forall_forall in Dl. apply Dl. apply in_map. exact If. }
    split; [|split; [intros X; constructor; exact (Q2 X)|exact Q3]].
    intros x. etransitivity; [exact (Q1 x)|]. split; [intros F; constructor; exact F|intros F; inversion F; assumption].
  - inversion Ds; subst. cbn [depth] in D. destruct (IH t r i) as (Q1 & Q2 & Q3); [assumption|lia|exact Sr|exact W|].
    split; [|split; [intros X; constructor; exact (Q2 X)|exact Q3]]. intros x. split.
    + intros E. constructor. apply Q1. exact E.
    + intros R. inversion R; subst. apply Q1. assumption.
Qed.
