(** Response modifiers: which there are, their targets and dependencies. *)
From Coq Require Import List Arith Bool Lia Permutation Sorted.
From Verif.Scheduler Require Model Spec.
From Verif.Plans Require Import Model Spec Proofs.
Import ListNotations.

Lemma impact_facts : forall o t f x, impact o t f = Some (Some x) ->
  i_field x = f /\ i_partition x = f_partition (field o f) /\ f_in_response (field o f) = true.
Proof.
  intros o t f x. unfold impact. destruct (f_in_response (field o f)); [|discriminate].
  destruct t; [destruct (f_parent (field o f)) as [[s|]|]|destruct (f_parent (field o f)) as [[s|]|]|destruct (f_output (field o f)) as [s|]];
    intros H; try discriminate H; injection H as <-; split; [reflexivity|split; reflexivity|reflexivity|split; reflexivity|reflexivity|split; reflexivity|reflexivity|split; reflexivity|reflexivity|split; reflexivity].
Qed.
Lemma impacts_in : forall o t fs l, impacts o t fs = Some l -> forall x, In x l <-> exists f, In f fs /\ impact o t f = Some (Some x).
Proof.
  intros o t. induction fs as [|f fs IH]; intros l H x; cbn [impacts] in H.
  - injection H as <-. split; [intros []|intros (f & [] & _)].
  - destruct (impact o t f) as [[y|]|] eqn:E; [| |discriminate H]; destruct (impacts o t fs) as [l'|]; try discriminate H; injection H as <-.
    + cbn [In]. rewrite (IH _ eq_refl x). split.
      * intros [<-|(g & I & G)]; [exists f; split; [left; reflexivity|exact E]|exists g; split; [right; exact I|exact G]].
      * intros (g & [<-|I] & G); [left; congruence|right; exists g; split; assumption].
    + rewrite (IH _ eq_refl x). split.
      * intros (g & I & G). exists g. split; [right; exact I|exact G].
      * intros (g & [<-|I] & G); [congruence|exists g; split; assumption].
Qed.
Lemma impacts_some : forall o t fs, (forall f, In f fs -> impact o t f <> None) <-> impacts o t fs <> None.
Proof.
  intros o t. induction fs as [|f fs IH]; cbn [impacts]; [split; [discriminate|intros _ f []]|]. split.
  - intros H. assert (A : impact o t f <> None) by (apply H; left; reflexivity).
    assert (B : impacts o t fs <> None) by (apply IH; intros g I; apply H; right; exact I).
    destruct (impact o t f) as [[y|]|]; [| |congruence]; destruct (impacts o t fs); congruence.
  - intros H g [<-|I].
    + destruct (impact o t f); congruence.
    + apply IH; [|exact I]. destruct (impact o t f) as [[y|]|]; destruct (impacts o t fs); congruence.
Qed.

Lemma modifiers_of_spec : forall o k r ms, modifiers_of o k r = Some ms ->
  (forall m, In m ms -> m_rule m = k /\ exists p, of_partition p (m_targets m)) /\
  (forall x, (exists m, In m ms /\ In x (m_targets m)) <-> exists f, In f (ru_fields r) /\ impact o (ru_target r) f = Some (Some x)) /\
  (forall i j m n x y, nth_error ms i = Some m -> nth_error ms j = Some n -> In x (m_targets m) -> In y (m_targets n) -> i_partition x = i_partition y -> i = j).
Proof.
  intros o k r ms H. unfold modifiers_of in H. destruct (impacts o (ru_target r) (ru_fields r)) as [l|] eqn:E; [|discriminate H]. injection H as <-.
  pose proof (impacts_in _ _ _ _ E) as In_l. set (s := dedup_impacted (sort_impacted l)).
  assert (Hs : StronglySorted partition_le s) by (apply dedup_impacted_sorted, sort_impacted_sorted).
  split; [|split].
  - intros m I. apply in_map_iff in I. destruct I as (c & <- & I). cbn. split; [reflexivity|]. apply (chunks_partition s). exact I.
  - intros x. rewrite <- In_l. rewrite <- (sort_impacted_in l x), <- (dedup_impacted_in (sort_impacted l) x). fold s.
    assert (C : In x s <-> In x (concat (chunks s))) by (rewrite chunks_concat; reflexivity). rewrite C, in_concat. split.
    + intros (m & I & J). apply in_map_iff in I. destruct I as (c & <- & I). cbn in J. exists c. split; assumption.
    + intros (c & I & J). exists {| m_rule := k; m_targets := c |}. split; [|exact J]. apply in_map_iff. exists c. split; [reflexivity|exact I].
  - intros i j m n x y Hi Hj Ix Iy P. rewrite nth_error_map in Hi, Hj.
    destruct (nth_error (chunks s) i) as [c|] eqn:Ci; [|discriminate Hi]. destruct (nth_error (chunks s) j) as [d|] eqn:Cj; [|discriminate Hj].
    cbn in Hi, Hj. injection Hi as <-. injection Hj as <-. cbn in Ix, Iy. eapply (chunks_distinct s); eassumption.
Qed.

(** [modifiers_from], by induction. *)
Lemma modifiers_from_spec : forall o rs k ms, modifiers_from o k rs = Some ms ->
  (forall j m, nth_error ms j = Some m -> k <= m_rule m /\ exists r, nth_error rs (m_rule m - k) = Some r /\
     (exists p, of_partition p (m_targets m)) /\
     (forall x, In x (m_targets m) -> exists f, In f (ru_fields r) /\ impact o (ru_target r) f = Some (Some x))) /\
  (forall i r f x, nth_error rs i = Some r -> In f (ru_fields r) -> impact o (ru_target r) f = Some (Some x) ->
     exists j m, nth_error ms j = Some m /\ m_rule m = k + i /\ In x (m_targets m)) /\
  (forall i j m n x y, nth_error ms i = Some m -> nth_error ms j = Some n -> m_rule m = m_rule n ->
     In x (m_targets m) -> In y (m_targets n) -> i_partition x = i_partition y -> i = j).
Proof.
  intros o. induction rs as [|r rs IH]; intros k ms H; cbn [modifiers_from] in H.
  { injection H as <-. split; [intros [|j] m E; discriminate E|]. split; [intros [|i] r f x E; discriminate E|intros [|i] j m n x y E; discriminate E]. }
  destruct (modifiers_of o k r) as [a|] eqn:A; [|discriminate H]. destruct (modifiers_from o (S k) rs) as [b|] eqn:B; [|discriminate H]. injection H as <-.
  destruct (modifiers_of_spec _ _ _ _ A) as (A1 & A2 & A3). destruct (IH _ _ B) as (B1 & B2 & B3). clear IH.
  assert (Ra : forall j m, j < length a -> nth_error (a ++ b) j = Some m -> nth_error a j = Some m).
  { intros j m L E. rewrite nth_error_app1 in E by exact L. exact E. }
  assert (Rb : forall j m, ~ j < length a -> nth_error (a ++ b) j = Some m -> nth_error b (j - length a) = Some m).
  { intros j m L E. rewrite nth_error_app2 in E by lia. exact E. }
  split; [|split].
  - intros j m E. destruct (lt_dec j (length a)) as [L|L].
    + apply (Ra _ _ L) in E. destruct (A1 m (nth_error_In _ _ E)) as (-> & P). split; [lia|]. rewrite Nat.sub_diag. exists r. split; [reflexivity|].
      split; [exact P|]. intros x I. apply A2. exists m. split; [exact (nth_error_In _ _ E)|exact I].
    + apply (Rb _ _ L) in E. destruct (B1 _ _ E) as (Le & r' & R & P). split; [lia|]. exists r'.
      replace (m_rule m - k) with (S (m_rule m - S k)) by lia. split; [exact R|exact P].
  - intros [|i] r' f x E I J.
    + injection E as <-. destruct (proj2 (A2 x)) as (m & Im & Ix); [exists f; split; assumption|].
      destruct (In_nth_error _ _ Im) as (j & Ej). exists j, m. split; [|split; [rewrite (proj1 (A1 m Im)); lia|exact Ix]].
      rewrite nth_error_app1 by (apply nth_error_Some; congruence). exact Ej.
    + cbn in E. destruct (B2 _ _ _ _ E I J) as (j & m & Ej & R & Ix). exists (length a + j), m. split; [|split; [lia|exact Ix]].
      rewrite nth_error_app2 by lia. replace (length a + j - length a) with j by lia. exact Ej.
  - intros i j m n x y Ei Ej R Ix Iy P. destruct (lt_dec i (length a)) as [Li|Li], (lt_dec j (length a)) as [Lj|Lj].
    + apply (A3 i j m n x y); auto.
    + apply (Ra _ _ Li) in Ei. apply (Rb _ _ Lj) in Ej. destruct (A1 m (nth_error_In _ _ Ei)) as (Rm & _). destruct (B1 _ _ Ej) as (Le & _). lia.
    + apply (Rb _ _ Li) in Ei. apply (Ra _ _ Lj) in Ej. destruct (A1 n (nth_error_In _ _ Ej)) as (Rn & _). destruct (B1 _ _ Ei) as (Le & _). lia.
    + apply (Rb _ _ Li) in Ei. apply (Rb _ _ Lj) in Ej. pose proof (B3 _ _ _ _ _ _ Ei Ej R Ix Iy P). lia.
Qed.
Lemma modifiers_from_some : forall o rs k, modifiers_from o k rs <> None <->
  forall r f, In r rs -> In f (ru_fields r) -> impact o (ru_target r) f <> None.
Proof.
  intros o. induction rs as [|r rs IH]; intros k; cbn [modifiers_from]; [split; [intros _ r f []|discriminate]|].
  assert (A : modifiers_of o k r <> None <-> forall f, In f (ru_fields r) -> impact o (ru_target r) f <> None).
  { rewrite impacts_some. unfold modifiers_of. destruct (impacts o (ru_target r) (ru_fields r)); split; congruence. }
  specialize (IH (S k)). split.
  - intros H r' f [<-|I] J.
    + apply A; [|exact J]. destruct (modifiers_of o k r); congruence.
    + apply (proj1 IH); [|exact I|exact J]. destruct (modifiers_of o k r); destruct (modifiers_from o (S k) rs); congruence.
  - intros H. assert (X : modifiers_of o k r <> None) by (apply A; intros f I; apply H; [left; reflexivity|exact I]).
    assert (Y : modifiers_from o (S k) rs <> None) by (apply IH; intros r' f I J; apply H; [right; exact I|exact J]).
    destruct (modifiers_of o k r); [|congruence]. destruct (modifiers_from o (S k) rs); congruence.
Qed.
Lemma impact_some : forall o t f, impact o t f <> None <->
  (f_in_response (field o f) = true -> match t with OnOutput => f_output (field o f) <> None | _ => f_parent (field o f) <> Some None end).
Proof.
  intros o t f. unfold impact. destruct (f_in_response (field o f)); [|split; [discriminate|discriminate]]. split.
  - intros H _. destruct t; [destruct (f_parent (field o f)) as [[s|]|]|destruct (f_parent (field o f)) as [[s|]|]|destruct (f_output (field o f)) as [s|]]; congruence.
  - intros H. specialize (H eq_refl). destruct t; [destruct (f_parent (field o f)) as [[s|]|]|destruct (f_parent (field o f)) as [[s|]|]|destruct (f_output (field o f)) as [s|]]; congruence.
Qed.

Lemma modifier_dependencies_in : forall o ms i x q, In (x, q) (modifier_dependencies o i ms) <->
  exists j m t path g, nth_error ms j = Some m /\ x = Scheduler.Model.M (i + j) /\ In t (m_targets m) /\
    leads (f_super (field o (i_field t))) path g /\ f_partition (field o g) = q.
Proof.
  intros o. induction ms as [|m ms IH]; intros i x q; cbn [modifier_dependencies].
  - split; [intros []|intros ([|j] & m & t & path & g & E & _); discriminate E].
  - rewrite in_app_iff, IH, in_flat_map. split.
    + intros [(t & I & J)|(j & m' & t & path & g & E & -> & I & L & P)].
      * apply register_in in J. destruct J as (-> & path & g & L & P). exists 0, m, t, path, g. rewrite Nat.add_0_r.
        split; [reflexivity|]. split; [reflexivity|]. split; [exact I|]. split; assumption.
      * exists (S j), m', t, path, g. rewrite <- Nat.add_succ_comm. split; [exact E|]. split; [reflexivity|]. split; [exact I|]. split; assumption.
    + intros ([|j] & m' & t & path & g & E & -> & I & L & P).
      * injection E as <-. left. exists t. split; [exact I|]. apply register_in. rewrite Nat.add_0_r. split; [reflexivity|]. exists path, g. split; assumption.
      * right. exists j, m', t, path, g. rewrite <- Nat.add_succ_comm. split; [exact E|]. split; [reflexivity|]. split; [exact I|]. split; assumption.
Qed.
Lemma partition_modifiers_in : forall ms i p j, In (p, j) (partition_modifiers i ms) <->
  exists n m t l, nth_error ms n = Some m /\ j = i + n /\ m_targets m = t :: l /\ i_partition t = p.
Proof.
  induction ms as [|m ms IH]; intros i p j; cbn [partition_modifiers].
  - split; [intros []|intros ([|n] & m & t & l & E & _); discriminate E].
  - assert (K : In (p, j) (partition_modifiers (S i) ms) <->
      exists n m' t l, nth_error (m :: ms) (S n) = Some m' /\ j = i + S n /\ m_targets m' = t :: l /\ i_partition t = p).
    { rewrite IH. split; intros (n & m' & t & l & E & Ej & R); exists n, m', t, l; (split; [exact E|]); (split; [lia|exact R]). }
    destruct (m_targets m) as [|t l] eqn:T.
    + rewrite K. split; [intros (n & m' & t & l & H); exists (S n), m', t, l; exact H|].
      intros ([|n] & m' & t & l & E & Ej & R); [injection E as <-; rewrite T in R; destruct R as (R & _); discriminate R|].
      exists n, m', t, l. split; [exact E|]. split; [exact Ej|exact R].
    + cbn [In]. rewrite K. split.
      * intros [E|(n & m' & t' & l' & H)]; [|exists (S n), m', t', l'; exact H]. injection E as <- <-. exists 0, m, t, l.
        split; [reflexivity|]. split; [lia|]. split; [exact T|reflexivity].
      * intros ([|n] & m' & t' & l' & E & Ej & R & P).
        -- injection E as <-. rewrite T in R. injection R as <- <-. left. rewrite P. f_equal. lia.
        -- right. exists n, m', t', l'. split; [exact E|]. split; [exact Ej|]. split; assumption.
Qed.
