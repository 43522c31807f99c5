(** The splitting of a whole query. *)
From Coq Require Import List Arith Bool Permutation Lia.
From Verif Require Import Partitions.Model Partitions.Spec Partitions.Proofs.
Import ListNotations.

Lemma resolver_unique : forall g n a b, resolver_of g n a -> resolver_of g n b -> a = b.
Proof. intros g n a b (e & H) (e' & K). congruence. Qed.

Lemma kept_refl : forall depth g, well_formed depth g -> kept g g.
Proof.
  intros depth g WF. constructor.
  - auto.
  - intros. lia.
  - intros. lia.
  - tauto.
  - intros r p f P F. exists p. split; [exact P | split; [exact F|]]. destruct (wf_resolver _ _ WF _ _ P) as (res & R).
    exists p, res. split; [exact R | split; [exact R|]]. split; [exact P | split; [reflexivity | split; intros; reflexivity]].
  - intros p q f P Q. assert (E := tree_unique g (wf_tree _ _ WF) _ _ P Q eq_refl eq_refl eq_refl). injection E as ->. reflexivity.
  - intros r p f P F. destruct (wf_resolver _ _ WF _ _ P) as (res & R). exists p, res. auto.
  - intros r p P. exists p. split; [exact P | split; [reflexivity | split; intros; reflexivity]].
  - tauto.
Qed.

Lemma kept_partition : forall g g' n, kept g g' -> n < length (g_nodes g) -> (is_partition g' n <-> is_partition g n).
Proof. intros g g' n K B. unfold is_partition. rewrite (proj2 (k_nodes _ _ K) n B). reflexivity. Qed.

Lemma copy_trans : forall g g1 g2 r p0 p1 p2, copy_of g g1 r p0 p1 -> copy_of g1 g2 r p1 p2 -> copy_of g g2 r p0 p2.
Proof.
  intros g g1 g2 r p0 p1 p2 (A & B & C & D) (A' & B' & C' & D'). split; [exact A|]. split; [congruence|].
  split; intros d; [rewrite C', C | rewrite D', D]; reflexivity.
Qed.

Lemma kept_trans : forall g g1 g2, kept g g1 -> kept g1 g2 -> (forall s d w, has g1 s d w -> s < length (g_nodes g1) /\ d < length (g_nodes g1)) ->
  (forall s d w, has g s d w -> s < length (g_nodes g) /\ d < length (g_nodes g)) -> kept g g2.
Proof.
  intros g g1 g2 K M B1 B0. constructor.
  - destruct (k_nodes _ _ K) as [A B], (k_nodes _ _ M) as [C D]. split; [lia|]. intros n H. rewrite D by lia. auto.
  - intros n A B. destruct (Nat.lt_ge_cases n (length (g_nodes g1))) as [C | C].
    + apply (kept_partition _ _ _ M C). apply (k_new _ _ K); assumption.
    + apply (k_new _ _ M); assumption.
  - intros A. destruct (Nat.lt_ge_cases (length (g_nodes g)) (length (g_nodes g1))) as [C | C]; [apply (k_due _ _ K); exact C|].
    destruct (k_due _ _ M) as (r & p & q & res & a & b & P & Q & Rp & Rq & Fa & Fb & Ne & Nd); [lia|]. exists r.
    destruct (k_no_more _ _ K _ _ _ P Fa) as (p' & rp & P' & Fa' & Rp1 & Rp').
    destruct (k_no_more _ _ K _ _ _ Q Fb) as (q' & rq & Q' & Fb' & Rq1 & Rq').
    rewrite (resolver_unique _ _ _ _ Rp1 Rp) in Rp'. rewrite (resolver_unique _ _ _ _ Rq1 Rq) in Rq'.
    exists p', q', res, a, b. split; [exact P'|]. split; [exact Q'|]. split; [exact Rp'|]. split; [exact Rq'|].
    split; [exact Fa'|]. split; [exact Fb'|]. split; [exact Ne|]. apply (k_needs _ _ K); [exact (proj2 (B0 _ _ _ Fa')) | exact Nd].
  - intros s d w A B N. destruct (k_nodes _ _ K) as [L _].
    rewrite (k_edges _ _ M); [apply (k_edges _ _ K); assumption | lia | lia|].
    intros [P W]. apply N. split; [apply (kept_partition _ _ _ K A); exact P | exact W].
  - intros r p f P F. destruct (k_fields _ _ K _ _ _ P F) as (p1 & P1 & F1 & p0 & res & Rp & R0 & C0).
    destruct (k_fields _ _ M _ _ _ P1 F1) as (p2 & P2 & F2 & q0 & res' & Rp1 & Rq & Cq).
    exists p2. split; [exact P2 | split; [exact F2|]].
    destruct (k_partitions _ _ K _ _ (proj1 Cq)) as (u & Cu). exists u, res. split; [exact Rp|]. split; [|eapply copy_trans; eassumption].
    assert (res' = res) as ->.
    { destruct C0 as (_ & E & _). destruct Rp1 as (e & Rp1). rewrite E in Rp1. eapply resolver_unique; [exists e; exact Rp1 | exact R0]. }
    destruct Cu as (_ & E & _). destruct Rq as (e & Rq). rewrite E in Rq. exists e. exact Rq.
  - exact (k_once _ _ M).
  - intros r p f P F. destruct (k_no_more _ _ M _ _ _ P F) as (p1 & res & P1 & F1 & R2 & R1).
    destruct (k_no_more _ _ K _ _ _ P1 F1) as (p0 & res' & P0 & F0 & R1' & R0).
    rewrite (resolver_unique _ _ _ _ R1' R1) in R0. exists p0, res. auto.
  - intros r p P. destruct (k_partitions _ _ M _ _ P) as (p1 & C1). destruct (k_partitions _ _ K _ _ (proj1 C1)) as (p0 & C0).
    exists p0. eapply copy_trans; eassumption.
  - intros n m A. rewrite (k_needs _ _ M) by (destruct (k_nodes _ _ K); lia). apply (k_needs _ _ K). exact A.
Qed.

Section Runs.
Variable arrange : list fld -> list fld.
Hypothesis SA : sorts arrange.

(** ** One step *)
Lemma split_step : forall depth g r, well_formed depth g -> exists depth',
  (forall n, n < length (g_nodes g) -> depth' n = depth n) /\
  (forall D, (forall n, n < length (g_nodes g) -> depth n <= D) -> forall n, n < length (g_nodes (split arrange g r)) -> depth' n <= D) /\
  well_formed depth' (split arrange g r) /\ kept g (split arrange g r) /\ separated (split arrange g r) r /\
  (forall s p, s <> r -> (has (split arrange g r) s p WPartition <-> has g s p WPartition)) /\
  (forall s p f, s <> r -> has g s p WPartition -> (has (split arrange g r) p f WField <-> has g p f WField)).
Proof.
  intros depth g r WF. unfold split. destruct (nested_fields g r) as [|x0 l0] eqn:E.
  - exists depth. split; [reflexivity|]. split; [auto|]. split; [exact WF|]. split; [eapply kept_refl; exact WF|].
    split; [|split; tauto]. intros p a b P A. exfalso. destruct (fields_all _ _ _ WF _ _ P A) as (x & I & _). rewrite E in I. destruct I.
  - rewrite <- E. assert (P := SA (nested_fields g r)). set (L := arrange (nested_fields g r)) in *.
    destruct (place_inv depth g r WF L P L [] (g1 g L) (nested_partitions g r) [] []) as (own & asg & J).
    { apply inv_start with depth; assumption. }
    { intros x; auto. }
    { intros x []. }
    { eapply L_NoDup; eassumption. }
    cbn [app] in J. unfold g1 in J. cbv zeta in J. set (st := fold_left (place r) L (detach g L, nested_partitions g r)) in *.
    exists (depth' depth g r). split; [|split; [|split; [|split; [|split; [|split]]]]].
    + intros n B. unfold depth', n0. rewrite (proj2 (Nat.ltb_lt _ _) B). reflexivity.
    + intros D HD n B. unfold depth'. destruct (n <? n0 g) eqn:Q; [apply Nat.ltb_lt in Q; apply HD; exact Q|].
      apply Nat.ltb_ge in Q. rewrite (gs_length _ _ _ _ _ _ _ J) in B. destruct (own_nth _ _ n (conj Q B)) as (i & x & O & _).
      destruct (own_in _ _ _ WF _ P _ _ _ _ J _ _ O) as [A _]. assert (Dp := wf_depth _ _ WF _ A eq_refl). cbn in Dp. rewrite <- Dp.
      apply HD. exact (old_dst _ _ WF _ _ _ A).
    + eapply gs_wf; eassumption.
    + eapply gs_kept; eassumption.
    + eapply gs_separated; eassumption.
    + intros s p Ne. rewrite (gs_partition _ _ _ WF _ P _ _ _ _ J). split; [|tauto]. intros [H | [H _]]; [exact H | contradiction].
    + intros s p f Ne Ps. eapply (gs_other _ _ _ WF _ P _ _ _ _ J); eassumption.
Qed.

Lemma wf_bounds : forall depth g, well_formed depth g -> forall s d w, has g s d w -> s < length (g_nodes g) /\ d < length (g_nodes g).
Proof. intros depth g WF s d w H. exact (wf_nodes _ _ WF _ H). Qed.

Lemma split_separated : forall depth g r s, well_formed depth g -> separated g s -> separated (split arrange g r) s.
Proof.
  intros depth g r s WF H. destruct (split_step depth g r WF) as (d' & _ & _ & WF' & K & Sr & Op & Of).
  destruct (Nat.eq_dec s r) as [-> | Ne]; [exact Sr|].
  intros p a b P A B N Q. apply (Op _ _ Ne) in P. apply (Of _ _ _ Ne P) in A. apply (Of _ _ _ Ne P) in B.
  apply (H p a b P A B N). apply (k_needs _ _ K); [exact (proj2 (wf_bounds _ _ WF _ _ _ A)) | exact Q].
Qed.

(** ** Whole runs *)
Lemma run_facts : forall fuel stack depth g g', well_formed depth g -> run arrange fuel stack g = Some g' -> exists depth',
  (forall n, n < length (g_nodes g) -> depth' n = depth n) /\
  (forall D, (forall n, n < length (g_nodes g) -> depth n <= D) -> forall n, n < length (g_nodes g') -> depth' n <= D) /\
  well_formed depth' g' /\ kept g g' /\ (forall s, separated g s -> separated g' s).
Proof.
  intros fuel. induction fuel as [|fuel IH]; intros [|r stack] depth g g' WF H; cbn [run] in H; try discriminate;
    try solve [injection H as <-; exists depth; split; [reflexivity|]; split; [auto|]; split; [exact WF|]; split; [eapply kept_refl; exact WF | auto]].
  destruct (split_step depth g r WF) as (d1 & A1 & B1 & WF1 & K1 & _).
  destruct (IH _ d1 _ _ WF1 H) as (d2 & A2 & B2 & WF2 & K2 & S2). exists d2.
  split; [|split; [|split; [exact WF2 | split]]].
  - intros n B. rewrite A2 by (destruct (k_nodes _ _ K1); lia). auto.
  - intros D HD n B. apply (B2 D); [|exact B]. apply B1. exact HD.
  - eapply kept_trans; [exact K1 | exact K2 | eapply wf_bounds; exact WF1 | eapply wf_bounds; exact WF].
  - intros s Q. apply S2. eapply split_separated; eassumption.
Qed.

Lemma below_bounds : forall depth g a b, well_formed depth g -> below g a b -> a < length (g_nodes g) /\ b < length (g_nodes g).
Proof.
  intros depth g a b WF [H _ | p H K].
  - eapply wf_bounds; eassumption.
  - split; [apply (wf_bounds _ _ WF _ _ _ H) | apply (wf_bounds _ _ WF _ _ _ K)].
Qed.

Lemma kept_below : forall depth g g' a b, well_formed depth g -> kept g g' -> below g a b -> below g' a b.
Proof.
  intros depth g g' a b WF K [H C | p H F].
  - destruct (wf_bounds _ _ WF _ _ _ H) as [A B]. apply below_field.
    + apply (k_edges _ _ K); [exact A | exact B | | exact H]. intros [(e & r & P) _]. destruct C as [(u & v & C) | C]; congruence.
    + unfold is_field. rewrite (proj2 (k_nodes _ _ K) a A). exact C.
  - destruct (k_fields _ _ K _ _ _ H F) as (p' & P' & F' & _). eapply below_partition; eassumption.
Qed.

Lemma kept_under : forall depth g g' a b, well_formed depth g -> kept g g' -> under g a b -> under g' a b.
Proof. intros depth g g' a b WF K H. induction H; [constructor | econstructor 2; [eassumption | eapply kept_below; eassumption]]. Qed.

Lemma under_left : forall g a b, under g a b -> a = b \/ exists x, below g a x /\ under g x b.
Proof.
  intros g a b H. induction H as [|b c H IH B]; [left; reflexivity|]. right. destruct IH as [<- | (x & X & U)].
  - exists c. split; [exact B | constructor].
  - exists x. split; [exact X | econstructor 2; eassumption].
Qed.

Lemma pushed_below : forall depth g r n, well_formed depth g -> below g r n -> In n (pushed g r).
Proof.
  intros depth g r n WF [H _ | p H F]; unfold pushed; apply in_flat_map.
  - exists n. split; [apply children_in; right; exact H|]. destruct (wf_field _ _ WF _ _ H) as (u & v & E). rewrite E. left. reflexivity.
  - exists p. split; [apply children_in; left; exact H|]. destruct (proj1 (wf_partition _ _ WF _ _ H)) as (e & res & E). rewrite E.
    destruct (wf_field _ _ WF _ _ F) as (pos & t & Nf). apply in_map_iff.
    exists {| fl_position := pos; fl_partition := p; fl_resolver := res; fl_node := n |}. split; [reflexivity|].
    apply partition_fields_in. cbn. split; [reflexivity|]. split; [reflexivity|]. split; [exact F | exists t; exact Nf].
Qed.

Lemma run_separated : forall fuel stack depth g g', well_formed depth g -> run arrange fuel stack g = Some g' ->
  forall r v, In r stack -> under g r v -> separated g' v.
Proof.
  intros fuel. induction fuel as [|fuel IH]; intros [|r stack] depth g g' WF H s v I U; cbn [run] in H; try discriminate; try solve [destruct I].
  destruct (split_step depth g r WF) as (d1 & A1 & B1 & WF1 & K1 & S1 & _).
  destruct I as [<- | I].
  - destruct (under_left _ _ _ U) as [<- | (x & X & V)].
    + destruct (run_facts _ _ _ _ _ WF1 H) as (_ & _ & _ & _ & _ & Q). apply Q. exact S1.
    + apply (IH _ _ _ _ WF1 H x v); [|exact (kept_under _ _ _ _ _ WF K1 V)].
      apply in_or_app. left. rewrite <- in_rev. eapply pushed_below; eassumption.
  - apply (IH _ _ _ _ WF1 H s v); [apply in_or_app; right; exact I | exact (kept_under _ _ _ _ _ WF K1 U)].
Qed.

Lemma run_mono : forall fuel stack g g' k, run arrange fuel stack g = Some g' -> run arrange (fuel + k) stack g = Some g'.
Proof.
  intros fuel. induction fuel as [|fuel IH]; intros [|r stack] g g' k H; cbn [run Nat.add] in *; try discriminate; auto.
  destruct k; exact H.
Qed.

Lemma run_app : forall fuel l fuel' s g g1 g2, run arrange fuel l g = Some g1 -> run arrange fuel' s g1 = Some g2 ->
  run arrange (fuel + fuel') (l ++ s) g = Some g2.
Proof.
  intros fuel. induction fuel as [|fuel IH]; intros [|r l] fuel' s g g1 g2 H K; cbn [run app] in H; try discriminate.
  - injection H as <-. exact K.
  - injection H as <-. cbn [app]. rewrite Nat.add_comm. apply run_mono. exact K.
  - cbn [Nat.add app run]. rewrite app_assoc. eapply IH; eassumption.
Qed.

(** What is pushed lies deeper. *)
Lemma pushed_deep : forall depth g r n, well_formed depth g -> In n (pushed g r) -> n < length (g_nodes g) /\ depth r < depth n.
Proof.
  intros depth g r n WF H. unfold pushed in H. apply in_flat_map in H. destruct H as (c & C & H). apply children_in in C.
  assert (c < length (g_nodes g) /\ depth c = S (depth r)) as [B Dc].
  { destruct C as [C | C]; (split; [apply (wf_bounds _ _ WF _ _ _ C) | apply (wf_depth _ _ WF _ C eq_refl)]). }
  destruct (node_at g c) as [| e res |] eqn:E; [destruct H | | destruct H as [<- | []]; split; [exact B | lia]].
  apply in_map_iff in H. destruct H as (x & <- & X). apply partition_fields_in in X. destruct X as (_ & _ & F & _).
  split; [apply (wf_bounds _ _ WF _ _ _ F)|]. assert (Df := wf_depth _ _ WF _ F eq_refl). cbn in Df. lia.
Qed.

Lemma run_ends_list : forall (P : nat -> Prop),
  (forall depth g D r, well_formed depth g -> (forall n, n < length (g_nodes g) -> depth n <= D) -> r < length (g_nodes g) -> P (D - depth r) ->
     exists fuel g', run arrange fuel [r] g = Some g') ->
  forall l depth g D, well_formed depth g -> (forall n, n < length (g_nodes g) -> depth n <= D) ->
  (forall r, In r l -> r < length (g_nodes g) /\ P (D - depth r)) -> exists fuel g', run arrange fuel l g = Some g'.
Proof.
  intros P Q l. induction l as [|r l IH]; intros depth g D WF B L.
  - exists 0, g. reflexivity.
  - destruct (L r (or_introl eq_refl)) as [Br Pr]. destruct (Q _ _ D r WF B Br Pr) as (f1 & g1 & R1).
    destruct (run_facts _ _ _ _ _ WF R1) as (d1 & A1 & B1 & WF1 & K1 & _).
    destruct (IH d1 g1 D WF1 (B1 D B)) as (f2 & g2 & R2).
    { intros s I. destruct (L s (or_intror I)) as [Bs Ps]. rewrite A1 by exact Bs. split; [destruct (k_nodes _ _ K1); lia | exact Ps]. }
    exists (f1 + f2), g2. change (r :: l) with ([r] ++ l). eapply run_app; eassumption.
Qed.

Lemma run_ends : forall k depth g D r, well_formed depth g -> (forall n, n < length (g_nodes g) -> depth n <= D) -> r < length (g_nodes g) ->
  D - depth r < k -> exists fuel g', run arrange fuel [r] g = Some g'.
Proof.
  intros k. induction k as [|k IH]; intros depth g D r WF B Br H; [lia|].
  destruct (split_step depth g r WF) as (d1 & A1 & B1 & WF1 & K1 & _).
  destruct (run_ends_list (fun m => m < k) IH (rev (pushed g r)) d1 (split arrange g r) D WF1 (B1 D B)) as (f & g' & R).
  - intros n I. apply in_rev in I. destruct (pushed_deep _ _ _ _ WF I) as [Bn Dn]. rewrite A1 by exact Bn.
    split; [destruct (k_nodes _ _ K1); lia|]. assert (X := B n Bn). lia.
  - exists (S f), g'. cbn [run]. rewrite app_nil_r. exact R.
Qed.

Lemma depth_bound : forall (depth : nat -> nat) m, exists D, forall n, n < m -> depth n <= D.
Proof.
  intros depth m. induction m as [|m (D & H)]; [exists 0; lia|]. exists (Nat.max D (depth m)). intros n L.
  destruct (Nat.eq_dec n m) as [-> | Ne]; [lia|]. assert (X := H n ltac:(lia)). lia.
Qed.

Lemma run_total : forall depth g stack, well_formed depth g -> (forall r, In r stack -> r < length (g_nodes g)) ->
  exists fuel g', run arrange fuel stack g = Some g'.
Proof.
  intros depth g stack WF B. destruct (depth_bound depth (length (g_nodes g))) as (D & HD).
  apply (run_ends_list (fun _ => True)) with (depth := depth) (D := D); auto.
  intros d' h D' r W Bd Br _. apply (run_ends (S (D' - d' r)) d' h D' r W Bd Br). lia.
Qed.
End Runs.

(** * Rings *)
Lemma chain_start : forall g a l b, chain g a l b -> exists p leave l', l = (p, a, leave) :: l'.
Proof. intros g a l b H. destruct H; eauto. Qed.

(** Without a place where entry and exit are apart a chain is a path of requirements. *)
Lemma chain_needs : forall g a l b, chain g a l b ->
  (forall p enter leave, In (p, enter, leave) l -> enter = leave) -> needs g a b.
Proof.
  intros g a l b H. induction H as [p e v b E V N | p e v n l b E V N C IH]; intros A.
  - rewrite (A p e v (or_introl eq_refl)). exact N.
  - rewrite (A p e v (or_introl eq_refl)). eapply needs_trans; [exact N|]. apply IH. intros q x y Q. apply (A q). right. exact Q.
Qed.

Lemma chain_fields : forall g a l b, chain g a l b -> forall p enter leave, In (p, enter, leave) l -> has g p enter WField /\ has g p leave WField.
Proof.
  intros g a l b H. induction H as [p e v b E V N | p e v n l b E V N C IH]; intros q x y I; cbn [In] in I.
  - destruct I as [I | []]. injection I as <- <- <-. auto.
  - destruct I as [I | I]; [injection I as <- <- <-; auto | auto].
Qed.

Lemma all_equal_or_not : forall (l : list (nat * nat * nat)),
  (forall p enter leave, In (p, enter, leave) l -> enter = leave) \/ exists p enter leave, In (p, enter, leave) l /\ enter <> leave.
Proof.
  intros l. induction l as [|[[p e] v] l IH]; [left; intros ? ? ? []|].
  destruct (Nat.eq_dec e v) as [-> | Ne]; [|right; exists p, e, v; split; [left; reflexivity | exact Ne]].
  destruct IH as [IH | (q & x & y & I & Ne)].
  - left. intros q x y [I | I]; [injection I as <- <- <-; reflexivity | eapply IH; exact I].
  - right. exists q, x, y. split; [right; exact I | exact Ne].
Qed.
