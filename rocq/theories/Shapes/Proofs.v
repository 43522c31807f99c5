(** Partitioning: every partition carries exactly the fields that apply to its types. *)
From Coq Require Import List Arith NArith Bool Lia Sorting.Sorted Sorting.Permutation.
From Verif.Shapes Require Import Model Spec Sets.
Import ListNotations.

Definition mem (t : nat) (l : list nat) : bool := existsb (Nat.eqb t) l.
Lemma mem_spec t l : mem t l = true <-> In t l.
Proof.
  unfold mem. rewrite existsb_exists. split.
  - intros [x [I E]]. apply Nat.eqb_eq in E. subst. exact I.
  - intros I. exists t. rewrite Nat.eqb_refl. auto.
Qed.
Lemma mem_false t l : mem t l = false <-> ~ In t l.
Proof. rewrite <- mem_spec. destruct (mem t l); intuition; discriminate. Qed.
Lemma bool_iff (a b : bool) : (a = true <-> b = true) -> a = b.
Proof. destruct a, b; intuition; symmetry; auto. Qed.

(** Field [i] is wanted on type [t] by one of the conditions. *)
Definition wants (cs : list part) (t : nat) (i : N) : bool :=
  existsb (fun c => mem t (fst c) && N.testbit (snd c) i) cs.
Definition all_ids (ps : list part) : list nat := flat_map fst ps.
Definition part_ok (p : part) : Prop := fst p <> [] /\ type_set (fst p).

Lemma wants_app a b t i : wants (a ++ b) t i = wants a t i || wants b t i.
Proof. apply existsb_app. Qed.

(** ** One new condition *)
Lemma NoDup_app_disj : forall a b : list nat, NoDup a -> NoDup b -> (forall t, In t a -> ~ In t b) -> NoDup (a ++ b).
Proof.
  induction a as [|x a IH]; intros b A B D; [exact B|]. inversion A; subst. cbn [app]. constructor.
  - rewrite in_app_iff. intros [I|I]; [contradiction|]. apply (D x); simpl; auto.
  - apply IH; auto. intros t I. apply D. simpl. auto.
Qed.
Lemma NoDup_app_remove_l : forall a b : list nat, NoDup (a ++ b) -> NoDup b.
Proof. induction a as [|x a IH]; intros b H; [exact H|]. inversion H; subst. auto. Qed.
Lemma type_set_perm a b : type_set a -> NoDup b -> (forall t, In t a <-> In t b) -> Permutation a b.
Proof. intros A B C. apply NoDup_Permutation; auto using ts_nodup. Qed.

Lemma split_inner_spec fields sup : forall parts new,
  Forall part_ok parts -> type_set new -> NoDup (all_ids parts) ->
  exists parts' pushed new', split_inner parts new fields sup = Some (parts', pushed, new') /\
  type_set new' /\ (forall t, In t new' <-> In t new /\ ~ In t (all_ids parts)) /\
  Forall part_ok (parts' ++ pushed) /\
  Permutation (all_ids (parts' ++ pushed)) (all_ids parts) /\
  (forall p', In p' (parts' ++ pushed) -> exists p, In p parts /\
     forall t, In t (fst p') -> In t (fst p) /\
       ((mem t new = false /\ snd p' = snd p) \/
        (mem t new = true /\ (snd p' = N.lor (snd p) fields \/ snd p' = N.lor (N.lor fields (snd p)) sup)))).
Proof.
  induction parts as [|[ids fs] rest IH]; intros new OK T ND; cbn [split_inner].
  - exists [], [], new. split; [reflexivity|]. split; [exact T|]. split; [simpl; tauto|].
    split; [constructor|]. split; [constructor|]. intros ? [].
  - inversion OK as [|? ? [N0 T0] OK']; subst. cbn [fst] in *.
    cbn [all_ids flat_map fst] in ND. fold (all_ids rest) in ND.
    destruct (is_empty new) eqn:E.
    { destruct new; [|discriminate]. exists ((ids, fs) :: rest), [], []. split; [reflexivity|].
      split; [exact T|]. split; [simpl; tauto|]. rewrite app_nil_r. split; [exact OK|]. split; [reflexivity|].
      intros p I. exists p. split; [exact I|]. intros t It. split; [exact It|]. left. auto. }
    rewrite extract_spec; [|exact N0|intros ->; discriminate|exact T0|exact T].
    pose proof (split3_spec ids new T0 T) as S3. destruct (split3 ids new) as [[ids' new1] common].
    destruct S3 as (Ta & Tb & Tc & Ia & Ib & Ic).
    assert (ND' : NoDup (all_ids rest)) by (apply NoDup_app_remove_l in ND; exact ND).
    destruct (IH new1 OK' Tb ND') as (parts' & pushed & new' & -> & Tn & In' & OK2 & P & M). clear IH.
    assert (Disj : forall t, In t ids -> ~ In t (all_ids rest)).
    { intros t I1 I2. revert ND I1 I2. clear. induction ids as [|x ids IH]; intros ND I1 I2; [destruct I1|].
      cbn [app] in ND. inversion ND as [|? ? A B]; subst. destruct I1 as [->|I1]; [|exact (IH B I1 I2)].
      apply A, in_or_app. auto. }
    assert (Pids : Permutation ids (ids' ++ common)).
    { apply type_set_perm; [exact T0| |].
      - apply NoDup_app_disj; auto using ts_nodup. intros t. rewrite Ia, Ic. tauto.
      - intros t. rewrite in_app_iff, Ia, Ic. destruct (in_dec Nat.eq_dec t new); tauto. }
    assert (Mnew : forall t, In t (all_ids rest) -> mem t new1 = mem t new).
    { intros t I. apply bool_iff. rewrite !mem_spec, Ib. specialize (Disj t). tauto. }
    assert (Mrest : forall p', In p' (parts' ++ pushed) -> exists p, In p ((ids, fs) :: rest) /\
      forall t, In t (fst p') -> In t (fst p) /\
       ((mem t new = false /\ snd p' = snd p) \/
        (mem t new = true /\ (snd p' = N.lor (snd p) fields \/ snd p' = N.lor (N.lor fields (snd p)) sup)))).
    { intros p' I. destruct (M p' I) as (p & Ip & Q). exists p. split; [right; exact Ip|].
      intros t It. destruct (Q t It) as [Q1 Q2]. split; [exact Q1|]. rewrite <- (Mnew t); [exact Q2|].
      apply in_flat_map. exists p. auto. }
    assert (Inew : forall t, In t new' <-> In t new /\ ~ In t (all_ids ((ids, fs) :: rest))).
    { intros t. rewrite In', Ib. cbn [all_ids flat_map fst]. fold (all_ids rest). rewrite in_app_iff. tauto. }
    destruct (is_empty ids') eqn:E1; [destruct ids'; [|discriminate]|destruct (is_empty common) eqn:E2; [destruct common; [|discriminate]|]].
    + exists ((common, N.lor fs fields) :: parts'), pushed, new'. split; [reflexivity|].
      split; [exact Tn|]. split; [exact Inew|]. cbn [app] in Pids |- *.
      split. { constructor; [|exact OK2]. split; [|exact Tc]. cbn [fst]. intros ->. apply Permutation_sym, Permutation_nil in Pids. contradiction. }
      split. { cbn [all_ids flat_map fst]. fold (all_ids (parts' ++ pushed)) (all_ids rest). apply Permutation_app; [symmetry; exact Pids|exact P]. }
      intros p' [<-|I]; [|auto]. exists (ids, fs). split; [left; reflexivity|]. cbn [fst snd].
      intros t It. apply Ic in It. split; [apply It|]. right. rewrite mem_spec. tauto.
    + exists ((ids', fs) :: parts'), pushed, new'. split; [reflexivity|].
      split; [exact Tn|]. split; [exact Inew|]. cbn [app]. rewrite app_nil_r in Pids.
      split. { constructor; [|exact OK2]. split; [|exact Ta]. cbn [fst]. intros ->. discriminate. }
      split. { cbn [all_ids flat_map fst]. fold (all_ids (parts' ++ pushed)) (all_ids rest). apply Permutation_app; [symmetry; exact Pids|exact P]. }
      intros p' [<-|I]; [|auto]. exists (ids, fs). split; [left; reflexivity|]. cbn [fst snd].
      intros t It. apply Ia in It. split; [apply It|]. left. rewrite mem_false. tauto.
    + exists ((ids', fs) :: parts'), ((common, N.lor (N.lor fields fs) sup) :: pushed), new'. split; [reflexivity|].
      split; [exact Tn|]. split; [exact Inew|].
      split. { cbn [app]. constructor; [split; [cbn [fst]; intros ->; discriminate|exact Ta]|].
        rewrite Forall_app in OK2. apply Forall_app. split; [tauto|]. constructor; [|tauto].
        split; [cbn [fst]; intros ->; discriminate|exact Tc]. }
      split. { cbn [app all_ids flat_map fst]. fold (all_ids (parts' ++ (common, N.lor (N.lor fields fs) sup) :: pushed)) (all_ids rest).
        transitivity (ids' ++ common ++ all_ids (parts' ++ pushed)).
        - apply Permutation_app_head. unfold all_ids. rewrite !flat_map_app. cbn [flat_map fst].
          rewrite !app_assoc. apply Permutation_app_tail. apply Permutation_app_comm.
        - rewrite app_assoc. apply Permutation_app; [symmetry; exact Pids|exact P]. }
      intros p' I. cbn [app] in I. destruct I as [<-|I].
      { exists (ids, fs). split; [left; reflexivity|]. cbn [fst snd].
        intros t It. apply Ia in It. split; [apply It|]. left. rewrite mem_false. tauto. }
      apply in_app_iff in I. destruct I as [I|[<-|I]]; [apply Mrest, in_or_app; auto| |apply Mrest, in_or_app; auto].
      exists (ids, fs). split; [left; reflexivity|]. cbn [fst snd].
      intros t It. apply Ic in It. split; [apply It|]. right. rewrite mem_spec. tauto.
Qed.

(** ** All conditions *)
Definition covered (cs : list part) (t : nat) : Prop := exists c, In c cs /\ In t (fst c).
Definition inv (output : list nat) (sup : N) (done parts : list part) : Prop :=
  Forall part_ok parts /\ NoDup (all_ids parts) /\
  (forall t, In t (all_ids parts) <-> In t output /\ covered done t) /\
  (forall p t i, In p parts -> In t (fst p) -> N.testbit (snd p) i = N.testbit sup i || wants done t i).

Lemma wants_uncovered cs t i : ~ covered cs t -> wants cs t i = false.
Proof.
  intros U. destruct (wants cs t i) eqn:E; [|reflexivity]. exfalso. apply U. unfold wants in E.
  apply existsb_exists in E. destruct E as (c & I & E). apply andb_true_iff in E. destruct E as [E _].
  apply mem_spec in E. exists c. auto.
Qed.

Lemma all_ids_app a b : all_ids (a ++ b) = all_ids a ++ all_ids b.
Proof. apply flat_map_app. Qed.
Lemma all_ids_in ps t : In t (all_ids ps) <-> exists p, In p ps /\ In t (fst p).
Proof. apply in_flat_map. Qed.
Lemma covered_app a b t : covered (a ++ b) t <-> covered a t \/ covered b t.
Proof.
  unfold covered. split.
  - intros (c & I & T). apply in_app_iff in I. destruct I; [left|right]; exists c; auto.
  - intros [(c & I & T)|(c & I & T)]; exists c; rewrite in_app_iff; auto.
Qed.
Lemma covered_one c t : covered [c] t <-> In t (fst c).
Proof. unfold covered. simpl. split; [intros (x & [<-|[]] & I); exact I|intros I; exists c; auto]. Qed.

Lemma split_step output sup done parts types fields : type_set output -> type_set types ->
  inv output sup done parts ->
  exists parts' pushed new, split_inner parts (inter types output) fields sup = Some (parts', pushed, new) /\
  inv output sup (done ++ [(types, fields)])
    (parts' ++ pushed ++ (if is_empty new then [] else [(new, N.lor fields sup)])).
Proof.
  intros To Tt (OK & ND & Cov & Bits).
  destruct (inter_spec types output Tt To) as [Ti Ii].
  destruct (split_inner_spec fields sup parts (inter types output) OK Ti ND) as (parts' & pushed & new & E & Tn & In' & OK' & P & M).
  exists parts', pushed, new. split; [exact E|].
  match goal with |- inv _ _ _ (_ ++ _ ++ ?x) => set (last := x) end.
  assert (L : all_ids last = new) by (unfold last; destruct new; simpl; rewrite ?app_nil_r; reflexivity).
  assert (Bk : forall p t i, In p (parts' ++ pushed) -> In t (fst p) -> N.testbit (snd p) i = N.testbit sup i || wants (done ++ [(types, fields)]) t i).
  { intros p' t i Ip It. destruct (M p' Ip) as (p & Ip' & Q). destruct (Q t It) as [It' Q2].
    assert (To' : In t output) by (apply (Cov t), all_ids_in; exists p; auto).
    rewrite wants_app. unfold wants at 2. cbn [existsb fst snd]. rewrite orb_false_r.
    assert (Mt : mem t types = mem t (inter types output)) by (apply bool_iff; rewrite !mem_spec, Ii; tauto).
    rewrite Mt. pose proof (Bits p t i Ip' It') as B.
    destruct Q2 as [[E1 E2]|[E1 [E2|E2]]]; rewrite E1, E2; cbn [andb].
    - rewrite orb_false_r. exact B.
    - rewrite N.lor_spec, B, orb_assoc. reflexivity.
    - rewrite !N.lor_spec, B. destruct (N.testbit sup i), (wants done t i), (N.testbit fields i); reflexivity. }
  rewrite app_assoc. split; [|split; [|split]].
  - apply Forall_app. split; [exact OK'|]. unfold last. destruct new as [|n0 new]; [constructor|]. constructor; [|constructor]. split; [discriminate|exact Tn].
  - rewrite all_ids_app, L. apply NoDup_app_disj; [|apply ts_nodup; exact Tn|].
    + eapply Permutation_NoDup; [symmetry; exact P|exact ND].
    + intros t I1 I2. apply In' in I2. apply I2. eapply Permutation_in; [exact P|exact I1].
  - intros t. rewrite all_ids_app, L, in_app_iff, In', Ii, covered_app, covered_one. cbn [fst].
    assert (PI : In t (all_ids (parts' ++ pushed)) <-> In t (all_ids parts)) by (split; apply Permutation_in; [exact P|symmetry; exact P]).
    rewrite PI, Cov. destruct (in_dec Nat.eq_dec t (all_ids parts)) as [I|I]; [pose proof (proj1 (Cov t) I); tauto|].
    rewrite Cov in *. tauto.
  - intros p t i Ip It. apply in_app_iff in Ip. destruct Ip as [Ip|Ip]; [auto|].
    unfold last in Ip. destruct (is_empty new); [destruct Ip|]. destruct Ip as [<-|[]]. cbn [fst snd] in *.
    apply In' in It. destruct It as [It Nt]. apply Ii in It. rewrite wants_app, wants_uncovered by (rewrite Cov in Nt; tauto).
    unfold wants. cbn [existsb fst snd]. rewrite (proj2 (mem_spec t types)) by tauto. rewrite N.lor_spec.
    destruct (N.testbit fields i), (N.testbit sup i); reflexivity.
Qed.

Lemma split_all output sup : type_set output -> forall conds done parts, Forall (fun c => type_set (fst c)) conds ->
  inv output sup done parts ->
  exists raw, split_into_partitions output conds sup parts = Some raw /\ inv output sup (done ++ conds) raw.
Proof.
  intros To. induction conds as [|[types fields] conds IH]; intros done parts Tc I; cbn [split_into_partitions].
  - exists parts. rewrite app_nil_r. auto.
  - inversion Tc as [|? ? T1 T2]; subst. cbn [fst] in T1.
    destruct (split_step output sup done parts types fields To T1 I) as (parts' & pushed & new & -> & I').
    destruct (IH _ _ T2 I') as (raw & -> & I2). exists raw. split; [reflexivity|]. rewrite <- app_assoc in I2. exact I2.
Qed.
Lemma inv_start output sup : inv output sup [] [].
Proof.
  split; [constructor|]. split; [constructor|]. split.
  - intros t. simpl. split; [tauto|]. intros [_ (c & [] & _)].
  - intros p t i [].
Qed.

(** ** A list of partitions without fallback that covers what the conditions cover *)
Definition pids (p : partition) : list nat := match p with One id _ => [id] | Many ids _ => ids | Remaining _ => [] end.
Definition pfields (p : partition) : N := match p with One _ f | Many _ f | Remaining f => f end.
Definition is_remaining (p : partition) : bool := match p with Remaining _ => true | _ => false end.
Definition good (output : list nat) (sup : N) (conds : list part) (ps : list partition) : Prop :=
  Forall (fun p => is_remaining p = false) ps /\ NoDup (flat_map pids ps) /\
  (forall t, In t (flat_map pids ps) <-> In t output /\ covered conds t) /\
  (forall p t i, In p ps -> In t (pids p) -> N.testbit (pfields p) i = N.testbit sup i || wants conds t i).

Lemma to_partition_ids p : flat_map pids (to_partition p) = fst p.
Proof. destruct p as [[|x [|y l]] f]; simpl; rewrite ?app_nil_r; reflexivity. Qed.
Lemma to_partition_in p q : In q (to_partition p) -> pids q = fst p /\ pfields q = snd p /\ is_remaining q = false.
Proof. destruct p as [[|x [|y l]] f]; simpl; intros H; [destruct H|destruct H as [<-|[]]..]; auto. Qed.
Lemma raw_good output sup conds raw : inv output sup conds raw -> good output sup conds (flat_map to_partition raw).
Proof.
  intros (OK & ND & Cov & Bits).
  assert (E : flat_map pids (flat_map to_partition raw) = all_ids raw).
  { clear. induction raw as [|p raw IH]; [reflexivity|]. cbn [flat_map all_ids]. rewrite flat_map_app, IH, to_partition_ids. reflexivity. }
  split; [|split; [|split]].
  - apply Forall_forall. intros q I. apply in_flat_map in I. destruct I as (p & _ & I). apply to_partition_in in I. tauto.
  - rewrite E. exact ND.
  - rewrite E. exact Cov.
  - intros q t i I It. apply in_flat_map in I. destruct I as (p & Ip & I). apply to_partition_in in I.
    destruct I as (E1 & E2 & _). rewrite E1 in It. rewrite E2. apply Bits; auto.
Qed.

(** *** Single types *)
Definition single (c : part) : Prop := List.length (fst c) = 1.
Definition key (c : part) : nat := hd 0 (fst c).
Lemma insert_perm c l : Permutation (insert c l) (c :: l).
Proof.
  induction l as [|d l IH]; cbn [insert]; [reflexivity|]. destruct (_ <=? _); [reflexivity|].
  rewrite IH. apply perm_swap.
Qed.
Lemma sort_perm l : Permutation (sort_by_id l) l.
Proof. induction l as [|c l IH]; cbn [sort_by_id]; [reflexivity|]. rewrite insert_perm, IH. reflexivity. Qed.
Definition by_key (l : list part) : Prop := StronglySorted (fun a b => key a <= key b) l.
Lemma insert_sorted c l : by_key l -> by_key (insert c l).
Proof.
  unfold by_key. induction l as [|d l IH]; cbn [insert]; intros H; [repeat constructor|].
  inversion H as [|? ? H1 H2]; subst. fold (key c) (key d).
  destruct (Nat.leb_spec (key c) (key d)).
  - constructor; [exact H|]. constructor; [exact H0|]. rewrite Forall_forall in *. intros x I. specialize (H2 x I). lia.
  - constructor; [auto|]. apply Forall_forall. intros x I. eapply Permutation_in in I; [|apply insert_perm].
    rewrite Forall_forall in H2. destruct I as [<-|I]; [lia|auto].
Qed.
Lemma sort_sorted l : by_key (sort_by_id l).
Proof. induction l; cbn [sort_by_id]; [constructor|apply insert_sorted; assumption]. Qed.

Lemma single_in c t : single c -> (In t (fst c) <-> t = key c).
Proof. unfold single, key. destruct (fst c) as [|x [|y l]]; simpl; intros H; try discriminate. intuition. Qed.
Lemma single_mem c t : single c -> mem t (fst c) = (t =? key c).
Proof. intros S. apply bool_iff. rewrite mem_spec, Nat.eqb_eq. apply single_in, S. Qed.

(** Chunks of a sorted list, [id]/[f] being the chunk under construction. *)
Lemma chunk_spec sup : forall l id f, Forall single l -> by_key l -> (forall c, In c l -> id <= key c) ->
  let ps := chunk_ids sup (Some (id, f)) l in
  Forall (fun p => is_remaining p = false) ps /\
  type_set (flat_map pids ps) /\
  (forall t, In t (flat_map pids ps) <-> t = id \/ covered l t) /\
  (forall p t i, In p ps -> In t (pids p) ->
     N.testbit (pfields p) i = (if t =? id then N.testbit f i else N.testbit sup i) || wants l t i).
Proof.
  induction l as [|[ids g] l IH]; intros id f S B Le; cbv zeta; cbn [chunk_ids].
  - split; [repeat constructor|]. split; [apply ts_cons; split; [constructor|intros ? []]|]. split.
    + intros t. simpl. split; [intuition|]. intros [->|(c & [] & _)]; auto.
    + intros p t i [<-|[]]. simpl. intros [<-|[]]. rewrite Nat.eqb_refl, orb_false_r. reflexivity.
  - inversion S as [|? ? S1 S2]; subst. inversion B as [|? ? B1 B2]; subst.
    change (hd 0 ids) with (key (ids, g)). set (k := key (ids, g)) in *.
    assert (W : forall t i, wants ((ids, g) :: l) t i = ((t =? k) && N.testbit g i) || wants l t i).
    { intros t i. unfold wants. cbn [existsb]. rewrite single_mem by exact S1. reflexivity. }
    assert (C : forall t, covered ((ids, g) :: l) t <-> t = k \/ covered l t).
    { intros t. change ((ids, g) :: l) with ([(ids, g)] ++ l). rewrite covered_app, covered_one, single_in by exact S1. reflexivity. }
    rewrite Forall_forall in B2.
    destruct (Nat.eqb_spec k id) as [E|E].
    + assert (Le' : forall c, In c l -> id <= key c) by (intros c I; apply Le; right; exact I).
      destruct (IH id (N.lor f g) S2 B1 Le') as (A1 & A2 & A3 & A4). split; [exact A1|]. split; [exact A2|]. split.
      * intros t. rewrite A3, C, E. tauto.
      * intros p t i Ip It. rewrite (A4 p t i Ip It), W, E, N.lor_spec.
        destruct (t =? id); cbn [andb]; [rewrite orb_assoc; reflexivity|reflexivity].
    + assert (Lk : id < k) by (specialize (Le _ (or_introl eq_refl)); fold k in Le; lia).
      assert (Le' : forall c, In c l -> k <= key c) by (intros c I; apply (B2 c I)).
      destruct (IH k (N.lor sup g) S2 B1 Le') as (A1 & A2 & A3 & A4).
      assert (Gt : forall t, In t (flat_map pids (chunk_ids sup (Some (k, N.lor sup g)) l)) -> id < t).
      { intros t I. apply A3 in I. destruct I as [->|(c & Ic & It)]; [exact Lk|].
        rewrite Forall_forall in S2. apply (single_in c t (S2 c Ic)) in It. subst t. specialize (Le' c Ic). lia. }
      split; [constructor; [reflexivity|exact A1]|]. cbn [flat_map pids app]. split; [|split].
      * apply ts_cons. split; [exact A2|]. exact Gt.
      * intros t. cbn [In]. rewrite A3, C. intuition.
      * intros p t i [<-|Ip] It.
        -- cbn [pids pfields] in *. destruct It as [<-|[]]. rewrite Nat.eqb_refl.
           rewrite wants_uncovered; [rewrite orb_false_r; reflexivity|]. rewrite C. intros [?|(c & Ic & It)]; [lia|].
           rewrite Forall_forall in S2. apply (single_in c id (S2 c Ic)) in It. specialize (Le' c Ic). lia.
        -- assert (id < t) by (apply Gt, in_flat_map; exists p; auto).
           rewrite (A4 p t i Ip It), W. destruct (Nat.eqb_spec t id); [lia|]. rewrite N.lor_spec.
           destruct (t =? k); cbn [andb]; [rewrite orb_assoc; reflexivity|reflexivity].
Qed.
Lemma wants_perm a b t i : Permutation a b -> wants a t i = wants b t i.
Proof.
  intros P. apply bool_iff. unfold wants. rewrite !existsb_exists.
  split; intros (c & I & E); exists c; (split; [|exact E]); eapply Permutation_in; try exact I; [exact P|symmetry; exact P].
Qed.
Lemma covered_perm a b t : Permutation a b -> covered a t <-> covered b t.
Proof.
  intros P. unfold covered. split; intros (c & I & E); exists c; (split; [|exact E]); eapply Permutation_in; try exact I; [exact P|symmetry; exact P].
Qed.
Lemma chunk_good output sup conds : Forall single conds -> (forall c t, In c conds -> In t (fst c) -> In t output) ->
  good output sup conds (chunk_ids sup None (sort_by_id conds)).
Proof.
  intros S Sub. pose proof (sort_perm conds) as P. pose proof (sort_sorted conds) as B.
  assert (S' : Forall single (sort_by_id conds)).
  { apply Forall_forall. intros c I. rewrite Forall_forall in S. apply S. eapply Permutation_in; [exact P|exact I]. }
  assert (G : good output sup (sort_by_id conds) (chunk_ids sup None (sort_by_id conds))).
  { assert (Sub' : forall t, covered (sort_by_id conds) t -> In t output).
    { intros t C. apply (covered_perm _ _ t P) in C. destruct C as (c & Ic & It). eapply Sub; eauto. }
    clear Sub P S. destruct (sort_by_id conds) as [|[ids g] l].
    - split; [constructor|]. split; [constructor|]. split; [|intros ? ? ? []]. intros t. simpl. split; [tauto|]. intros [_ (c & [] & _)].
    - cbn [chunk_ids]. inversion S' as [|? ? S1 S2]; subst. inversion B as [|? ? B1 B2]; subst. rewrite Forall_forall in B2.
      change (hd 0 ids) with (key (ids, g)).
      destruct (chunk_spec sup l (key (ids, g)) (N.lor sup g) S2 B1 (fun c I => B2 c I)) as (A1 & A2 & A3 & A4).
      split; [exact A1|]. split; [apply ts_nodup; exact A2|].
      assert (C : forall t, covered ((ids, g) :: l) t <-> t = key (ids, g) \/ covered l t).
      { intros t. change ((ids, g) :: l) with ([(ids, g)] ++ l) at 1. rewrite covered_app, covered_one, single_in by exact S1. reflexivity. }
      split.
      + intros t. rewrite A3, <- C. split; [intros H; split; [apply Sub'; exact H|exact H]|tauto].
      + intros p t i Ip It. rewrite (A4 p t i Ip It). unfold wants at 2. cbn [existsb]. fold (wants l t i).
        rewrite single_mem by exact S1. cbn [snd]. destruct (t =? key (ids, g)); rewrite ?N.lor_spec; cbn [andb]; [rewrite orb_assoc; reflexivity|reflexivity]. }
  destruct G as (G1 & G2 & G3 & G4). split; [exact G1|]. split; [exact G2|]. split.
  - intros t. rewrite G3. rewrite (covered_perm _ _ t P). reflexivity.
  - intros p t i Ip It. rewrite (G4 p t i Ip It), (wants_perm _ _ t i P). reflexivity.
Qed.

(** ** Lookup *)
Lemma find_app_remaining t ps f : find_partition t (ps ++ [Remaining f]) = find_partition t ps.
Proof. induction ps as [|[id g|ids g|g] ps IH]; cbn [app find_partition]; rewrite ?IH; try reflexivity. Qed.
Lemma fallback_app ps f : Forall (fun p => is_remaining p = false) ps -> fallback (ps ++ [Remaining f]) = Some f.
Proof. induction ps as [|p ps IH]; intros H; [reflexivity|]. inversion H; subst. destruct p; try discriminate; cbn [app fallback]; auto. Qed.
Lemma fallback_none ps : Forall (fun p => is_remaining p = false) ps -> fallback ps = None.
Proof. induction ps as [|p ps IH]; intros H; [reflexivity|]. inversion H; subst. destruct p; try discriminate; cbn [fallback]; auto. Qed.
Lemma find_spec t ps : match find_partition t ps with
  | Some f => exists p, In p ps /\ In t (pids p) /\ pfields p = f
  | None => ~ In t (flat_map pids ps) end.
Proof.
  induction ps as [|[id g|ids g|g] ps IH]; cbn [find_partition]; [intros []| | |].
  - destruct (Nat.eqb_spec id t) as [->|N].
    + exists (One t g). simpl. auto.
    + destruct (find_partition t ps); [destruct IH as (p & A & B & C); exists p; simpl; auto|].
      cbn [flat_map pids]. rewrite in_app_iff. simpl. tauto.
  - fold (mem t ids). destruct (mem t ids) eqn:E.
    + apply mem_spec in E. exists (Many ids g). simpl. auto.
    + apply mem_false in E. destruct (find_partition t ps); [destruct IH as (p & A & B & C); exists p; simpl; auto|].
      cbn [flat_map pids]. rewrite in_app_iff. tauto.
  - destruct (find_partition t ps); [destruct IH as (p & A & B & C); exists p; simpl; auto|]. exact IH.
Qed.
Lemma raw_count_ids ps : list_sum (map raw_count ps) = List.length (flat_map pids ps).
Proof. induction ps as [|p ps IH]; [reflexivity|]. cbn [map flat_map list_sum]. rewrite app_length, <- IH. destruct p; reflexivity. Qed.

(** What [partition_object_shapes] promises for every type of the output. *)
Lemma good_expected output sup conds ps n t (hs : bool) : type_set output -> good output sup conds ps -> In t output ->
  (hs = false -> sup = 0%N) ->
  let all := ps ++ (if negb (list_sum (map raw_count ps) =? List.length output) && hs then [Remaining sup] else []) in
  all <> [] ->
  forall i, N.testbit (expected_fields t n all) i = N.testbit sup i || wants conds t i.
Proof.
  intros To (G1 & G2 & G3 & G4) It Hs all Ne i.
  assert (F : find_partition t all = find_partition t ps).
  { unfold all. destruct (_ && hs); [apply find_app_remaining|rewrite app_nil_r; reflexivity]. }
  unfold expected_fields. destruct all as [|a0 all'] eqn:Ea; [congruence|]. rewrite <- Ea in *.
  rewrite F. pose proof (find_spec t ps) as FS. destruct (find_partition t ps) as [f|].
  - destruct FS as (p & A & B & <-). apply G4; auto.
  - rewrite wants_uncovered by (rewrite G3 in FS; tauto). rewrite orb_false_r. unfold all.
    assert (C : (list_sum (map raw_count ps) =? List.length output) = false).
    { apply Nat.eqb_neq. rewrite raw_count_ids. intros E.
      assert (Q : incl output (flat_map pids ps)).
      { apply NoDup_length_incl; [exact G2|lia|]. intros x I. apply G3 in I. tauto. }
      apply FS, Q, It. }
    rewrite C. cbn [negb andb]. destruct hs.
    + rewrite fallback_app by exact G1. reflexivity.
    + rewrite app_nil_r, fallback_none by exact G1. rewrite Hs by reflexivity. reflexivity.
Qed.

Lemma fold_lor_spec : forall l a i, N.testbit (fold_left N.lor l a) i = N.testbit a i || existsb (fun f => N.testbit f i) l.
Proof. induction l as [|x l IH]; intros a i; cbn [fold_left existsb]; [rewrite orb_false_r; reflexivity|]. rewrite IH, N.lor_spec, orb_assoc. reflexivity. Qed.
Lemma partition_perm {A} (f : A -> bool) : forall l a b, List.partition f l = (a, b) ->
  Permutation l (a ++ b) /\ Forall (fun x => f x = true) a /\ Forall (fun x => f x = false) b.
Proof.
  induction l as [|x l IH]; intros a b E; cbn [List.partition] in E.
  - injection E as <- <-. repeat constructor.
  - destruct (List.partition f l) as [a' b'] eqn:El. destruct (IH _ _ eq_refl) as (P & Fa & Fb).
    destruct (f x) eqn:Ex; injection E as <- <-.
    + split; [cbn [app]; constructor; exact P|]. auto.
    + split; [|auto]. rewrite P. apply Permutation_middle.
Qed.

Lemma partition_object_shapes_spec output conds : type_set output -> Forall (fun c => type_set (fst c)) conds ->
  (forall c t, In c conds -> In t (fst c) -> In t output) ->
  exists ps, partition_object_shapes output conds = Some ps /\ NoDup (flat_map pids ps) /\
  ((ps = [] /\ (List.length output = 1 \/ (forall c, In c conds -> forall t, In t output -> In t (fst c)) \/
                forall t, In t output -> ~ covered conds t)) \/
   (ps <> [] /\ forall t n i, In t output -> N.testbit (expected_fields t n ps) i = wants conds t i)).
Proof.
  intros To Tc Sub. unfold partition_object_shapes.
  destruct (Nat.eqb_spec (List.length output) 1) as [L|L].
  { exists []. split; [reflexivity|]. split; [constructor|]. left. auto. }
  destruct (List.partition (fun c => is_superset (fst c) output) conds) as [supersets conds'] eqn:Ep.
  destruct (partition_perm _ _ _ _ Ep) as (P & Fs & Fc).
  rewrite Forall_forall in Fs, Fc, Tc.
  assert (Is : forall c, In c supersets -> In c conds).
  { intros c I. eapply Permutation_in; [symmetry; exact P|]. apply in_or_app. auto. }
  assert (Ic : forall c, In c conds' -> In c conds).
  { intros c I. eapply Permutation_in; [symmetry; exact P|]. apply in_or_app. auto. }
  assert (Sup : forall c, In c supersets -> forall t, In t output -> In t (fst c)).
  { intros c I. apply (is_superset_spec (fst c) output To (Tc c (Is c I))). apply Fs. exact I. }
  destruct (is_empty conds') eqn:Ee.
  { destruct conds'; [|discriminate]. exists []. split; [reflexivity|]. split; [constructor|]. left. split; [reflexivity|].
    right. left. intros c I. apply Sup. eapply Permutation_in in I; [|exact P]. rewrite app_nil_r in I. exact I. }
  cbv zeta. set (sup := fold_left N.lor (map snd supersets) 0%N).
  match goal with |- exists ps, match ?x with Some _ => _ | None => _ end = _ /\ _ => set (base := x) end.
  assert (B : exists ps, base = Some ps /\ good output sup conds' ps).
  { unfold base. destruct (forallb (fun c => List.length (fst c) =? 1) conds') eqn:Ef.
    - eexists. split; [reflexivity|]. apply chunk_good.
      + apply Forall_forall. intros c I. rewrite forallb_forall in Ef. apply Nat.eqb_eq, Ef, I.
      + intros c t I. apply Sub, Ic, I.
    - destruct (split_all output sup To conds' [] []) as (raw & -> & I); [|apply inv_start|].
      + apply Forall_forall. intros c I. apply Tc, Ic, I.
      + eexists. split; [reflexivity|]. apply raw_good. exact I. }
  destruct B as (ps & -> & G).
  set (hs := negb (is_empty supersets)).
  set (all := ps ++ (if negb (list_sum (map raw_count ps) =? List.length output) && hs then [Remaining sup] else [])).
  exists all. split; [reflexivity|].
  split. { unfold all. rewrite flat_map_app. destruct (_ && hs); cbn [flat_map pids]; rewrite app_nil_r; apply G. }
  assert (Hs : hs = false -> sup = 0%N).
  { unfold hs, sup. destruct supersets; [reflexivity|discriminate]. }
  assert (D : all = [] \/ all <> []) by (destruct all; [left; reflexivity|right; discriminate]).
  destruct D as [D|D]; [left|right]; (split; [exact D|]).
  - right. right. intros t It C. unfold all in D. apply app_eq_nil in D. destruct D as [-> D].
    cbn [map list_sum fold_right] in D. change (list_sum []) with 0 in D.
    destruct (Nat.eqb_spec 0 (List.length output)) as [E0|E0].
    { destruct output; [destruct It|discriminate]. }
    cbn [negb andb] in D. unfold hs in D. destruct supersets; [|discriminate].
    destruct G as (_ & _ & G3 & _). apply (covered_perm _ _ t P) in C. cbn [app] in C.
    apply (proj2 (G3 t)). auto.
  - intros t n i It. transitivity (N.testbit sup i || wants conds' t i); [exact (good_expected output sup conds' ps n t hs To G It Hs D i)|].
    rewrite (wants_perm _ _ t i P), wants_app. f_equal.
    unfold sup. rewrite fold_lor_spec, N.bits_0. cbn [orb]. unfold wants.
    clear - Sup It. induction supersets as [|c l IH]; [reflexivity|]. cbn [map existsb].
    rewrite IH by (intros c' I; apply Sup; right; exact I).
    rewrite (proj2 (mem_spec t (fst c))) by (apply (Sup c); [left; reflexivity|exact It]). reflexivity.
Qed.

(** ** From fields to conditions *)
Lemma conds_eqb_spec a b : conds_eqb a b = true <-> a = b.
Proof. unfold conds_eqb. destruct (list_eq_dec Nat.eq_dec a b); intuition; discriminate. Qed.
Lemma setbit_spec f j i : N.testbit (N.setbit f (N.of_nat j)) i = (N.of_nat j =? i)%N || N.testbit f i.
Proof. apply N.setbit_eqb. Qed.
Lemma chunk_conds_spec (g : list nat -> bool) i : forall l cur,
  existsb (fun c => g (fst c) && N.testbit (snd c) i) (chunk_conds cur l) =
  match cur with Some (cs, bits) => g cs && N.testbit bits i | None => false end
  || existsb (fun e => g (fst e) && (N.of_nat (snd e) =? i)%N) l.
Proof.
  induction l as [|[cs j] l IH]; intros cur; cbn [chunk_conds].
  - destruct cur as [[cs0 bits]|]; cbn [existsb fst snd]; rewrite ?orb_false_r; reflexivity.
  - destruct cur as [[cs0 bits]|].
    + destruct (conds_eqb cs cs0) eqn:E.
      * apply conds_eqb_spec in E. subst cs0. rewrite IH, setbit_spec. cbn [existsb fst snd].
        destruct (g cs), (N.testbit bits i), (N.of_nat j =? i)%N; reflexivity.
      * cbn [existsb fst snd]. rewrite IH, setbit_spec, N.bits_0, orb_false_r. reflexivity.
    + rewrite IH, setbit_spec, N.bits_0, orb_false_r. reflexivity.
Qed.
Lemma existsb_perm {A} (f : A -> bool) a b : Permutation a b -> existsb f a = existsb f b.
Proof.
  intros P. apply bool_iff. rewrite !existsb_exists.
  split; intros (c & I & E); exists c; (split; [|exact E]); eapply Permutation_in; try exact I; [exact P|symmetry; exact P].
Qed.
Lemma indexed_spec (g : list nat -> bool) i : forall fields k,
  existsb (fun e => g (fst e) && (N.of_nat (snd e) =? i)%N) (combine fields (seq k (List.length fields))) = true
  <-> exists conds m, nth_error fields m = Some conds /\ i = N.of_nat (k + m) /\ g conds = true.
Proof.
  induction fields as [|f fields IH]; intros k; cbn [List.length seq combine existsb fst snd].
  - split; [discriminate|]. intros (c & m & H & _). destruct m; discriminate.
  - rewrite orb_true_iff, IH, andb_true_iff, N.eqb_eq. split.
    + intros [[G E]|(c & m & H & E & G)].
      * exists f, 0. rewrite Nat.add_0_r. auto.
      * exists c, (S m). rewrite Nat.add_succ_r. auto.
    + intros (c & [|m] & H & E & G).
      * left. injection H as ->. rewrite Nat.add_0_r in E. auto.
      * right. exists c, m. rewrite Nat.add_succ_r in E. auto.
Qed.

Section Main.
Variable possible : nat -> list nat.
Variable sort : list (list nat * nat) -> list (list nat * nat).
Hypothesis sort_ok : forall l, Permutation l (sort l).
Variable output : list nat.
Hypothesis To : type_set output.
Hypothesis Tp : forall c, type_set (possible c).

Definition chunks (fields : list (list nat)) := chunk_conds None (sort (combine fields (seq 0 (List.length fields)))).
Definition cpt (cs : list nat) : list nat := compute_possible_types output (map possible cs).
Definition cconds (fields : list (list nat)) : list part := map (fun c => (cpt (fst c), snd c)) (chunks fields).

Lemma cpt_spec cs : type_set (cpt cs) /\ forall t, In t (cpt cs) <-> In t output /\ applies possible t cs.
Proof.
  unfold cpt. destruct (possible_types_spec output (map possible cs) To) as [A B].
  - apply Forall_forall. intros c I. apply in_map_iff in I. destruct I as (x & <- & _). apply Tp.
  - split; [exact A|]. intros t. rewrite B. unfold applies. split; intros [I H]; (split; [exact I|]).
    + intros c Ic. apply H, in_map, Ic.
    + intros c Ic. apply in_map_iff in Ic. destruct Ic as (x & <- & Ix). auto.
Qed.
Lemma chunks_exists g fields i : existsb (fun c => g (fst c) && N.testbit (snd c) i) (chunks fields) = true
  <-> exists conds m, nth_error fields m = Some conds /\ i = N.of_nat m /\ g conds = true.
Proof.
  unfold chunks. rewrite chunk_conds_spec. cbn [orb]. rewrite <- (existsb_perm _ _ _ (sort_ok _)).
  rewrite indexed_spec. reflexivity.
Qed.
Lemma wants_fields fields t i : In t output ->
  (wants (cconds fields) t i = true <-> exists conds m, nth_error fields m = Some conds /\ i = N.of_nat m /\ applies possible t conds).
Proof.
  intros It.
  assert (E : wants (cconds fields) t i = existsb (fun c => (fun cs => mem t (cpt cs)) (fst c) && N.testbit (snd c) i) (chunks fields)).
  { unfold wants, cconds. induction (chunks fields) as [|c l IH]; [reflexivity|]. cbn [map existsb fst snd]. rewrite IH. reflexivity. }
  rewrite E, (chunks_exists (fun cs => mem t (cpt cs))). split; intros (c & m & A & B & C); exists c, m; (split; [exact A|split; [exact B|]]).
  - apply mem_spec, cpt_spec in C. apply C.
  - apply mem_spec, cpt_spec. auto.
Qed.
(** Every field's list of conditions is one of the chunks. *)
Lemma chunks_all fields conds : In conds fields -> exists bits, In (conds, bits) (chunks fields).
Proof.
  intros I. apply In_nth_error in I. destruct I as [m E].
  assert (X : existsb (fun c => (fun cs => conds_eqb cs conds) (fst c) && N.testbit (snd c) (N.of_nat m)) (chunks fields) = true).
  { apply (chunks_exists (fun cs => conds_eqb cs conds)). exists conds, m. rewrite conds_eqb_spec. auto. }
  apply existsb_exists in X. destruct X as ([cs bits] & Ic & X). apply andb_true_iff in X. destruct X as [X _].
  apply conds_eqb_spec in X. cbn [fst] in X. subst. exists bits. exact Ic.
Qed.
Lemma ones_spec n i : N.testbit (N.ones (N.of_nat n)) i = true <-> exists m, i = N.of_nat m /\ m < n.
Proof.
  split.
  - intros H. destruct (N.lt_ge_cases i (N.of_nat n)) as [L|L].
    + exists (N.to_nat i). lia.
    + rewrite N.ones_spec_high in H by exact L. discriminate.
  - intros (m & -> & L). apply N.ones_spec_low. lia.
Qed.

Lemma shapes_spec fields : each_condition_meets possible output fields ->
  exists ps, compute_object_shape_partitions possible sort output fields = Some ps /\ NoDup (flat_map pids ps) /\
  ((ps = [] /\ forall t conds, In t output -> In conds fields -> ~ applies possible t conds) \/
   (forall t i, In t output -> N.testbit (expected_fields t (List.length fields) ps) i = true <->
      exists conds m, nth_error fields m = Some conds /\ i = N.of_nat m /\ applies possible t conds)).
Proof.
  intros Meets.
  destruct (partition_object_shapes_spec output (cconds fields) To) as (ps & E & ND & H).
  - apply Forall_forall. intros c I. unfold cconds in I. apply in_map_iff in I. destruct I as (x & <- & _). apply cpt_spec.
  - intros c t I It. unfold cconds in I. apply in_map_iff in I. destruct I as (x & <- & _). apply cpt_spec in It. apply It.
  - exists ps. split; [exact E|]. split; [exact ND|].
    assert (All : ps = [] -> (forall t conds, In t output -> In conds fields -> applies possible t conds) ->
      forall t i, In t output -> N.testbit (expected_fields t (List.length fields) ps) i = true <->
      exists conds m, nth_error fields m = Some conds /\ i = N.of_nat m /\ applies possible t conds).
    { intros -> A t i It. cbn [expected_fields]. rewrite ones_spec. split.
      - intros (m & -> & L). destruct (nth_error fields m) as [c|] eqn:En; [|apply nth_error_None in En; lia].
        exists c, m. split; [exact En|]. split; [reflexivity|]. apply A; [exact It|]. eapply nth_error_In; exact En.
      - intros (c & m & En & -> & _). exists m. split; [reflexivity|]. apply nth_error_Some. congruence. }
    destruct H as [[-> [L|[A|N]]]|[Ne H]].
    + right. apply All; [reflexivity|]. intros t conds It Ic c Ix.
      destruct (Meets conds c Ic Ix) as (ty & I1 & I2). destruct output as [|o [|]]; try discriminate.
      destruct It as [<-|[]], I1 as [<-|[]]. exact I2.
    + right. apply All; [reflexivity|]. intros t conds It Ic.
      destruct (chunks_all fields conds Ic) as [bits Ib].
      apply (cpt_spec conds). apply (A (cpt conds, bits)); [|exact It].
      unfold cconds. apply in_map_iff. exists (conds, bits). auto.
    + left. split; [reflexivity|]. intros t conds It Ic Ap. apply (N t It).
      destruct (chunks_all fields conds Ic) as [bits Ib]. exists (cpt conds, bits). split.
      * unfold cconds. apply in_map_iff. exists (conds, bits). auto.
      * apply cpt_spec. auto.
    + right. intros t i It. rewrite H by exact It. apply wants_fields. exact It.
Qed.
End Main.

(** ** Type set checks *)
Lemma has_inter_spec xs ys : type_set xs -> type_set ys ->
  has_non_empty_intersection xs ys = true <-> exists t, In t xs /\ In t ys.
Proof.
  intros Tx Ty. destruct (inter_spec xs ys Tx Ty) as [_ I].
  assert (E : has_non_empty_intersection xs ys = negb (is_empty (inter xs ys))).
  { clear. revert ys. induction xs as [|x xs IHx]; intros ys; [destruct ys; reflexivity|].
    induction ys as [|y ys IHy]; [reflexivity|].
    change (has_non_empty_intersection (x :: xs) (y :: ys)) with (match Nat.compare x y with Lt => has_non_empty_intersection xs (y :: ys) | Eq => true | Gt => has_non_empty_intersection (x :: xs) ys end).
    change (inter (x :: xs) (y :: ys)) with (match Nat.compare x y with Lt => inter xs (y :: ys) | Gt => inter (x :: xs) ys | Eq => x :: inter xs ys end).
    destruct (Nat.compare x y); auto. }
  rewrite E. split.
  - intros H. destruct (inter xs ys) as [|t l] eqn:El; [discriminate|]. exists t. apply I. left. reflexivity.
  - intros (t & H). apply I in H. destruct (inter xs ys); [destruct H|reflexivity].
Qed.
Lemma subset_true_if xs ys : type_set xs -> type_set ys -> (forall t, In t xs -> In t ys) -> is_subset_of xs ys = true.
Proof.
  intros Tx Ty Sub. unfold is_subset_of. pose proof (NoDup_incl_length (ts_nodup _ Tx) Sub) as L.
  destruct (Nat.ltb_spec (List.length ys) (List.length xs)); [lia|]. clear L H.
  revert ys Ty Sub. induction xs as [|x xs IHx]; intros ys Ty Sub; [destruct ys; reflexivity|].
  induction ys as [|y ys IHy]; [reflexivity|].
  change (subset_loop (x :: xs) (y :: ys)) with (match Nat.compare x y with Lt => false | Eq => subset_loop xs (y :: ys) | Gt => subset_loop (x :: xs) ys end).
  pose proof Tx as Tx'. pose proof Ty as Ty'. apply ts_cons in Tx', Ty'. destruct Tx' as [Tx' Lx], Ty' as [Ty' Ly].
  destruct (Nat.compare_spec x y) as [->|L|L].
  - apply IHx; auto. intros t I. apply Sub. right. exact I.
  - exfalso. destruct (Sub x (or_introl eq_refl)) as [->|I]; [lia|]. specialize (Ly x I). lia.
  - apply IHy; [exact Ty'|]. intros t I. destruct (Sub t I) as [<-|J]; [|exact J].
    destruct I as [<-|I]; [lia|]. specialize (Lx y I). lia.
Qed.
