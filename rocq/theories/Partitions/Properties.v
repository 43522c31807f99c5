(** Theorems about the splitting of partitions (C78). *)
From Coq Require Import List Arith Bool Permutation Lia.
From Verif Require Import SchemaDiff.Search Mutation.Model Partitions.Model Partitions.Spec Partitions.Proofs Partitions.Run.
Import ListNotations.

(** The loop ends, however the fields are sorted. *)
Theorem C78_ends : forall arrange depth g start, sorts arrange -> well_formed depth g ->
  (forall r, In r start -> r < length (g_nodes g)) ->
  exists fuel g', forall k, run arrange (fuel + k) start g = Some g'.
Proof.
  intros arrange depth g start A WF B. destruct (run_total arrange A depth g start WF B) as (fuel & g' & R).
  exists fuel, g'. intros k. apply run_mono. exact R.
Qed.

(** No field is lost, sent twice, or moved to another parent or resolver; requirements stay. *)
Theorem C78_kept : forall arrange depth g start fuel g', sorts arrange -> well_formed depth g ->
  run arrange fuel start g = Some g' -> kept g g' /\ exists depth', well_formed depth' g'.
Proof.
  intros arrange depth g start fuel g' A WF R. destruct (run_facts arrange A _ _ _ _ _ WF R) as (d & _ & _ & W & K & _).
  split; [exact K | exists d; exact W].
Qed.

(** Of two fields in one partition neither needs the other, not even through others. *)
Theorem C78_separated : forall arrange depth g start fuel g' r v, sorts arrange -> well_formed depth g ->
  run arrange fuel start g = Some g' -> In r start -> under g r v -> separated g' v.
Proof. intros arrange depth g start fuel g' r v A WF R I U. exact (run_separated arrange A _ _ _ _ _ WF R _ _ I U). Qed.

(** Requests are split only where they have to be. *)
Theorem C78_unchanged : forall arrange depth g start fuel g', sorts arrange -> well_formed depth g ->
  run arrange fuel start g = Some g' -> (forall r, ~ to_split g r) ->
  length (g_nodes g') = length (g_nodes g) /\
  ((forall r p q res, has g r p WPartition -> has g r q WPartition -> resolver_of g p res -> resolver_of g q res -> p = q) ->
   forall r p f, has g r p WPartition -> has g p f WField -> has g' p f WField).
Proof.
  intros arrange depth g start fuel g' A WF R N. destruct (C78_kept _ _ _ _ _ _ A WF R) as [K (d' & WF')].
  assert (length (g_nodes g') = length (g_nodes g)) as E.
  { destruct (k_nodes _ _ K) as [B _]. destruct (Nat.eq_dec (length (g_nodes g')) (length (g_nodes g))) as [E | Ne]; [exact E|].
    destruct (k_due _ _ K) as (r & T); [lia|]. destruct (N r T). }
  split; [exact E|]. intros Q r p f P F. destruct (k_fields _ _ K _ _ _ P F) as (p' & P' & F' & p0 & res & Rp & R0 & C).
  assert (has g r p' WPartition) as H.
  { destruct (wf_bounds _ _ WF _ _ _ P) as [B _]. destruct (wf_bounds _ _ WF' _ _ _ P') as [_ B']. rewrite E in B'.
    apply (k_edges _ _ K); [exact B | exact B' | intros [_ ?]; discriminate | exact P']. }
  assert (p = p0) as <- by exact (Q _ _ _ _ P (proj1 C) Rp R0).
  replace p with p'; [exact F'|]. symmetry. apply (Q r p p' res P H Rp). destruct Rp as (e & Rp). exists e.
  destruct (wf_bounds _ _ WF _ _ _ H) as [_ B']. rewrite <- (proj2 (k_nodes _ _ K) p' B').
  destruct C as (_ & -> & _). exact Rp.
Qed.

(** What is left: a ring of partitions waiting for each other has a place where it enters a partition by a
    field and leaves it by another that has nothing to do with it. *)
Theorem C78_rings : forall arrange depth g start fuel g' l, sorts arrange -> well_formed depth g ->
  run arrange fuel start g = Some g' -> (forall n, ~ needs g n n) -> ring g' l ->
  (forall p enter leave, In (p, enter, leave) l -> exists r v, In r start /\ under g r v /\ has g' v p WPartition) ->
  exists p enter leave, In (p, enter, leave) l /\ enter <> leave /\ ~ needs g' enter leave /\ ~ needs g' leave enter.
Proof.
  intros arrange depth g start fuel g' l A WF R N (a & C) V.
  destruct (C78_kept _ _ _ _ _ _ A WF R) as [K (d' & WF')].
  destruct (all_equal_or_not l) as [E | (p & enter & leave & I & Ne)].
  - exfalso. assert (Q := chain_needs _ _ _ _ C E). destruct (chain_start _ _ _ _ C) as (p & leave & l' & L).
    assert (In (p, a, leave) l) as I by (rewrite L; left; reflexivity).
    destruct (V _ _ _ I) as (r & v & _ & _ & P). destruct (chain_fields _ _ _ _ C _ _ _ I) as [F _].
    destruct (k_no_more _ _ K _ _ _ P F) as (p0 & res & _ & F0 & _).
    apply (N a). apply (k_needs _ _ K); [exact (proj2 (wf_bounds _ _ WF _ _ _ F0)) | exact Q].
  - exists p, enter, leave. split; [exact I|]. split; [exact Ne|]. destruct (V _ _ _ I) as (r & v & Ir & U & P).
    destruct (chain_fields _ _ _ _ C _ _ _ I) as [F1 F2].
    assert (S := C78_separated _ _ _ _ _ _ _ _ A WF R Ir U). split; [exact (S p enter leave P F1 F2 Ne)|].
    apply (S p leave enter P F2 F1). congruence.
Qed.

(** * Typenames of the root *)
Definition typename_field (g : graph) (r f : nat) : Prop := has g r f WField /\ exists pos, node_at g f = NField pos true.

Lemma typename_fields_in : forall g r f, In f (typename_fields g r) <-> typename_field g r f.
Proof.
  intros. unfold typename_fields. rewrite in_flat_map. split.
  - intros ([s d w] & I & H). apply edges_in in I. destruct I as [I E]. cbn in *. subst s.
    destruct w; try solve [destruct H]. destruct (node_at g d) as [| | pos []] eqn:Nd; try solve [destruct H].
    destruct H as [<- | []]. split; [exact I | exists pos; exact Nd].
  - intros [H (pos & Nd)]. eexists. split; [apply edges_in; split; [exact H | reflexivity]|]. cbn. rewrite Nd. left. reflexivity.
Qed.

Lemma typename_fields_NoDup : forall g r, NoDup (tree_targets g) -> NoDup (typename_fields g r).
Proof.
  intros g r D.
  replace (typename_fields g r) with (map e_dst (filter (fun e => (e_src e =? r) &&
    match e_weight e with WField => match node_at g (e_dst e) with NField _ true => true | _ => false end | _ => false end) (g_edges g))).
  - apply NoDup_sub; [|exact D]. intros e E. apply andb_true_iff in E. destruct E as [_ E]. unfold tree_edge. destruct (e_weight e); auto; discriminate.
  - unfold typename_fields, edges. rewrite <- filter_filter. induction (filter (fun e => e_src e =? r) (g_edges g)) as [|x l IH]; [reflexivity|].
    cbn [flat_map filter]. destruct (e_weight x); try exact IH. destruct (node_at g (e_dst x)) as [| | pos []]; try exact IH.
    cbn [map app]. rewrite IH. reflexivity.
Qed.

Lemma assign_loop : forall p r l h, p <> r -> NoDup l -> NoDup (tree_targets h) ->
  (forall e, In e (g_edges h) -> e_src e = r -> tree_edge e = true) -> (forall f, In f l -> has h r f WField) ->
  let h' := fold_left (fun g ix => add_edge p ix WField (remove r ix g)) l h in
  (forall s d w, has h' s d w <-> (has h s d w /\ ~ (s = r /\ In d l)) \/ (s = p /\ w = WField /\ In d l)) /\ g_nodes h' = g_nodes h.
Proof.
  intros p r l. induction l as [|x l IH]; intros h Ne N D T A; cbn [fold_left]; cbv zeta.
  - split; [|reflexivity]. intros s d w. split; [intros H; left; split; [exact H | intros [_ Q]; destruct Q]|]. intros [[H _] | (_ & _ & Q)]; [exact H | destruct Q].
  - inversion N as [|y m Nx Nl]; subst. destruct (remove_spec h r x D) as (R & D' & En & Ic); [intros e I E _; apply T; assumption|].
    destruct (IH (add_edge p x WField (remove r x h)) Ne Nl) as (Hs & Hn).
    + unfold tree_targets, add_edge. cbn [g_edges filter tree_edge e_weight map e_dst]. constructor; [|exact D'].
      intros I. fold (tree_targets (remove r x h)) in I. apply tree_targets_in in I. destruct I as (e & I & Te & E). apply has_edge in I. apply R in I.
      destruct I as [I Q]. assert (U := tree_unique h D _ _ I (A x (or_introl eq_refl)) Te eq_refl E).
      destruct e as [s d w]. cbn in *. injection U as -> -> ->. apply Q. auto.
    + intros e I E. destruct I as [<- | I]; [cbn in E; congruence|]. apply T; [|exact E]. apply has_edge in I. apply R in I. apply has_edge. tauto.
    + intros f F. apply add_edge_has. right. apply R. split; [apply A; right; exact F|]. intros [_ ->]. contradiction.
    + split; [|rewrite Hn; exact En]. intros s d w. rewrite Hs, add_edge_has, R. cbn [In]. split.
      * intros [[[(-> & -> & ->) | [H Q]] K] | (-> & -> & I)]; [right; auto | left | right; auto].
        split; [exact H|]. intros [-> [<- | I]]; [apply Q; auto | apply K; auto].
      * intros [[H K] | (-> & -> & [<- | I])]; [left; split; [right; split; [exact H|] |]| left; split; [left; auto|] | right; auto].
        { intros [-> ->]. apply K. auto. }
        { intros [-> I]. apply K. auto. }
        { intros [-> _]. congruence. }
Qed.

Lemma earlier_lt : forall a b, earlier a b = true <-> exists x, a = Some x /\ forall y, b = Some y -> x < y.
Proof.
  intros [a|] [b|]; cbn; split; try discriminate.
  - intros H. apply Nat.ltb_lt in H. exists a. split; [reflexivity | intros y E; injection E as <-; exact H].
  - intros (x & E & H). injection E as <-. apply Nat.ltb_lt, H. reflexivity.
  - intros _. exists a. split; [reflexivity | discriminate].
  - reflexivity.
  - intros (x & E & _). discriminate.
  - intros (x & E & _). discriminate.
Qed.

(** The position of [p] is at most that of each of its neighbours. *)
Lemma first_position_gen : forall g l m n pos, In n l -> position_of g n = Some pos ->
  exists q, fold_left (fun m n => if earlier (position_of g n) m then position_of g n else m) l m = Some q /\ q <= pos.
Proof.
  intros g l.
  assert (Down : forall l m q, m = Some q -> exists q', fold_left (fun m n => if earlier (position_of g n) m then position_of g n else m) l m = Some q' /\ q' <= q).
  { intros l0. induction l0 as [|x l0 IH]; intros m q ->; cbn [fold_left]; [exists q; auto|].
    destruct (earlier (position_of g x) (Some q)) eqn:E; [|apply IH; reflexivity].
    apply earlier_lt in E. destruct E as (z & Ez & L). specialize (L q eq_refl). destruct (IH (position_of g x) z Ez) as (q' & Q & B). exists q'. split; [exact Q | lia]. }
  induction l as [|x l IH]; intros m n pos I P; [destruct I | destruct I as [-> | I]]; cbn [fold_left].
  - destruct (earlier (position_of g n) m) eqn:E; [apply Down; exact P|]. destruct m as [q|]; [|rewrite P in E; discriminate].
    rewrite P in E. cbn in E. apply Nat.ltb_ge in E. destruct (Down l (Some q) q eq_refl) as (q' & Q & B). exists q'. split; [exact Q | lia].
  - eapply IH; eassumption.
Qed.
Lemma first_position_some : forall g l m q, fold_left (fun m n => if earlier (position_of g n) m then position_of g n else m) l m = Some q ->
  m = Some q \/ exists n, In n l /\ position_of g n = Some q.
Proof.
  intros g l. induction l as [|x l IH]; intros m q H; cbn [fold_left] in H; [auto|]. destruct (IH _ _ H) as [E | (n & I & P)].
  - destruct (earlier (position_of g x) m); [right; exists x; split; [left; reflexivity | exact E] | left; exact E].
  - right. exists n. split; [right; exact I | exact P].
Qed.
Lemma min_partition_spec : forall g l best, let p := min_partition g best l in
  (p = best \/ In p l) /\ forall q, q = best \/ In q l -> forall y, first_position g q = Some y -> exists x, first_position g p = Some x /\ x <= y.
Proof.
  intros g l. induction l as [|x l IH]; intros best; cbn [min_partition]; cbv zeta.
  - split; [auto|]. intros q [-> | []] y Y. exists y. auto.
  - set (b := if earlier (first_position g x) (first_position g best) then x else best). destruct (IH b) as [A B]. cbv zeta in A, B. split.
    + destruct A as [-> | A]; [|right; right; exact A]. unfold b. destruct (earlier _ _); [right; left; reflexivity | auto].
    + intros q Q y Y.
      assert (q = b \/ In q l \/ exists z, first_position g b = Some z /\ z <= y) as [E | [E | (z & Z & L)]].
      { destruct Q as [-> | [-> | Q]]; [| |auto].
        - unfold b. destruct (earlier (first_position g x) (first_position g best)) eqn:E; [|auto]. right. right.
          apply earlier_lt in E. destruct E as (z & Z & L). exists z. split; [exact Z|]. specialize (L y Y). lia.
        - unfold b. destruct (earlier (first_position g q) (first_position g best)) eqn:E; [auto|]. right. right.
          rewrite Y in E. destruct (first_position g best) as [z|]; [|discriminate]. cbn in E. apply Nat.ltb_ge in E. exists z. auto. }
      * apply (B q (or_introl E) y Y).
      * apply (B q (or_intror E) y Y).
      * destruct (B b (or_introl eq_refl) z Z) as (u & U & M). exists u. split; [exact U | lia].
Qed.

(** All [__typename] fields of the root are put into one of its partitions: the one with the first field, or
    a new one if there is none.  Nothing else changes. *)
Theorem C78_typename : forall depth g r n, well_formed depth g -> r < length (g_nodes g) -> node_at g r = NRoot -> is_partition {| g_nodes := [n]; g_edges := [] |} 0 ->
  (forall d w, has g r d w -> w = WField \/ w = WPartition) ->
  exists p, let g' := assign_typename g r n in
    has g' r p WPartition /\ is_partition g' p /\
    (forall f, typename_field g r f -> has g' p f WField /\ ~ has g' r f WField) /\
    (forall s d w, ~ (typename_field g r d /\ (s = r \/ (s = p /\ w = WField))) -> ~ (s = r /\ d = p) -> (has g' s d w <-> has g s d w)) /\
    (forall i, i < length (g_nodes g) -> node_at g' i = node_at g i) /\
    (forall q, has g r q WPartition -> has g r p WPartition /\ length (g_nodes g') = length (g_nodes g) /\
       forall f pos, In f (neighbors g q) -> position_of g f = Some pos ->
       exists f' pos', In f' (neighbors g p) /\ position_of g f' = Some pos' /\ pos' <= pos).
Proof.
  intros depth g r n WF Br Nr Np Er. unfold assign_typename, first_partition.
  assert (forall q, In q (partitions_at g r) <-> has g r q WPartition) as PA.
  { intros q. unfold partitions_at, neighbors. rewrite filter_In, in_map_iff. split.
    - intros [([s d w] & <- & I) Q]. apply edges_in in I. destruct I as [I E]. cbn in *. subst s.
      destruct (Er _ _ I) as [-> | ->]; [|exact I]. destruct (wf_field _ _ WF _ _ I) as (u & v & E). rewrite E in Q. discriminate.
    - intros H. split; [eexists; split; [|apply edges_in; split; [exact H | reflexivity]]; reflexivity|].
      destruct (proj1 (wf_partition _ _ WF _ _ H)) as (e & res & ->). reflexivity. }
  assert (forall e, In e (g_edges g) -> e_src e = r -> tree_edge e = true) as TR.
  { intros e I E. apply has_edge in I. rewrite E in I. unfold tree_edge. destruct (Er _ _ I) as [-> | ->]; reflexivity. }
  destruct (partitions_at g r) as [|p0 l0] eqn:E.
  - set (g0 := add_edge r (length (g_nodes g)) WPartition (add_node n g)).
    assert (forall s d w, has g0 s d w <-> (s = r /\ d = length (g_nodes g) /\ w = WPartition) \/ has g s d w) as H0.
    { intros. unfold g0. rewrite add_edge_has. reflexivity. }
    assert (forall i, i < length (g_nodes g) -> node_at g0 i = node_at g i) as N0.
    { intros i B. unfold node_at, g0. cbn. apply app_nth1. exact B. }
    assert (forall f, typename_field g0 r f <-> typename_field g r f) as T0.
    { intros f. unfold typename_field. rewrite H0. split.
      - intros [[(_ & _ & ?) | H] (pos & K)]; [discriminate|]. rewrite N0 in K by (apply (wf_bounds _ _ WF _ _ _ H)). split; [exact H | exists pos; exact K].
      - intros [H (pos & K)]. split; [right; exact H|]. exists pos. rewrite N0; [exact K | apply (wf_bounds _ _ WF _ _ _ H)]. }
    exists (length (g_nodes g)).
    destruct (assign_loop (length (g_nodes g)) r (typename_fields g0 r) g0) as [Hs Hn].
    { lia. }
    { apply typename_fields_NoDup. unfold tree_targets, g0. cbn. constructor; [|apply (wf_one_parent _ _ WF)].
      intros I. fold (tree_targets g) in I. apply tree_targets_in in I. destruct I as (e & I & _ & Q). apply (wf_nodes _ _ WF) in I. lia. }
    { unfold tree_targets, g0. cbn. constructor; [|apply (wf_one_parent _ _ WF)].
      intros I. fold (tree_targets g) in I. apply tree_targets_in in I. destruct I as (e & I & _ & Q). apply (wf_nodes _ _ WF) in I. lia. }
    { intros e [<- | I] Q; [reflexivity | apply TR; assumption]. }
    { intros f F. apply typename_fields_in in F. apply F. }
    cbv zeta in *. set (g' := fold_left _ (typename_fields g0 r) g0) in *.
    assert (forall d, In d (typename_fields g0 r) -> d < length (g_nodes g)) as Tb.
    { intros d I. apply typename_fields_in, T0 in I. apply (wf_bounds _ _ WF _ _ _ (proj1 I)). }
    split; [|split; [|split; [|split; [|split]]]].
    + apply Hs. left. split; [apply H0; auto|]. intros [_ I]. apply Tb in I. lia.
    + unfold is_partition, node_at. rewrite Hn. unfold g0. cbn. rewrite nth_middle. exact Np.
    + intros f F. apply T0, typename_fields_in in F. split; [apply Hs; right; auto|].
      intros H. apply Hs in H. destruct H as [[_ H] | (H & _)]; [apply H; auto | lia].
    + intros s d w A B. rewrite Hs, H0, typename_fields_in, T0. split.
      * intros [[[(-> & -> & _) | H] _] | (-> & -> & H)]; [exfalso; apply B; auto | exact H | exfalso; apply A; auto].
      * intros H. left. split; [right; exact H|]. intros [-> T]. apply A. auto.
    + intros i B. unfold node_at at 1. rewrite Hn. apply N0. exact B.
    + intros q Q. apply PA in Q. destruct Q.
  - set (p := min_partition g p0 l0). assert (has g r p WPartition) as Hp.
    { destruct (min_partition_spec g l0 p0) as [[A | A] _]; apply PA; unfold p; [rewrite A; left; reflexivity | right; exact A]. }
    exists p. destruct (assign_loop p r (typename_fields g r) g) as [Hs Hn].
    { intros ->. apply (wf_partition _ _ WF) in Hp. destruct Hp as [(e & res & Q) _]. congruence. }
    { apply typename_fields_NoDup, (wf_one_parent _ _ WF). }
    { apply (wf_one_parent _ _ WF). }
    { exact TR. }
    { intros f F. apply typename_fields_in in F. apply F. }
    cbv zeta in *. fold p. set (g' := fold_left _ (typename_fields g r) g) in *.
    assert (p <> r) as Ne.
    { intros Q. rewrite Q in Hp. apply (wf_partition _ _ WF) in Hp. destruct Hp as [(e & res & Z) _]. congruence. }
    split; [|split; [|split; [|split; [|split]]]].
    + apply Hs. left. split; [exact Hp|]. intros [_ I]. apply typename_fields_in in I. destruct I as [_ (pos & K)].
      destruct (proj1 (wf_partition _ _ WF _ _ Hp)) as (e & res & Q). congruence.
    + unfold is_partition, node_at. rewrite Hn. apply (wf_partition _ _ WF _ _ Hp).
    + intros f F. apply typename_fields_in in F. split; [apply Hs; right; auto|].
      intros H. apply Hs in H. destruct H as [[_ H] | (H & _)]; [apply H; auto | congruence].
    + intros s d w A B. rewrite Hs, typename_fields_in. split.
      * intros [[H _] | (-> & -> & H)]; [exact H | exfalso; apply A; auto].
      * intros H. left. split; [exact H|]. intros [-> T]. apply A. auto.
    + intros i B. unfold node_at. rewrite Hn. reflexivity.
    + intros q Q. split; [exact Hp|]. split; [rewrite Hn; reflexivity|]. intros f pos F P.
      destruct (first_position_gen g (neighbors g q) None f pos F P) as (y & Y & L).
      apply PA in Q. destruct (min_partition_spec g l0 p0) as [_ M]. cbv zeta in M. fold p in M.
      assert (q = p0 \/ In q l0) as Q' by (destruct Q; auto).
      destruct (M q Q' y Y) as (x & X & Lx). destruct (first_position_some _ _ _ _ X) as [? | (f' & F' & P')]; [discriminate|].
      exists f', x. split; [exact F' | split; [exact P' | lia]].
Qed.
