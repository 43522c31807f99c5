(** Proofs about the splitting of partitions. *)
From Coq Require Import List Arith Bool Permutation Lia.
From Verif Require Import Partitions.Model Partitions.Spec.
Import ListNotations.

(** * Paths *)
Lemma weight_eqb_eq : forall a b, weight_eqb a b = true <-> a = b.
Proof. intros [] []; cbn; split; congruence. Qed.

Lemma required_in : forall g a b, In (a, b) (required g) <-> has g a b WSubgraph.
Proof.
  intros. unfold required, has. rewrite in_map_iff. split.
  - intros ([s d w] & E & H). apply filter_In in H. destruct H as [H W]. apply weight_eqb_eq in W. cbn in *.
    injection E as -> ->. subst w. exact H.
  - intros H. exists {| e_src := a; e_dst := b; e_weight := WSubgraph |}. split; [reflexivity|].
    apply filter_In. split; [exact H | reflexivity].
Qed.

(** Walks of edges. *)
Inductive walk (r : list (nat * nat)) : nat -> list (nat * nat) -> nat -> Prop :=
| walk_nil : forall a, walk r a [] a
| walk_cons : forall a b l c, In (a, b) r -> walk r b l c -> walk r a ((a, b) :: l) c.

Lemma walk_app : forall r a l b m c, walk r a l b -> walk r b m c -> walk r a (l ++ m) c.
Proof. intros r a l b m c H K. induction H; cbn [app]; [assumption | constructor; auto]. Qed.

Lemma walk_split : forall r l a x y m c, walk r a (l ++ (x, y) :: m) c -> walk r a l x /\ In (x, y) r /\ walk r y m c.
Proof.
  intros r l. induction l as [|[u v] l IH]; intros a x y m c H; cbn [app] in H; inversion H; subst.
  - repeat split; [constructor | assumption | assumption].
  - destruct (IH _ _ _ _ _ H6) as (W & I & K). repeat split; [constructor; assumption | assumption | assumption].
Qed.

Lemma walk_incl : forall r l a c, walk r a l c -> incl l r.
Proof. intros r l a c H. induction H; intros e I; [destruct I | destruct I as [<- | I]; auto]. Qed.

Lemma pair_dec : forall x y : nat * nat, {x = y} + {x <> y}.
Proof. decide equality; apply Nat.eq_dec. Qed.

(** Repeated edges can be left out. *)
Lemma walk_short : forall r n l a c, length l <= n -> walk r a l c -> exists m, walk r a m c /\ NoDup m.
Proof.
  intros r n. induction n as [|n IH]; intros l a c L W.
  - destruct l; [|cbn in L; lia]. exists []. split; [exact W | constructor].
  - inversion W; subst; [exists []; split; constructor|].
    destruct (in_dec pair_dec (a, b) l0) as [I | I].
    + destruct (in_split _ _ I) as (l1 & l2 & ->). destruct (walk_split _ _ _ _ _ _ _ H0) as (_ & _ & K).
      apply (IH ((a, b) :: l2)); [cbn in *; rewrite app_length in L; cbn in L; lia | constructor; assumption].
    + destruct (IH l0 b c ltac:(cbn in L; lia) H0) as (m & Wm & D).
      destruct (in_dec pair_dec (a, b) m) as [J | J].
      * destruct (in_split _ _ J) as (l1 & l2 & ->). destruct (walk_split _ _ _ _ _ _ _ Wm) as (_ & _ & K).
        exists ((a, b) :: l2). split; [constructor; assumption|].
        constructor; [apply NoDup_remove_2 in D; intro Q; apply D, in_or_app; right; exact Q|].
        apply NoDup_remove_1 in D. clear -D. induction l1; [exact D | inversion D; auto].
      * exists ((a, b) :: m). split; constructor; assumption.
Qed.

Lemma reached_sound : forall n r a b, In b (reached n r a) -> exists l, walk r a l b.
Proof.
  intros n r a. induction n as [|n IH]; intros b H; cbn [reached] in H.
  - destruct H as [<- | []]. exists []. constructor.
  - apply in_app_or in H. destruct H as [H | H]; [auto|].
    apply in_map_iff in H. destruct H as ([x y] & <- & H). apply filter_In in H. destruct H as [I E].
    apply existsb_exists in E. destruct E as (z & Z & E). apply Nat.eqb_eq in E. cbn in *. subst z.
    destruct (IH x Z) as (l & W). exists (l ++ [(x, y)]). apply (walk_app _ _ _ x); [exact W | constructor; [exact I | constructor]].
Qed.

Lemma reached_self : forall n r a, In a (reached n r a).
Proof. intros n r a. induction n; cbn [reached]; [left; reflexivity | apply in_or_app; left; assumption]. Qed.

Lemma reached_complete : forall r l a b, walk r a l b -> forall n, length l <= n -> In b (reached n r a).
Proof.
  intros r l. induction l as [|e l IH] using rev_ind; intros a b W n L.
  - inversion W; subst. apply reached_self.
  - rewrite app_length in L. cbn in L. destruct n; [lia|]. destruct e as [x y].
    destruct (walk_split _ _ _ _ _ _ _ W) as (W1 & I & W2). inversion W2; subst.
    cbn [reached]. apply in_or_app. right. apply in_map_iff. exists (x, b). split; [reflexivity|].
    apply filter_In. split; [exact I|]. apply existsb_exists. exists x. split; [apply IH; [exact W1 | lia] | apply Nat.eqb_refl].
Qed.

Lemma walk_needs : forall g l a b, walk (required g) a l b -> a = b \/ needs g a b.
Proof.
  intros g l a b W. induction W as [a | a b l c I W IH]; [left; reflexivity|].
  apply required_in in I. right. destruct IH as [<- | N]; [constructor; assumption | econstructor 2; eassumption].
Qed.

Lemma needs_walk : forall g a b, needs g a b -> exists l, walk (required g) a l b.
Proof.
  intros g a b H. induction H as [n m H | n k m H K (l & W)].
  - exists [(n, m)]. constructor; [apply required_in; exact H | constructor].
  - exists ((n, k) :: l). constructor; [apply required_in; exact H | exact W].
Qed.

Lemma has_path_iff : forall g a b, has_path g a b = true <-> a = b \/ needs g a b.
Proof.
  intros. unfold has_path. rewrite existsb_exists. split.
  - intros (x & I & E). apply Nat.eqb_eq in E. subst x. destruct (reached_sound _ _ _ _ I) as (l & W). eapply walk_needs; exact W.
  - intros H. exists b. split; [|apply Nat.eqb_refl].
    assert (exists l, walk (required g) a l b) as (l & W) by (destruct H as [<- | H]; [exists []; constructor | apply needs_walk; exact H]).
    destruct (walk_short _ _ _ _ _ (le_n _) W) as (m & Wm & D).
    apply (reached_complete _ m); [exact Wm|]. apply NoDup_incl_length; [exact D | eapply walk_incl; exact Wm].
Qed.

Lemma needs_trans : forall g a b c, needs g a b -> needs g b c -> needs g a c.
Proof. intros g a b c H K. induction H; [econstructor 2; eassumption | econstructor 2; eauto]. Qed.

(** Graphs with the same requirements of old nodes. *)
Lemma needs_same : forall g g' (old : nat -> Prop),
  (forall s d, old s -> (has g' s d WSubgraph <-> has g s d WSubgraph)) ->
  (forall s d, has g s d WSubgraph -> old d) ->
  forall a b, old a -> (needs g' a b <-> needs g a b).
Proof.
  intros g g' old E T a b O. split; intros H; revert O; induction H as [n m H | n k m H K IH]; intros O.
  - constructor. apply E; assumption.
  - apply E in H; [|assumption]. econstructor 2; [exact H|]. apply IH. eapply T; exact H.
  - constructor. apply E; assumption.
  - econstructor 2; [apply E; [assumption | exact H]|]. apply IH. eapply T; exact H.
Qed.

(** * Edges *)
Lemma has_edge : forall g e, In e (g_edges g) <-> has g (e_src e) (e_dst e) (e_weight e).
Proof. intros g [s d w]. reflexivity. Qed.

Lemma add_edge_has : forall g s d w s' d' w', has (add_edge s d w g) s' d' w' <-> (s' = s /\ d' = d /\ w' = w) \/ has g s' d' w'.
Proof.
  intros. unfold has, add_edge. cbn [g_edges In]. split; (intros [H | H]; [left | right; exact H]).
  - injection H as -> -> ->. auto.
  - destruct H as (-> & -> & ->). reflexivity.
Qed.

Lemma edges_in : forall g n e, In e (edges g n) <-> In e (g_edges g) /\ e_src e = n.
Proof. intros. unfold edges. rewrite filter_In, Nat.eqb_eq. reflexivity. Qed.

Lemma drop_edge_shape : forall s d l,
  (drop_edge s d l = l /\ forall e, In e l -> ~ (e_src e = s /\ e_dst e = d)) \/
  exists l1 e l2, l = l1 ++ e :: l2 /\ drop_edge s d l = l1 ++ l2 /\ e_src e = s /\ e_dst e = d.
Proof.
  intros s d l. induction l as [|x l IH]; cbn [drop_edge]; [left; split; [reflexivity | intros e []]|].
  destruct ((e_src x =? s) && (e_dst x =? d)) eqn:Q.
  - apply andb_true_iff in Q. destruct Q as [A B]. apply Nat.eqb_eq in A. apply Nat.eqb_eq in B.
    right. exists [], x, l. auto.
  - destruct IH as [[E N] | (l1 & e & l2 & -> & E & A & B)].
    + left. rewrite E. split; [reflexivity|]. intros e [<- | I]; [|auto]. intros [A B]. subst. rewrite !Nat.eqb_refl in Q. discriminate.
    + right. exists (x :: l1), e, l2. rewrite E. auto.
Qed.

Definition tree_targets (g : graph) : list nat := map e_dst (filter tree_edge (g_edges g)).

Lemma tree_targets_in : forall g d, In d (tree_targets g) <-> exists e, In e (g_edges g) /\ tree_edge e = true /\ e_dst e = d.
Proof.
  intros. unfold tree_targets. rewrite in_map_iff. split.
  - intros (e & <- & H). apply filter_In in H. exists e. tauto.
  - intros (e & I & T & <-). exists e. split; [reflexivity | apply filter_In; auto].
Qed.

Lemma tree_unique : forall g, NoDup (tree_targets g) -> forall e f, In e (g_edges g) -> In f (g_edges g) ->
  tree_edge e = true -> tree_edge f = true -> e_dst e = e_dst f -> e = f.
Proof.
  intros g. unfold tree_targets. induction (g_edges g) as [|x l IH]; intros D e f I J T U E; [destruct I|].
  cbn [filter] in D. destruct I as [<- | I], J as [<- | J]; [reflexivity | | |].
  - rewrite T in D. cbn [map] in D. inversion D as [|y m N _ Q]; subst. exfalso. apply N. rewrite E.
    apply in_map, filter_In. auto.
  - rewrite U in D. cbn [map] in D. inversion D as [|y m N _ Q]; subst. exfalso. apply N. rewrite <- E.
    apply in_map, filter_In. auto.
  - apply IH; auto. destruct (tree_edge x); [cbn [map] in D; inversion D; assumption | exact D].
Qed.

(** Removing the only edge between two nodes. *)
Lemma remove_spec : forall g s d, NoDup (tree_targets g) ->
  (forall e, In e (g_edges g) -> e_src e = s -> e_dst e = d -> tree_edge e = true) ->
  (forall s' d' w, has (remove s d g) s' d' w <-> has g s' d' w /\ ~ (s' = s /\ d' = d)) /\
  NoDup (tree_targets (remove s d g)) /\ g_nodes (remove s d g) = g_nodes g /\
  incl (tree_targets (remove s d g)) (tree_targets g).
Proof.
  intros g s d D T. unfold remove, has, tree_targets in *. cbn [g_edges g_nodes].
  destruct (drop_edge_shape s d (g_edges g)) as [[E N] | (l1 & e & l2 & L & E & A & B)]; rewrite E.
  - split; [|split; [exact D | split; [reflexivity | intros x; auto]]]. intros s' d' w. split; [|tauto].
    intros H. split; [exact H|]. intros [-> ->]. exact (N _ H (conj eq_refl eq_refl)).
  - assert (tree_edge e = true) as Te by (apply T; [rewrite L; apply in_or_app; right; left; reflexivity | assumption | assumption]).
    rewrite L in *. rewrite !filter_app, !map_app in *. cbn [filter] in D |- *. rewrite Te in D |- *. cbn [map] in D |- *.
    assert (NoDup (map e_dst (filter tree_edge l1) ++ map e_dst (filter tree_edge l2))) as D' by (eapply NoDup_remove_1; exact D).
    split; [|split; [exact D' | split; [reflexivity|]]].
    + intros s' d' w. split.
      * intros H. split; [apply in_app_or in H; apply in_or_app; destruct H; [left | right; right]; assumption|].
        intros [-> ->]. apply NoDup_remove_2 in D. apply D. rewrite B. rewrite <- map_app, <- filter_app.
        apply in_map_iff. eexists. split; [|apply filter_In; split; [exact H|]]; [reflexivity|].
        apply T; [|reflexivity | reflexivity]. apply in_app_or in H. apply in_or_app. destruct H; [left | right; right]; assumption.
      * intros [H K]. apply in_app_or in H. apply in_or_app. destruct H as [H | [H | H]]; auto.
        exfalso. apply K. subst e. auto.
    + intros x H. apply in_app_or in H. apply in_or_app. destruct H; [left | right; right]; assumption.
Qed.

(** * What is below a node *)
Lemma children_in : forall g r n, In n (children g r) <-> has g r n WPartition \/ has g r n WField.
Proof.
  intros. unfold children. rewrite in_flat_map. split.
  - intros ([s d w] & I & H). apply edges_in in I. destruct I as [I E]. cbn in *. subst s.
    destruct w; try solve [destruct H]; destruct H as [<- | []]; [left | right]; exact I.
  - intros [H | H]; (eexists; split; [apply edges_in; split; [exact H | reflexivity] | left; reflexivity]).
Qed.

Lemma partition_fields_in : forall g p res x, In x (partition_fields g p res) <->
  fl_partition x = p /\ fl_resolver x = res /\ has g p (fl_node x) WField /\ exists t, node_at g (fl_node x) = NField (fl_position x) t.
Proof.
  intros. unfold partition_fields. rewrite in_flat_map. split.
  - intros ([s d w] & I & H). apply edges_in in I. destruct I as [I E]. cbn in *. subst s.
    destruct w; try solve [destruct H]. destruct (node_at g d) eqn:Nd; try solve [destruct H].
    destruct H as [<- | []]. cbn. repeat split; [exact I | eexists; exact Nd].
  - destruct x as [pos q rs n]. cbn. intros (-> & -> & H & t & Nd). eexists. split; [apply edges_in; split; [exact H | reflexivity]|].
    cbn. rewrite Nd. left. reflexivity.
Qed.

Lemma nested_partitions_in : forall g r p res, In (p, res) (nested_partitions g r) <->
  (has g r p WPartition \/ has g r p WField) /\ resolver_of g p res.
Proof.
  intros. unfold nested_partitions. rewrite in_flat_map. split.
  - intros (n & I & H). apply children_in in I. destruct (node_at g n) as [| e rs |] eqn:Nd; try solve [destruct H].
    destruct H as [H | []]. injection H as -> ->. split; [exact I | exists e; exact Nd].
  - intros [H (e & Nd)]. exists p. split; [apply children_in; exact H|]. rewrite Nd. left. reflexivity.
Qed.

Lemma nested_fields_in : forall g r x, In x (nested_fields g r) <->
  In (fl_partition x, fl_resolver x) (nested_partitions g r) /\ In x (partition_fields g (fl_partition x) (fl_resolver x)).
Proof.
  intros. unfold nested_fields. rewrite in_flat_map. split.
  - intros ([p res] & I & H). cbn [fst snd] in H. assert (H' := H). apply partition_fields_in in H. destruct H as (E & F & _).
    rewrite E, F. split; assumption.
  - intros [I H]. eexists. split; [exact I | exact H].
Qed.

Lemma filter_filter : forall A (p q : A -> bool) l, filter p (filter q l) = filter (fun x => q x && p x) l.
Proof.
  intros A p q l. induction l as [|x l IH]; [reflexivity|]. cbn [filter]. destruct (q x); cbn [filter andb]; [|exact IH].
  destruct (p x); rewrite IH; reflexivity.
Qed.

Lemma NoDup_sub : forall (q : edge -> bool) l, (forall e, q e = true -> tree_edge e = true) ->
  NoDup (map e_dst (filter tree_edge l)) -> NoDup (map e_dst (filter q l)).
Proof.
  intros q l Q. induction l as [|x l IH]; intros D; [constructor|]. cbn [filter] in *.
  destruct (q x) eqn:E.
  - rewrite (Q x E) in D. cbn [map] in *. inversion D as [|y m N D' E']; subst. constructor; [|auto].
    intros I. apply N. apply in_map_iff in I. destruct I as (y & Y & I). apply filter_In in I. apply in_map_iff. exists y.
    split; [exact Y | apply filter_In; split; [tauto | apply Q; tauto]].
  - apply IH. destruct (tree_edge x); [cbn [map] in D; inversion D; assumption | exact D].
Qed.

Lemma children_eq : forall g r, children g r = map e_dst (filter (fun e => (e_src e =? r) && tree_edge e) (g_edges g)).
Proof.
  intros. unfold children, edges. rewrite <- filter_filter. induction (filter (fun e => e_src e =? r) (g_edges g)) as [|x l IH]; [reflexivity|].
  cbn [flat_map filter]. rewrite IH. unfold tree_edge. destruct (e_weight x); reflexivity.
Qed.

Lemma children_NoDup : forall g r, NoDup (tree_targets g) -> NoDup (children g r).
Proof. intros. rewrite children_eq. apply NoDup_sub; [|assumption]. intros e E. apply andb_true_iff in E. tauto. Qed.

Definition field_edge (g : graph) (e : edge) : bool :=
  match e_weight e with WField => match node_at g (e_dst e) with NField _ _ => true | _ => false end | _ => false end.
Lemma partition_fields_eq : forall g p res,
  map fl_node (partition_fields g p res) = map e_dst (filter (fun e => (e_src e =? p) && field_edge g e) (g_edges g)).
Proof.
  intros. unfold partition_fields, edges. rewrite <- filter_filter.
  induction (filter (fun e => e_src e =? p) (g_edges g)) as [|x l IH]; [reflexivity|].
  cbn [flat_map filter]. rewrite map_app, IH. unfold field_edge at 2. destruct (e_weight x); try reflexivity.
  destruct (node_at g (e_dst x)); reflexivity.
Qed.

Lemma field_edge_tree : forall g e, field_edge g e = true -> tree_edge e = true.
Proof. intros g e. unfold field_edge, tree_edge. destruct (e_weight e); auto. Qed.

Lemma partition_fields_NoDup : forall g p res, NoDup (tree_targets g) -> NoDup (map fl_node (partition_fields g p res)).
Proof.
  intros. rewrite partition_fields_eq. apply NoDup_sub; [|assumption]. intros e E. apply andb_true_iff in E.
  apply field_edge_tree with g. tauto.
Qed.

Lemma nested_partitions_NoDup : forall g r, NoDup (tree_targets g) -> NoDup (map fst (nested_partitions g r)).
Proof.
  intros g r D. unfold nested_partitions. assert (C := children_NoDup g r D). induction (children g r) as [|n l IH]; [constructor|].
  inversion C as [|y m N C' E]; subst. cbn [flat_map]. destruct (node_at g n); cbn [app map fst]; auto.
  constructor; [|auto]. intros I. apply N. apply in_map_iff in I. destruct I as ([p rs] & <- & I). apply in_flat_map in I.
  destruct I as (k & K & I). cbn. destruct (node_at g k); try solve [destruct I]. destruct I as [I | []]. injection I as -> ->. exact K.
Qed.

Lemma NoDup_app_intro : forall A (l m : list A), NoDup l -> NoDup m -> (forall x, In x l -> ~ In x m) -> NoDup (l ++ m).
Proof.
  intros A l m D E N. induction l as [|x l IH]; [exact E|]. inversion D; subst. cbn [app]. constructor.
  - intros I. apply in_app_or in I. destruct I as [I | I]; [contradiction|]. apply (N x); [left; reflexivity | exact I].
  - apply IH; [assumption|]. intros y Y. apply N. right. exact Y.
Qed.

Lemma nested_fields_NoDup : forall g r, NoDup (tree_targets g) -> NoDup (map fl_node (nested_fields g r)).
Proof.
  intros g r D. unfold nested_fields. assert (C := nested_partitions_NoDup g r D).
  induction (nested_partitions g r) as [|[p res] l IH]; [constructor|].
  cbn [map fst] in C. inversion C as [|y m N C' E]; subst. cbn [flat_map fst snd]. rewrite map_app.
  apply NoDup_app_intro; [apply partition_fields_NoDup; exact D | auto|].
  intros x I J. apply in_map_iff in I. destruct I as (u & <- & I). apply in_map_iff in J. destruct J as (v & E & J).
  apply in_flat_map in J. destruct J as ([q rq] & Q & J). cbn [fst snd] in J.
  apply partition_fields_in in I. apply partition_fields_in in J. destruct I as (_ & _ & I & _), J as (_ & _ & J & _).
  rewrite E in J. assert (U := tree_unique g D _ _ I J eq_refl eq_refl eq_refl). injection U as ->.
  apply N. apply in_map_iff. exists (q, rq). auto.
Qed.

Lemma node_unique : forall l, NoDup (map fl_node l) -> forall x y, In x l -> In y l -> fl_node x = fl_node y -> x = y.
Proof.
  intros l. induction l as [|z l IH]; intros D x y X Y E; [destruct X|].
  cbn [map] in D. inversion D as [|u v Nz D']; subst. destruct X as [<- | X], Y as [<- | Y]; [reflexivity | | |].
  - exfalso. apply Nz. rewrite E. apply in_map. exact Y.
  - exfalso. apply Nz. rewrite <- E. apply in_map. exact X.
  - apply IH; assumption.
Qed.

(** * One step *)
Section Step.
Variables (depth : nat -> nat) (g : graph) (r : nat).
Hypothesis WF : well_formed depth g.

Lemma wf_tree : NoDup (tree_targets g). Proof. exact (wf_one_parent _ _ WF). Qed.

(** Partitions are reached by partition edges only. *)
Lemma partition_not_field : forall n, is_partition g n -> is_field g n -> False.
Proof. intros n (e & rs & A) (p & t & B). congruence. Qed.
Lemma nested_in : forall p res, In (p, res) (nested_partitions g r) <-> has g r p WPartition /\ resolver_of g p res.
Proof.
  intros. rewrite nested_partitions_in. split; [|tauto]. intros [[H | H] R]; [tauto|]. exfalso.
  destruct R as (e & R). eapply partition_not_field; [exists e, res; exact R | eapply wf_field; eauto].
Qed.
Lemma wf_resolver : forall s d, has g s d WPartition -> exists res, resolver_of g d res.
Proof. intros s d H. destruct (proj1 (wf_partition _ _ WF _ _ H)) as (e & res & E). exists res, e. exact E. Qed.
Lemma fields_in : forall x, In x (nested_fields g r) -> has g r (fl_partition x) WPartition /\
  resolver_of g (fl_partition x) (fl_resolver x) /\ has g (fl_partition x) (fl_node x) WField.
Proof.
  intros x I. apply nested_fields_in in I. destruct I as [I J]. apply nested_in in I. apply partition_fields_in in J. tauto.
Qed.
Lemma fields_all : forall p f, has g r p WPartition -> has g p f WField ->
  exists x, In x (nested_fields g r) /\ fl_partition x = p /\ fl_node x = f.
Proof.
  intros p f H K. destruct (wf_resolver _ _ H) as (res & R). destruct (wf_field _ _ WF _ _ K) as (pos & t & Nf).
  exists {| fl_position := pos; fl_partition := p; fl_resolver := res; fl_node := f |}. split; [|split; reflexivity].
  apply nested_fields_in. cbn [fl_partition fl_resolver]. split; [apply nested_in; auto|]. apply partition_fields_in. cbn.
  repeat split; [exact K | exists t; exact Nf].
Qed.

Variable L : list fld.
Hypothesis LP : Permutation (nested_fields g r) L.

Lemma L_in : forall x, In x L -> has g r (fl_partition x) WPartition /\
  resolver_of g (fl_partition x) (fl_resolver x) /\ has g (fl_partition x) (fl_node x) WField.
Proof. intros x I. apply fields_in. eapply Permutation_in; [apply Permutation_sym; exact LP | exact I]. Qed.
Lemma L_NoDup : NoDup (map fl_node L).
Proof. eapply Permutation_NoDup; [apply Permutation_map; exact LP|]. apply nested_fields_NoDup, wf_tree. Qed.

Lemma detach_spec_gen : forall l h, incl l L -> NoDup (tree_targets h) -> (forall s d w, has h s d w -> has g s d w) ->
  (forall s d w, has (detach h l) s d w <-> has h s d w /\ forall x, In x l -> ~ (s = fl_partition x /\ d = fl_node x)) /\
  NoDup (tree_targets (detach h l)) /\ g_nodes (detach h l) = g_nodes h /\ incl (tree_targets (detach h l)) (tree_targets h).
Proof.
  intros l. induction l as [|x l IH]; intros h S D Hs; cbn [detach fold_left].
  - split; [|split; [exact D | split; [reflexivity | intros y; auto]]]. intros s d w. split; [|tauto]. intros H. split; [exact H | intros x []].
  - destruct (remove_spec h (fl_partition x) (fl_node x) D) as (R & D' & En & Ic).
    { intros e I A B. apply has_edge in I. rewrite A, B in I. apply Hs in I.
      destruct (L_in x (S x (or_introl eq_refl))) as (P & (en & Rs) & F).
      assert (W := wf_own _ _ WF _ _ _ _ _ _ P P (ex_intro _ en Rs) (ex_intro _ en Rs) F I). unfold tree_edge. rewrite W. reflexivity. }
    destruct (IH (remove (fl_partition x) (fl_node x) h)) as (R2 & D2 & En2 & Ic2).
    { intros y Y. apply S. right. exact Y. }
    { exact D'. }
    { intros s d w H. apply Hs. apply R in H. tauto. }
    fold (detach (remove (fl_partition x) (fl_node x) h) l). split; [|split; [exact D2 | split; [congruence | intros y Y; auto]]].
    intros s d w. rewrite R2, R. split.
    + intros [[H K] F]. split; [exact H|]. intros y [<- | Y]; [exact K | apply F; exact Y].
    + intros [H F]. split; [split; [exact H | apply F; left; reflexivity]|]. intros y Y. apply F. right. exact Y.
Qed.

Definition g1 : graph := detach g L.
Lemma g1_nodes : g_nodes g1 = g_nodes g.
Proof. apply (detach_spec_gen L g); [intros x; auto | apply wf_tree | auto]. Qed.
Lemma g1_tree : NoDup (tree_targets g1).
Proof. apply (detach_spec_gen L g); [intros x; auto | apply wf_tree | auto]. Qed.
Lemma g1_incl : incl (tree_targets g1) (tree_targets g).
Proof. apply (detach_spec_gen L g); [intros x; auto | apply wf_tree | auto]. Qed.
(** All edges from the partitions below [r] to fields are gone, the others are there. *)
Lemma g1_has : forall s d w, has g1 s d w <-> has g s d w /\ ~ (w = WField /\ has g r s WPartition).
Proof.
  intros s d w. destruct (detach_spec_gen L g) as (E & _); [intros x; auto | apply wf_tree | auto|].
  fold g1 in E. rewrite E. split.
  - intros [H F]. split; [exact H|]. intros [-> P]. destruct (fields_all s d P H) as (x & I & A & B).
    apply (F x); [eapply Permutation_in; [exact LP | exact I] | auto].
  - intros [H F]. split; [exact H|]. intros x I [-> ->]. destruct (L_in x I) as (P & (en & Rs) & K).
    assert (W := wf_own _ _ WF _ _ _ _ _ _ P P (ex_intro _ en Rs) (ex_intro _ en Rs) K H). tauto.
Qed.

Definition n0 : nat := length (g_nodes g).
Lemma old_src : forall s d w, has g s d w -> s < n0.
Proof. intros s d w H. exact (proj1 (wf_nodes _ _ WF _ H)). Qed.
Lemma old_dst : forall s d w, has g s d w -> d < n0.
Proof. intros s d w H. exact (proj2 (wf_nodes _ _ WF _ H)). Qed.

(** The partition made for a field of [own] that comes at place [i] is the node [n0 + i]; [asg] are the
    fields placed, the newest first. *)
Record inv (done : list fld) (h : graph) (parts : list (nat * nat)) (own : list fld) (asg : list (nat * nat)) : Prop := {
  i_nodes : g_nodes h = g_nodes g ++ map (fun x => node_at g (fl_partition x)) own;
  i_parts : parts = nested_partitions g r ++ combine (seq n0 (length own)) (map fl_resolver own);
  i_has : forall s d w, has h s d w <->
    has g1 s d w \/ (s = r /\ w = WPartition /\ n0 <= d < n0 + length own) \/
    (exists i x, nth_error own i = Some x /\ s = n0 + i /\ (w = WSubgraph \/ w = WMutation) /\ has g (fl_partition x) d w) \/
    (w = WField /\ In (s, d) asg);
  i_asg : forall s d, In (s, d) asg -> exists x, In x done /\ fl_node x = d /\ In (s, fl_resolver x) parts;
  i_done : map snd asg = rev (map fl_node done);
  i_sep : forall s a b, In (s, a) asg -> In (s, b) asg -> a <> b -> ~ needs g a b;
  i_own : incl own L;
  i_why : forall x, In x own -> exists y, In y L /\ fl_resolver y = fl_resolver x /\ fl_node y <> fl_node x /\
    (needs g (fl_node x) (fl_node y) \/ needs g (fl_node y) (fl_node x));
  i_tree : Permutation (tree_targets h) (map snd asg ++ seq n0 (length own) ++ tree_targets g1)
}.

Lemma inv_start : inv [] g1 (nested_partitions g r) [] [].
Proof.
  constructor; cbn [map length seq combine app rev].
  - rewrite g1_nodes, app_nil_r. reflexivity.
  - rewrite app_nil_r. reflexivity.
  - intros s d w. split; [tauto|]. intros [H | [(_ & _ & H) | [(i & x & H & _) | (_ & [])]]]; [exact H | lia | destruct i; discriminate].
  - intros s d [].
  - reflexivity.
  - intros s a b [].
  - intros x [].
  - intros x [].
  - reflexivity.
Qed.

Lemma node_at_app : forall h l, g_nodes h = g_nodes g ++ l -> forall n, n < n0 -> node_at h n = node_at g n.
Proof. intros h l E n H. unfold node_at. rewrite E. apply app_nth1. exact H. Qed.

Lemma combine_seq_in : forall (l : list nat) n p res, In (p, res) (combine (seq n (length l)) l) <->
  exists i, nth_error l i = Some res /\ p = n + i.
Proof.
  intros l. induction l as [|x l IH]; intros n p res; cbn [length seq combine].
  - split; [intros [] | intros ([|i] & H & _); discriminate].
  - split.
    + intros [H | H].
      * injection H as -> ->. exists 0. split; [reflexivity | lia].
      * apply IH in H. destruct H as (i & H & ->). exists (S i). split; [exact H | lia].
    + intros ([|i] & H & ->); cbn in H.
      * injection H as ->. left. rewrite Nat.add_0_r. reflexivity.
      * right. apply IH. exists i. split; [exact H | lia].
Qed.

(** The partitions of the list. *)
Lemma parts_in : forall own p res, In (p, res) (nested_partitions g r ++ combine (seq n0 (length own)) (map fl_resolver own)) <->
  (has g r p WPartition /\ resolver_of g p res) \/ exists i x, nth_error own i = Some x /\ fl_resolver x = res /\ p = n0 + i.
Proof.
  intros. rewrite in_app_iff, nested_in. rewrite <- (map_length fl_resolver own) at 1. rewrite combine_seq_in. split.
  - intros [H | (i & H & ->)]; [left; exact H | right]. rewrite nth_error_map in H. destruct (nth_error own i) as [x|] eqn:E; [|discriminate].
    cbn in H. injection H as <-. exists i, x. auto.
  - intros [H | (i & x & H & <- & ->)]; [left; exact H | right]. exists i. rewrite nth_error_map, H. auto.
Qed.

Lemma nth_error_lt : forall A (l : list A) i x, nth_error l i = Some x -> i < length l.
Proof. intros A l i x H. apply nth_error_Some. congruence. Qed.

Section Place.
Variables (done : list fld) (h : graph) (parts : list (nat * nat)) (own : list fld) (asg : list (nat * nat)).
Hypothesis I : inv done h parts own asg.

Lemma i_bound : forall p res, In (p, res) parts -> p < n0 + length own.
Proof.
  intros p res H. rewrite (i_parts _ _ _ _ _ I) in H. apply parts_in in H.
  destruct H as [[H _] | (i & x & H & _ & ->)]; [apply old_dst in H; lia | apply nth_error_lt in H; lia].
Qed.
Lemma i_length : length (g_nodes h) = n0 + length own.
Proof. rewrite (i_nodes _ _ _ _ _ I), app_length, map_length. reflexivity. Qed.
Lemma i_needs : forall a b, a < n0 -> (needs h a b <-> needs g a b).
Proof.
  apply needs_same.
  - intros s d O. rewrite (i_has _ _ _ _ _ I), g1_has. split; [|intros H; left; split; [exact H | intros [? _]; discriminate]].
    intros [[H _] | [(_ & ? & _) | [(i & x & _ & -> & _) | (? & _)]]]; [exact H | discriminate | lia | discriminate].
  - intros s d H. eapply old_dst; exact H.
Qed.
(** The fields of a partition of the list are those placed in it. *)
Lemma i_fields : forall p res d, In (p, res) parts -> (has h p d WField <-> In (p, d) asg).
Proof.
  intros p res d P. rewrite (i_has _ _ _ _ _ I), g1_has. split; [|intros H; right; right; right; auto].
  intros [[H F] | [(_ & ? & _) | [(i & x & _ & _ & [? | ?] & _) | (_ & H)]]]; try discriminate; [|exact H].
  exfalso. rewrite (i_parts _ _ _ _ _ I) in P. apply parts_in in P. destruct P as [[P _] | (i & x & _ & _ & ->)].
  - apply F. auto.
  - apply old_src in H. lia.
Qed.

Lemma connected_false : forall p res f, In (p, res) parts -> f < n0 -> connected h p f = false ->
  forall a, In (p, a) asg -> a <> f -> a < n0 -> ~ needs g a f /\ ~ needs g f a.
Proof.
  intros p res f P B C a A Ne Ba. apply (i_fields _ _ _ P) in A.
  assert (has_path h a f = false /\ has_path h f a = false) as [X Y].
  { apply not_true_iff_false in C. split; apply not_true_iff_false; intros Q; apply C; unfold connected; apply existsb_exists;
    (eexists; split; [apply edges_in; split; [exact A | reflexivity]|]); cbn; rewrite Q; [reflexivity | apply orb_true_r]. }
  split; intros Q.
  - apply (i_needs _ _ Ba) in Q. rewrite (proj2 (has_path_iff h a f)) in X by (right; exact Q). discriminate.
  - apply (i_needs _ _ B) in Q. rewrite (proj2 (has_path_iff h f a)) in Y by (right; exact Q). discriminate.
Qed.

Variable x : fld.
Hypothesis XL : In x L.
Hypothesis DL : incl done L.
Hypothesis Fresh : ~ In (fl_node x) (map fl_node done).

Lemma asg_old : forall s a, In (s, a) asg -> a < n0.
Proof.
  intros s a A. destruct (i_asg _ _ _ _ _ I _ _ A) as (y & Y & <- & _). destruct (L_in y (DL y Y)) as (_ & _ & H). eapply old_dst; exact H.
Qed.
Lemma x_old : fl_node x < n0 /\ fl_partition x < n0.
Proof. destruct (L_in x XL) as (_ & _ & H). split; [eapply old_dst; exact H | eapply old_src; exact H]. Qed.

Lemma inv_old : forall p, choose h parts x = Some p ->
  inv (done ++ [x]) (add_edge p (fl_node x) WField h) parts own ((p, fl_node x) :: asg).
Proof.
  intros p C. unfold choose in C.
  destruct (find _ parts) as [[q res]|] eqn:F; [|discriminate]. injection C as <-. cbn [fst] in *.
  apply find_some in F. destruct F as [P C]. apply andb_true_iff in C. destruct C as [E C]. cbn [snd] in E.
  apply Nat.eqb_eq in E. subst res. apply negb_true_iff in C.
  constructor.
  - exact (i_nodes _ _ _ _ _ I).
  - exact (i_parts _ _ _ _ _ I).
  - intros s d w. rewrite add_edge_has, (i_has _ _ _ _ _ I). cbn [In]. split.
    + intros [(-> & -> & ->) | H]; [right; right; right; auto | tauto].
    + intros [H | [H | [H | (-> & [H | H])]]]; [tauto | tauto | tauto | injection H as <- <-; auto | tauto].
  - intros s d [H | H].
    + injection H as <- <-. exists x. split; [apply in_or_app; right; left; reflexivity | auto].
    + destruct (i_asg _ _ _ _ _ I _ _ H) as (y & Y & Q & K). exists y. split; [apply in_or_app; left; exact Y | auto].
  - cbn [map snd]. rewrite map_app, rev_app_distr, (i_done _ _ _ _ _ I). reflexivity.
  - intros s a b [A | A] [B | B] Ne.
    + injection A as <- <-. injection B as <-. congruence.
    + injection A as <- <-. refine (proj2 (connected_false q (fl_resolver x) (fl_node x) P (proj1 x_old) C b B _ (asg_old _ _ B))). congruence.
    + injection B as <- <-. exact (proj1 (connected_false q (fl_resolver x) (fl_node x) P (proj1 x_old) C a A Ne (asg_old _ _ A))).
    + eapply (i_sep _ _ _ _ _ I); eauto.
  - exact (i_own _ _ _ _ _ I).
  - exact (i_why _ _ _ _ _ I).
  - unfold tree_targets, add_edge. cbn [g_edges filter tree_edge e_weight map e_dst snd app].
    constructor. exact (i_tree _ _ _ _ _ I).
Qed.

(** A new partition. *)
Lemma copy_has : forall l k new s d w,
  has (fold_left (fun k e => add_edge new (e_dst e) (e_weight e) k) l k) s d w <->
  has k s d w \/ (s = new /\ exists e, In e l /\ e_dst e = d /\ e_weight e = w).
Proof.
  intros l. induction l as [|e l IH]; intros k new s d w; cbn [fold_left].
  - split; [tauto|]. intros [H | (_ & e & [] & _)]. exact H.
  - rewrite IH, add_edge_has. split.
    + intros [[(-> & -> & ->) | H] | (-> & e' & A & B & C)]; [right | tauto | right].
      * split; [reflexivity | exists e; split; [left; reflexivity | auto]].
      * split; [reflexivity | exists e'; split; [right; exact A | auto]].
    + intros [H | (-> & e' & [<- | A] & <- & <-)]; [tauto | left; left; auto | right; split; [reflexivity | exists e'; auto]].
Qed.
Lemma copy_nodes : forall l k new, g_nodes (fold_left (fun k e => add_edge new (e_dst e) (e_weight e) k) l k) = g_nodes k.
Proof. intros l. induction l as [|e l IH]; intros; cbn [fold_left]; [reflexivity | rewrite IH; reflexivity]. Qed.
Lemma copy_tree : forall l k new, (forall e, In e l -> tree_edge e = false) ->
  tree_targets (fold_left (fun k e => add_edge new (e_dst e) (e_weight e) k) l k) = tree_targets k.
Proof.
  intros l. induction l as [|e l IH]; intros k new F; cbn [fold_left]; [reflexivity|]. rewrite IH by (intros e' E; apply F; right; exact E).
  unfold tree_targets, add_edge. cbn [g_edges filter]. assert (T := F e (or_introl eq_refl)).
  unfold tree_edge in *. cbn [e_weight]. destruct (e_weight e); try discriminate; reflexivity.
Qed.
Lemma copied_in : forall k p e, In e (copied k p) <-> In e (g_edges k) /\ e_src e = p /\ (e_weight e = WSubgraph \/ e_weight e = WMutation).
Proof. intros. unfold copied. rewrite filter_In, edges_in, orb_true_iff, !weight_eqb_eq. tauto. Qed.

Lemma fresh_has : forall s d w, has (fresh_partition h r x) s d w <->
  has h s d w \/ (s = r /\ d = n0 + length own /\ w = WPartition) \/
  (s = n0 + length own /\ (w = WSubgraph \/ w = WMutation) /\ has h (fl_partition x) d w).
Proof.
  intros s d w. unfold fresh_partition. rewrite copy_has, add_edge_has. rewrite i_length. fold n0.
  change (has (add_node (node_at h (fl_partition x)) h) s d w) with (has h s d w). split.
  - intros [[H | H] | (-> & e & A & <- & <-)]; [tauto | tauto|]. apply copied_in in A. destruct A as (A & B & C).
    right. right. split; [reflexivity|]. split; [exact C|]. apply has_edge in A. apply add_edge_has in A.
    destruct A as [(_ & _ & A) | A]; [destruct C; congruence|]. rewrite B in A. exact A.
  - intros [H | [H | (-> & C & H)]]; [tauto | tauto | right; split; [reflexivity|]].
    exists {| e_src := fl_partition x; e_dst := d; e_weight := w |}. split; [|split; reflexivity].
    apply copied_in. cbn. split; [right; exact H | auto].
Qed.
Lemma fresh_nodes : g_nodes (fresh_partition h r x) = g_nodes h ++ [node_at h (fl_partition x)].
Proof. unfold fresh_partition. rewrite copy_nodes. reflexivity. Qed.
Lemma fresh_tree : tree_targets (fresh_partition h r x) = (n0 + length own) :: tree_targets h.
Proof.
  unfold fresh_partition. rewrite copy_tree.
  - unfold tree_targets, add_edge. cbn. rewrite i_length. reflexivity.
  - intros e E. apply copied_in in E. destruct E as (_ & _ & E). unfold tree_edge. destruct E as [-> | ->]; reflexivity.
Qed.

Lemma choose_none : choose h parts x = None -> exists y, In y L /\ fl_resolver y = fl_resolver x /\ fl_node y <> fl_node x /\
  (needs g (fl_node x) (fl_node y) \/ needs g (fl_node y) (fl_node x)).
Proof.
  unfold choose. intros C. destruct (find _ parts) eqn:F; [discriminate|]. clear C.
  destruct (L_in x XL) as (P & R & _).
  assert (In (fl_partition x, fl_resolver x) parts) as Q by (rewrite (i_parts _ _ _ _ _ I); apply parts_in; auto).
  assert (K := find_none _ _ F _ Q). cbn [fst snd] in K. rewrite Nat.eqb_refl in K. apply negb_false_iff in K.
  unfold connected in K. apply existsb_exists in K. destruct K as ([s d w] & E & K). apply edges_in in E. destruct E as [E S]. cbn in *. subst s.
  destruct w; try discriminate. assert (A := proj1 (i_fields _ _ d Q) E). destruct (i_asg _ _ _ _ _ I _ _ A) as (y & Y & <- & Py).
  assert (fl_node y <> fl_node x) as Ne by (intros Z; apply Fresh; rewrite <- Z; apply in_map; exact Y).
  exists y. split; [auto|]. split.
  { rewrite (i_parts _ _ _ _ _ I) in Py. apply parts_in in Py. destruct Py as [[_ Ry] | (i & z & _ & _ & Ez)].
    - destruct R as (e1 & R), Ry as (e2 & Ry). congruence.
    - destruct x_old. lia. }
  split; [exact Ne|]. apply orb_true_iff in K. rewrite !has_path_iff in K.
  destruct K as [[K | K] | [K | K]]; [congruence | right | congruence | left].
  - apply (i_needs (fl_node y)); [eapply asg_old; exact A | exact K].
  - apply (i_needs (fl_node x)); [apply x_old | exact K].
Qed.

Lemma inv_new : choose h parts x = None -> inv (done ++ [x]) (add_edge (length (g_nodes h)) (fl_node x) WField (fresh_partition h r x))
  (parts ++ [(length (g_nodes h), fl_resolver x)]) (own ++ [x]) ((length (g_nodes h), fl_node x) :: asg).
Proof.
  intros C0. assert (Why := choose_none C0). clear C0. rewrite i_length. constructor.
  - unfold add_edge. cbn [g_nodes]. rewrite fresh_nodes, (i_nodes _ _ _ _ _ I), map_app, app_assoc. cbn [map]. f_equal. f_equal.
    apply (node_at_app _ _ (i_nodes _ _ _ _ _ I)). apply x_old.
  - rewrite (i_parts _ _ _ _ _ I), <- app_assoc. f_equal. rewrite app_length, map_app. cbn [length map].
    rewrite Nat.add_1_r, seq_S.
    assert (forall (a : list nat) (b : list nat) u v, length a = length b -> combine (a ++ [u]) (b ++ [v]) = combine a b ++ [(u, v)]) as Q.
    { intros a. induction a as [|y a IH]; intros [|z b] u v E; try discriminate; [reflexivity|]. cbn in *. rewrite IH by lia. reflexivity. }
    rewrite Q; [reflexivity | rewrite seq_length, map_length; reflexivity].
  - intros s d w. rewrite add_edge_has, fresh_has, (i_has _ _ _ _ _ I), app_length. cbn [length In]. split.
    + intros [(-> & -> & ->) | [[H | [H | [H | H]]] | [(-> & -> & ->) | (-> & C & H)]]].
      * right. right. right. auto.
      * left. exact H.
      * right. left. destruct H as (A & B & H). split; [exact A | split; [exact B | lia]].
      * right. right. left. destruct H as (i & y & A & B). exists i, y. split; [|exact B].
        rewrite nth_error_app1; [exact A | eapply nth_error_lt; exact A].
      * right. right. right. tauto.
      * right. left. split; [reflexivity | split; [reflexivity | lia]].
      * right. right. left. exists (length own), x. rewrite nth_error_app2, Nat.sub_diag by lia. split; [reflexivity|].
        split; [reflexivity | split; [exact C|]]. apply (i_has _ _ _ _ _ I) in H. rewrite g1_has in H.
        destruct H as [[H _] | [(_ & -> & _) | [(i & y & _ & E & _) | (-> & _)]]]; [exact H | destruct C; discriminate | | destruct C; discriminate].
        destruct x_old as [_ B]. lia.
    + intros [H | [(-> & -> & H) | [(i & y & A & -> & C & H) | (-> & [H | H])]]].
      * tauto.
      * destruct (Nat.eq_dec d (n0 + length own)) as [-> | Ne]; [tauto|]. right. left. right. left. split; [reflexivity | split; [reflexivity | lia]].
      * destruct (Nat.eq_dec i (length own)) as [-> | Ne].
        { rewrite nth_error_app2, Nat.sub_diag in A by lia. injection A as <-. right. right. right. split; [reflexivity | split; [exact C|]].
          apply (i_has _ _ _ _ _ I). left. apply g1_has. split; [exact H|]. intros [-> _]. destruct C; discriminate. }
        { right. left. right. right. left. exists i, y. assert (i < length own) as B.
          { apply nth_error_lt in A. rewrite app_length in A. cbn in A. lia. }
          rewrite nth_error_app1 in A by exact B. auto. }
      * injection H as <- <-. tauto.
      * tauto.
  - intros s d [H | H].
    + injection H as <- <-. exists x. split; [apply in_or_app; right; left; reflexivity|]. split; [reflexivity|].
      apply in_or_app. right. left. reflexivity.
    + destruct (i_asg _ _ _ _ _ I _ _ H) as (y & Y & Q & K). exists y.
      split; [apply in_or_app; left; exact Y | split; [exact Q | apply in_or_app; left; exact K]].
  - cbn [map snd]. rewrite map_app, rev_app_distr, (i_done _ _ _ _ _ I). reflexivity.
  - assert (forall a, ~ In (n0 + length own, a) asg) as No.
    { intros a A. destruct (i_asg _ _ _ _ _ I _ _ A) as (y & _ & _ & K). apply i_bound in K. lia. }
    intros s a b [A | A] [B | B] Ne.
    + injection A as <- <-. injection B as <-. congruence.
    + injection A as <- <-. destruct (No _ B).
    + injection B as <- <-. destruct (No _ A).
    + eapply (i_sep _ _ _ _ _ I); eauto.
  - intros y Y. apply in_app_or in Y. destruct Y as [Y | [<- | []]]; [apply (i_own _ _ _ _ _ I); exact Y | exact XL].
  - intros y Y. apply in_app_or in Y. destruct Y as [Y | [<- | []]]; [apply (i_why _ _ _ _ _ I); exact Y | exact Why].
  - unfold tree_targets at 1, add_edge. cbn [g_edges filter tree_edge e_weight map e_dst snd app].
    constructor. fold (tree_targets (fresh_partition h r x)). rewrite fresh_tree, app_length. cbn [length].
    rewrite Nat.add_1_r, seq_S.
    eapply Permutation_trans; [constructor; exact (i_tree _ _ _ _ _ I)|].
    rewrite <- (app_assoc (seq n0 (length own))). cbn [app]. rewrite !(app_assoc (map snd asg)). apply Permutation_middle.
Qed.
End Place.

Lemma place_inv : forall l done h parts own asg, inv done h parts own asg -> incl l L -> incl done L -> NoDup (map fl_node (done ++ l)) ->
  exists own' asg', let st := fold_left (place r) l (h, parts) in inv (done ++ l) (fst st) (snd st) own' asg'.
Proof.
  intros l. induction l as [|x l IH]; intros done h parts own asg H LL DL D; cbn [fold_left].
  - rewrite app_nil_r. exists own, asg. exact H.
  - assert (~ In (fl_node x) (map fl_node done)) as Fresh.
    { rewrite map_app in D. cbn [map] in D. apply NoDup_remove_2 in D. intros Q. apply D, in_or_app. left. exact Q. }
    replace (done ++ x :: l) with ((done ++ [x]) ++ l) in * by (rewrite <- app_assoc; reflexivity).
    assert (incl (done ++ [x]) L) as DL'.
    { intros y Y. apply in_app_or in Y. destruct Y as [Y | [<- | []]]; [auto | apply LL; left; reflexivity]. }
    assert (incl l L) as LL' by (intros y Y; apply LL; right; exact Y).
    cbn [place]. destruct (choose h parts x) as [p|] eqn:C.
    + eapply IH; [eapply inv_old; eauto; apply LL; left; reflexivity | assumption | assumption | assumption].
    + eapply IH; [eapply inv_new; eauto; apply LL; left; reflexivity | assumption | assumption | assumption].
Qed.

(** ** The graph after the step *)
Variables (gs : graph) (parts : list (nat * nat)) (own : list fld) (asg : list (nat * nat)).
Hypothesis J : inv L gs parts own asg.

Definition depth' (n : nat) : nat := if n <? n0 then depth n else S (depth r).

Lemma gs_length : length (g_nodes gs) = n0 + length own. Proof. exact (i_length _ _ _ _ _ J). Qed.
Lemma gs_node : forall n, n < n0 -> node_at gs n = node_at g n.
Proof. exact (node_at_app _ _ (i_nodes _ _ _ _ _ J)). Qed.
Lemma gs_new_node : forall i x, nth_error own i = Some x -> node_at gs (n0 + i) = node_at g (fl_partition x).
Proof.
  intros i x H. unfold node_at at 1. rewrite (i_nodes _ _ _ _ _ J), app_nth2 by (unfold n0; lia). unfold n0.
  replace (length (g_nodes g) + i - length (g_nodes g)) with i by lia. apply nth_error_nth. rewrite nth_error_map, H. reflexivity.
Qed.
Lemma own_in : forall i x, nth_error own i = Some x -> has g r (fl_partition x) WPartition /\ resolver_of g (fl_partition x) (fl_resolver x).
Proof. intros i x H. apply nth_error_In in H. apply (i_own _ _ _ _ _ J) in H. destruct (L_in x H) as (A & B & _). auto. Qed.
Lemma own_nth : forall n, n0 <= n < n0 + length own -> exists i x, nth_error own i = Some x /\ n = n0 + i.
Proof.
  intros n H. destruct (nth_error own (n - n0)) as [x|] eqn:E; [|apply nth_error_None in E; lia].
  exists (n - n0), x. split; [exact E | lia].
Qed.
Lemma own_r : 0 < length own -> r < n0 /\ ~ is_partition g r.
Proof.
  intros H. destruct (own_nth n0) as (i & x & O & _); [lia|]. destruct (own_in _ _ O) as [A _].
  split; [eapply old_src; exact A | apply (wf_partition _ _ WF _ _ A)].
Qed.
Lemma asg_in : forall s d, In (s, d) asg -> exists x, In x L /\ fl_node x = d /\
  ((has g r s WPartition /\ resolver_of g s (fl_resolver x)) \/ exists i y, nth_error own i = Some y /\ fl_resolver y = fl_resolver x /\ s = n0 + i).
Proof.
  intros s d H. destruct (i_asg _ _ _ _ _ J _ _ H) as (x & X & E & P). rewrite (i_parts _ _ _ _ _ J) in P. apply parts_in in P.
  exists x. auto.
Qed.
Lemma asg_all : forall x, In x L -> exists s, In (s, fl_node x) asg.
Proof.
  intros x H. assert (In (fl_node x) (map snd asg)) as K by (rewrite (i_done _ _ _ _ _ J), <- in_rev; apply in_map; exact H).
  apply in_map_iff in K. destruct K as ([s d] & E & K). cbn in E. subst d. exists s. exact K.
Qed.

(** Edges between old nodes. *)
Lemma gs_has : forall s d w, s < n0 -> d < n0 -> ~ (is_partition g s /\ w = WField) -> (has gs s d w <-> has g s d w).
Proof.
  intros s d w A B N. rewrite (i_has _ _ _ _ _ J), g1_has. split.
  - intros [[H _] | [(_ & _ & H) | [(i & x & _ & -> & _) | (-> & H)]]]; [exact H | lia | lia|].
    exfalso. apply N. split; [|reflexivity]. destruct (asg_in _ _ H) as (x & _ & _ & [[P _] | (i & y & _ & _ & ->)]); [|lia].
    apply (wf_partition _ _ WF _ _ P).
  - intros H. left. split; [exact H|]. intros [-> P]. apply N. split; [apply (wf_partition _ _ WF _ _ P) | reflexivity].
Qed.
Lemma gs_required : forall s d w, s < n0 -> w = WSubgraph \/ w = WMutation -> (has gs s d w <-> has g s d w).
Proof.
  intros s d w A W. rewrite (i_has _ _ _ _ _ J), g1_has. split.
  - intros [[H _] | [(_ & -> & _) | [(i & x & _ & -> & _) | (-> & _)]]]; [exact H | destruct W; discriminate | lia | destruct W; discriminate].
  - intros H. left. split; [exact H|]. intros [-> _]. destruct W; discriminate.
Qed.
Lemma gs_copied : forall i x d w, nth_error own i = Some x -> w = WSubgraph \/ w = WMutation ->
  (has gs (n0 + i) d w <-> has g (fl_partition x) d w).
Proof.
  intros i x d w O W. rewrite (i_has _ _ _ _ _ J), g1_has. split.
  - intros [[H _] | [(_ & -> & _) | [(k & y & H & E & _ & Q) | (-> & _)]]].
    + apply old_src in H. lia.
    + destruct W; discriminate.
    + assert (k = i) as -> by lia. rewrite O in H. injection H as <-. exact Q.
    + destruct W; discriminate.
  - intros H. right. right. left. exists i, x. auto.
Qed.
Lemma gs_partition : forall s p, has gs s p WPartition <->
  has g s p WPartition \/ (s = r /\ n0 <= p < n0 + length own).
Proof.
  intros s p. rewrite (i_has _ _ _ _ _ J), g1_has. split.
  - intros [[H _] | [(-> & _ & H) | [(i & x & _ & _ & [? | ?] & _) | (? & _)]]]; try discriminate; [left; exact H | right; auto].
  - intros [H | (-> & H)]; [left; split; [exact H | intros [? _]; discriminate] | right; left; auto].
Qed.
(** Below other nodes nothing changes. *)
Lemma gs_field : forall p f, has gs p f WField <-> (has g p f WField /\ ~ has g r p WPartition) \/ In (p, f) asg.
Proof.
  intros p f. rewrite (i_has _ _ _ _ _ J), g1_has. split.
  - intros [[H N] | [(_ & ? & _) | [(i & x & _ & _ & [? | ?] & _) | (_ & H)]]]; try discriminate; [left; split; [exact H | tauto] | right; exact H].
  - intros [[H N] | H]; [left; split; [exact H | tauto] | right; right; right; auto].
Qed.
Lemma one_parent : forall a b p, has g a p WPartition -> has g b p WPartition -> a = b.
Proof. intros a b p A B. assert (E := tree_unique g wf_tree _ _ A B eq_refl eq_refl eq_refl). injection E as ->. reflexivity. Qed.
Lemma gs_other : forall s p f, s <> r -> has g s p WPartition -> (has gs p f WField <-> has g p f WField).
Proof.
  intros s p f Ne P. rewrite gs_field. split.
  - intros [[H _] | H]; [exact H|]. exfalso. destruct (asg_in _ _ H) as (x & _ & _ & [[Q _] | (i & y & _ & _ & ->)]).
    + apply Ne. eapply one_parent; eassumption.
    + apply old_dst in P. lia.
  - intros H. left. split; [exact H|]. intros Q. apply Ne. eapply one_parent; eassumption.
Qed.

Lemma gs_tree : NoDup (tree_targets gs).
Proof.
  eapply Permutation_NoDup; [apply Permutation_sym; exact (i_tree _ _ _ _ _ J)|].
  assert (forall d, In d (tree_targets g1) -> d < n0) as Old.
  { intros d H. apply tree_targets_in in H. destruct H as (e & H & _ & <-). apply has_edge in H. apply g1_has in H. eapply old_dst. apply H. }
  rewrite (i_done _ _ _ _ _ J). apply NoDup_app_intro; [apply NoDup_rev, L_NoDup | apply NoDup_app_intro; [apply seq_NoDup | apply g1_tree|]|].
  - intros d H K. apply in_seq in H. apply Old in K. lia.
  - intros d H K. apply in_rev in H. apply in_map_iff in H. destruct H as (x & <- & H). destruct (L_in x H) as (P & _ & F).
    apply in_app_or in K. destruct K as [K | K].
    + apply in_seq in K. apply old_dst in F. lia.
    + apply tree_targets_in in K. destruct K as (e & K & T & E). apply has_edge in K. apply g1_has in K. destruct K as [K N].
      assert (U := tree_unique g wf_tree _ _ K F T eq_refl E). destruct e as [s d w]. cbn in *. injection U as -> -> ->. apply N. auto.
Qed.

Lemma gs_is_partition : forall n, n < n0 -> (is_partition gs n <-> is_partition g n).
Proof. intros n H. unfold is_partition. rewrite gs_node by exact H. reflexivity. Qed.
Lemma gs_resolver : forall s p res, has gs s p WPartition -> resolver_of gs p res ->
  exists p0, has g s p0 WPartition /\ resolver_of g p0 res /\ node_at gs p = node_at g p0 /\
    (forall d, has gs p d WSubgraph <-> has g p0 d WSubgraph) /\ (forall d, has gs p d WMutation <-> has g p0 d WMutation) /\ (p < n0 -> p0 = p).
Proof.
  intros s p res H R. apply gs_partition in H. destruct H as [H | (-> & H)].
  - exists p. assert (B := old_dst _ _ _ H). unfold resolver_of in R. rewrite gs_node in R by exact B.
    split; [exact H | split; [exact R | split; [apply gs_node; exact B|]]].
    split; [intros d; apply gs_required; auto | split; [intros d; apply gs_required; auto | auto]].
  - destruct (own_nth _ H) as (i & x & O & ->). destruct (own_in _ _ O) as [A B]. exists (fl_partition x).
    unfold resolver_of in R. rewrite (gs_new_node _ _ O) in R. split; [exact A | split; [exact R | split; [apply (gs_new_node _ _ O)|]]].
    split; [intros d; apply gs_copied; auto | split; [intros d; apply gs_copied; auto | lia]].
Qed.
(** The fields of a partition come from one with the same resolver beside it. *)
Lemma gs_origin : forall s p f, has gs s p WPartition -> has gs p f WField ->
  exists q res, has g s q WPartition /\ has g q f WField /\ resolver_of gs p res /\ resolver_of g q res.
Proof.
  intros s p f H K. apply gs_field in K. destruct K as [[K N] | K].
  - apply gs_partition in H. destruct H as [H | (_ & H)]; [|apply old_src in K; lia].
    destruct (wf_resolver _ _ H) as (res & R). exists p, res. split; [exact H | split; [exact K | split; [|exact R]]].
    unfold resolver_of. rewrite gs_node; [exact R | eapply old_dst; exact H].
  - destruct (asg_in _ _ K) as (x & X & <- & C). destruct (L_in x X) as (P & R & F). exists (fl_partition x), (fl_resolver x).
    assert (s = r) as ->.
    { apply gs_partition in H. destruct C as [[C _] | (i & y & _ & _ & ->)]; destruct H as [H | (-> & H)]; try reflexivity.
      - eapply one_parent; eassumption.
      - apply old_dst in H. lia. }
    split; [exact P | split; [exact F | split; [|exact R]]].
    destruct C as [[C Rc] | (i & y & O & E & ->)].
    + unfold resolver_of. rewrite gs_node; [exact Rc | eapply old_dst; exact C].
    + unfold resolver_of. rewrite (gs_new_node _ _ O), <- E. apply (own_in _ _ O).
Qed.

Lemma gs_wf : well_formed depth' gs.
Proof.
  constructor.
  - intros e H. apply has_edge in H. rewrite gs_length. apply (i_has _ _ _ _ _ J) in H. rewrite g1_has in H.
    destruct H as [[H _] | [(-> & _ & H) | [(i & x & O & -> & _ & H) | (_ & H)]]].
    + split; [apply old_src in H | apply old_dst in H]; lia.
    + destruct own_r as [A _]; [lia|]. lia.
    + apply nth_error_lt in O. apply old_dst in H. lia.
    + destruct (asg_in _ _ H) as (x & X & <- & C). destruct (L_in x X) as (_ & _ & F). apply old_dst in F.
      destruct C as [[C _] | (i & y & O & _ & ->)]; [apply old_dst in C; lia | apply nth_error_lt in O; lia].
  - exact gs_tree.
  - intros e H T. apply has_edge in H. apply (i_has _ _ _ _ _ J) in H. rewrite g1_has in H.
    destruct H as [[H _] | [(E & _ & H) | [(i & x & _ & _ & [W | W] & _) | (_ & H)]]].
    + unfold depth'. assert (A := old_src _ _ _ H). assert (B := old_dst _ _ _ H). apply Nat.ltb_lt in A. apply Nat.ltb_lt in B.
      rewrite A, B. apply (wf_depth _ _ WF); [apply has_edge; exact H | exact T].
    + destruct own_r as [A _]; [lia|]. rewrite E. unfold depth'. apply Nat.ltb_lt in A. rewrite A.
      destruct (e_dst e <? n0) eqn:B; [apply Nat.ltb_lt in B; lia | reflexivity].
    + unfold tree_edge in T. rewrite W in T. discriminate.
    + unfold tree_edge in T. rewrite W in T. discriminate.
    + destruct (asg_in _ _ H) as (x & X & <- & C). destruct (L_in x X) as (P & _ & F).
      assert (Df := wf_depth _ _ WF _ F eq_refl). assert (Dp := wf_depth _ _ WF _ P eq_refl). cbn in Df, Dp.
      assert (B := old_dst _ _ _ F). unfold depth'. rewrite (proj2 (Nat.ltb_lt _ _) B). rewrite Df, Dp. f_equal.
      destruct C as [[C _] | (i & y & O & _ & ->)].
      * assert (Dc := wf_depth _ _ WF _ C eq_refl). cbn in Dc. rewrite (proj2 (Nat.ltb_lt _ _) (old_dst _ _ _ C)). congruence.
      * destruct (n0 + i <? n0) eqn:Q; [apply Nat.ltb_lt in Q; lia | reflexivity].
  - intros s d H. apply gs_partition in H. destruct H as [H | (-> & H)].
    + rewrite !gs_is_partition by (first [eapply old_dst; exact H | eapply old_src; exact H]). apply (wf_partition _ _ WF _ _ H).
    + destruct own_r as [A B]; [lia|]. rewrite (gs_is_partition r A). split; [|exact B].
      destruct (own_nth _ H) as (i & x & O & ->). unfold is_partition. rewrite (gs_new_node _ _ O).
      destruct (own_in _ _ O) as [_ (e & R)]. exists e, (fl_resolver x). exact R.
  - intros s d H. apply gs_field in H. destruct H as [[H _] | H].
    + unfold is_field. rewrite gs_node; [eapply wf_field; eauto | eapply old_dst; exact H].
    + destruct (asg_in _ _ H) as (x & X & <- & _). destruct (L_in x X) as (_ & _ & F).
      unfold is_field. rewrite gs_node; [eapply wf_field; eauto | eapply old_dst; exact F].
  - intros s d H. apply (i_has _ _ _ _ _ J) in H. rewrite g1_has in H.
    assert (exists u, has g u d WSubgraph) as (u & U).
    { destruct H as [[H _] | [(_ & ? & _) | [(i & x & _ & _ & _ & H) | (? & _)]]]; try discriminate; eexists; exact H. }
    unfold is_field. rewrite gs_node; [eapply wf_required; eauto | eapply old_dst; exact U].
  - intros s p q res d w P Q Rp Rq F W.
    destruct (gs_origin _ _ _ P F) as (u & res' & A & B & Rp' & Ru).
    assert (res' = res) as -> by (destruct Rp as (e1 & E1), Rp' as (e2 & E2); congruence).
    destruct (gs_resolver _ _ _ Q Rq) as (v & Hv & Rv & _ & Rs & Rm & Vq).
    assert (Pd := old_dst _ _ _ B).
    assert (forall w', has g v d w' -> w' = WField) as K by (intros w'; exact (wf_own _ _ WF _ _ _ _ _ _ A Hv Ru Rv B)).
    apply (i_has _ _ _ _ _ J) in W. rewrite g1_has in W.
    destruct W as [[W _] | [(_ & _ & W) | [(i & x & O & -> & [-> | ->] & W) | (-> & _)]]].
    + rewrite Vq in K by (eapply old_src; exact W). auto.
    + lia.
    + apply K, Rs. apply (gs_copied _ _ _ _ O); auto.
    + apply K, Rm. apply (gs_copied _ _ _ _ O); auto.
    + reflexivity.
Qed.

Lemma gs_separated : separated gs r.
Proof.
  intros p a b P A B Ne N.
  assert (forall f, has gs p f WField -> In (p, f) asg) as All.
  { intros f F. apply gs_field in F. destruct F as [[F Q] | F]; [|exact F]. apply gs_partition in P. destruct P as [P | (_ & P)]; [contradiction|].
    apply old_src in F. lia. }
  apply (i_sep _ _ _ _ _ J p a b (All _ A) (All _ B) Ne). apply (i_needs _ _ _ _ _ J); [|exact N].
  destruct (asg_in _ _ (All _ A)) as (x & X & <- & _). destruct (L_in x X) as (_ & _ & F). eapply old_dst; exact F.
Qed.

Lemma gs_kept : kept g gs.
Proof.
  constructor.
  - fold n0. rewrite gs_length. split; [lia | exact gs_node].
  - fold n0. rewrite gs_length. intros n A B. destruct (own_nth n (conj A B)) as (i & x & O & ->).
    unfold is_partition. rewrite (gs_new_node _ _ O). destruct (own_in _ _ O) as [_ (e & R)]. exists e, (fl_resolver x). exact R.
  - fold n0. rewrite gs_length. intros B. destruct (own_nth n0) as (i & x & O & _); [lia|]. exists r.
    assert (X := nth_error_In _ _ O). destruct (i_why _ _ _ _ _ J x X) as (y & Y & E & Ne & K).
    destruct (L_in x (i_own _ _ _ _ _ J x X)) as (Px & Rx & Fx). destruct (L_in y Y) as (Py & Ry & Fy). rewrite E in Ry.
    destruct K as [K | K].
    + exists (fl_partition x), (fl_partition y), (fl_resolver x), (fl_node x), (fl_node y). auto 10.
    + exists (fl_partition y), (fl_partition x), (fl_resolver x), (fl_node y), (fl_node x). auto 10.
  - exact gs_has.
  - intros s p f P F. destruct (wf_resolver _ _ P) as (res & R). assert (B := old_dst _ _ _ P). destruct (Nat.eq_dec s r) as [-> | Ne].
    + destruct (fields_all _ _ P F) as (x & X & <- & <-). apply (Permutation_in _ LP) in X. destruct (L_in x X) as (_ & Rx & _).
      destruct (asg_all x X) as (p' & A). exists p'.
      assert (has gs r p' WPartition /\ resolver_of gs p' (fl_resolver x)) as [P' R'].
      { destruct (asg_in _ _ A) as (y & Y & E & C).
        assert (y = x) as ->.
        { exact (node_unique L L_NoDup _ _ Y X E). }
        destruct C as [[C Rc] | (i & z & O & Ez & ->)].
        - split; [apply gs_partition; auto|]. unfold resolver_of. rewrite gs_node; [exact Rc | eapply old_dst; exact C].
        - split; [apply gs_partition; right; apply nth_error_lt in O; lia|]. unfold resolver_of. rewrite (gs_new_node _ _ O), <- Ez. apply (own_in _ _ O). }
      split; [exact P' | split; [apply gs_field; right; exact A|]].
      destruct (gs_resolver _ _ _ P' R') as (p0 & H0 & R0 & N0 & S0 & M0 & _). exists p0, (fl_resolver x).
      split; [exact Rx | split; [exact R0 | split; [exact H0 | split; [exact N0 | split; [exact S0 | exact M0]]]]].
    + exists p. split; [apply gs_partition; auto | split; [apply (gs_other _ _ _ Ne P); exact F|]].
      exists p, res. split; [exact R | split; [exact R | split; [exact P | split; [apply gs_node; exact B|]]]].
      split; intros d; apply gs_required; auto.
  - intros p q f P Q. assert (E := tree_unique gs gs_tree _ _ P Q eq_refl eq_refl eq_refl). injection E as ->. reflexivity.
  - intros s p f P F. destruct (gs_origin _ _ _ P F) as (q & res & A & B & C & D). exists q, res. auto.
  - intros s p P. assert (exists res, resolver_of gs p res) as (res & R).
    { apply gs_partition in P. destruct P as [P | (-> & P)].
      - destruct (wf_resolver _ _ P) as (res & R). exists res. unfold resolver_of. rewrite gs_node; [exact R | eapply old_dst; exact P].
      - destruct (own_nth _ P) as (i & x & O & ->). exists (fl_resolver x). unfold resolver_of. rewrite (gs_new_node _ _ O). apply (own_in _ _ O). }
    destruct (gs_resolver _ _ _ P R) as (p0 & H0 & _ & N0 & S0 & M0 & _). exists p0.
    split; [exact H0 | split; [exact N0 | split; [exact S0 | exact M0]]].
  - exact (i_needs _ _ _ _ _ J).
Qed.
End Step.
