From Coq Require Import List Arith NArith Bool Lia Sorting.Sorted Sorting.Permutation FinFun.
From Verif.Scheduler Require Import Model Spec.
Import ListNotations.

Lemma exec_eqb_eq : forall a b, exec_eqb a b = true <-> a = b.
Proof.
  intros [x|x] [y|y]; cbn [exec_eqb]; rewrite ?Nat.eqb_eq; split; intros H; try congruence; try discriminate H.
Qed.
Lemma exec_eqb_refl : forall a, exec_eqb a a = true.
Proof. intros a. apply exec_eqb_eq. reflexivity. Qed.
Lemma exec_eqb_neq : forall a b, a <> b -> exec_eqb a b = false.
Proof. intros a b N. destruct (exec_eqb a b) eqn:E; [apply exec_eqb_eq in E; contradiction|reflexivity]. Qed.
Lemma exec_eqb_sym : forall a b, exec_eqb a b = exec_eqb b a.
Proof. intros [x|x] [y|y]; cbn [exec_eqb]; try reflexivity; apply Nat.eqb_sym. Qed.
Definition exec_dec (a b : exec) : {a = b} + {a <> b}.
Proof. decide equality; apply Nat.eq_dec. Defined.

(** * The graph as a list of edges *)
Notation edge := (exec * exec)%type.
Definition addE (g : graph) (e : edge) : graph := add_edge g (fst e) (snd e).
Definition children (E : list edge) (x : exec) : list exec := map snd (filter (fun e => exec_eqb (fst e) x) E).
Definition incoming (E : list edge) (x : exec) : nat := length (filter (fun e => exec_eqb (snd e) x) E).
Lemma filter_app' : forall (A : Type) (f : A -> bool) a b, filter f (a ++ b) = filter f a ++ filter f b.
Proof. intros A f a b. induction a as [|x a IH]; [reflexivity|]. cbn [app filter]. destruct (f x); rewrite IH; reflexivity. Qed.
Lemma fold_addE : forall E, (forall x, g_children (fold_left addE E empty) x = children E x) /\
  (forall x, g_count (fold_left addE E empty) x = N.of_nat (incoming E x)).
Proof.
  intros E. induction E as [|[a b] E [IH1 IH2]] using rev_ind; [split; reflexivity|]. rewrite fold_left_app. cbn [fold_left]. unfold addE at 1 3. unfold add_edge.
  cbn [fst snd g_children g_count]. unfold children, incoming in *. split; intros x; rewrite filter_app'; cbn [filter fst snd].
  - rewrite IH1, map_app. rewrite (exec_eqb_sym a x). destruct (exec_eqb x a); cbn [map]; [reflexivity|rewrite app_nil_r; reflexivity].
  - rewrite IH2, app_length. rewrite (exec_eqb_sym b x). destruct (exec_eqb x b); cbn [length]; rewrite Nat2N.inj_add; [reflexivity|]. symmetry. apply N.add_0_r.
Qed.

Definition dep_edges (modifiers : list (nat * nat)) (dep : exec * nat) : list edge :=
  (P (snd dep), fst dep) :: match fst dep with P q => map (fun m => (M m, P q)) (find_all (snd dep) modifiers) | M _ => [] end.
Definition edges (d : description) : list edge :=
  let modifiers := sort_pairs (d_partition_modifiers d) in
  map (fun pm => (P (fst pm), M (snd pm))) modifiers ++ flat_map (dep_edges modifiers) (d_dependencies d) ++
  map (fun w => (P (fst w), P (snd w))) (windows (d_mutation_order d)).
Lemma fold_map : forall (A B C : Type) (f : A -> B -> A) (h : C -> B) l a, fold_left f (map h l) a = fold_left (fun a c => f a (h c)) l a.
Proof. intros A B C f h l. induction l as [|x l IH]; intros a; [reflexivity|]. cbn [map fold_left]. apply IH. Qed.
Lemma finalize_edges : forall d, finalize d = fold_left addE (edges d) empty.
Proof.
  intros d. unfold finalize, edges. rewrite !fold_left_app. cbv zeta.
  assert (A : forall l g, fold_left add_modifier l g = fold_left addE (map (fun pm => (P (fst pm), M (snd pm))) l) g).
  { intros l. induction l as [|x l IH]; intros g; [reflexivity|]. cbn [map fold_left]. apply IH. }
  assert (B : forall l g, fold_left add_order l g = fold_left addE (map (fun w => (P (fst w), P (snd w))) l) g).
  { intros l. induction l as [|x l IH]; intros g; [reflexivity|]. cbn [map fold_left]. apply IH. }
  assert (D : forall ms l g, fold_left (add_dependency ms) l g = fold_left addE (flat_map (dep_edges ms) l) g).
  { intros ms l. induction l as [|[x p] l IH]; intros g; [reflexivity|]. cbn [flat_map fold_left]. rewrite fold_left_app, IH. f_equal.
    unfold add_dependency, dep_edges. cbn [fst snd]. destruct x as [q|m]; cbn [fold_left]; [|reflexivity].
    rewrite (fold_map graph edge nat addE (fun m => (M m, P q))). reflexivity. }
  rewrite A, D, B. reflexivity.
Qed.

(** * The sorted list of modifiers *)
Lemma insert_pair_perm : forall p l, Permutation (insert_pair p l) (p :: l).
Proof.
  intros p l. induction l as [|x l IH]; [apply Permutation_refl|]. cbn [insert_pair]. destruct (pair_leb p x); [apply Permutation_refl|].
  eapply perm_trans; [apply perm_skip; exact IH|apply perm_swap].
Qed.
Lemma sort_pairs_perm : forall l, Permutation (sort_pairs l) l.
Proof.
  intros l. induction l as [|p l IH]; [apply Permutation_refl|]. cbn [sort_pairs fold_right]. fold (sort_pairs l).
  eapply perm_trans; [apply insert_pair_perm|apply perm_skip; exact IH].
Qed.
Definition key_le (a b : nat * nat) : Prop := fst a <= fst b.
Lemma pair_leb_true : forall a b, pair_leb a b = true -> key_le a b.
Proof.
  intros a b H. unfold pair_leb in H. unfold key_le. apply orb_true_iff in H. destruct H as [H|H]; [apply Nat.ltb_lt in H; lia|].
  apply andb_true_iff in H. destruct H as [H _]. apply Nat.eqb_eq in H. lia.
Qed.
Lemma pair_leb_false : forall a b, pair_leb a b = false -> key_le b a.
Proof.
  intros a b H. unfold pair_leb in H. unfold key_le. apply orb_false_iff in H. destruct H as [H _]. apply Nat.ltb_ge in H. lia.
Qed.
Lemma insert_pair_sorted : forall p l, StronglySorted key_le l -> StronglySorted key_le (insert_pair p l).
Proof.
  intros p l S. induction S as [|x l S IH F]; [constructor; [constructor|constructor]|]. cbn [insert_pair]. destruct (pair_leb p x) eqn:E.
  - apply pair_leb_true in E. constructor; [constructor; assumption|]. constructor; [exact E|]. eapply Forall_impl; [|exact F].
    unfold key_le in *. intros a. lia.
  - apply pair_leb_false in E. constructor; [exact IH|]. apply (Permutation_Forall (Permutation_sym (insert_pair_perm p l))). constructor; assumption.
Qed.
Lemma sort_pairs_sorted : forall l, StronglySorted key_le (sort_pairs l).
Proof. intros l. induction l as [|p l IH]; [constructor|]. cbn [sort_pairs fold_right]. apply insert_pair_sorted. exact IH. Qed.
Lemma find_all_spec : forall l k m, StronglySorted key_le l -> In m (find_all k l) <-> In (k, m) l.
Proof.
  intros l k m S. unfold find_all. induction S as [|x l S IH F]; [reflexivity|]. cbn [skip_below]. rewrite Forall_forall in F. destruct (fst x <? k) eqn:E.
  - apply Nat.ltb_lt in E. rewrite IH. cbn [In]. split; [auto|]. intros [->|I]; [cbn [fst] in E; lia|exact I].
  - apply Nat.ltb_ge in E. clear IH. assert (G : forall l', (forall y, In y l' -> k <= fst y) -> StronglySorted key_le l' -> In m (take_equal k l') <-> In (k, m) l').
    { intros l'. induction l' as [|y l' IHl]; intros H S'; [reflexivity|]. cbn [take_equal]. apply StronglySorted_inv in S'. destruct S' as [S' F'].
      rewrite Forall_forall in F'. pose proof (H y (or_introl eq_refl)) as Hy. destruct (fst y =? k) eqn:Ey.
      - apply Nat.eqb_eq in Ey. cbn [In]. rewrite IHl; [|intros z I; apply H; right; exact I|exact S'].
        split; intros [A|A]; [left; destruct y; cbn [fst snd] in *; congruence|auto|left; rewrite A; reflexivity|auto].
      - apply Nat.eqb_neq in Ey. split; [intros []|]. intros [->|I]; [cbn [fst] in Ey; congruence|]. specialize (F' _ I). unfold key_le in F'. cbn [fst] in F'. lia. }
    apply G; [|constructor; [exact S|apply Forall_forall; exact F]]. intros y [<-|I]; [exact E|]. specialize (F y I). unfold key_le in F. lia.
Qed.
Lemma windows_spec : forall l a b, In (a, b) (windows l) <-> exists before after, l = before ++ a :: b :: after.
Proof.
  intros l a b. induction l as [|x l IH]; [split; [intros []|intros (u & v & E); destruct u; discriminate E]|].
  destruct l as [|y l].
  - split; [intros []|]. intros (u & v & E). destruct u as [|? [|? u]]; discriminate E.
  - change (windows (x :: y :: l)) with ((x, y) :: windows (y :: l)). cbn [In]. rewrite IH. split.
    + intros [E|(u & v & E)]; [injection E as -> ->; exists [], l; reflexivity|]. exists (x :: u), v. rewrite E. reflexivity.
    + intros (u & v & E). destruct u as [|z u]; [left; cbn [app] in E; congruence|]. right. cbn [app] in E. injection E as -> E. eauto.
Qed.
Lemma edges_depends : forall d y x, In (y, x) (edges d) <-> depends d y x.
Proof.
  intros d y x. unfold edges. rewrite !in_app_iff. split.
  - intros [I|[I|I]].
    + apply in_map_iff in I. destruct I as ([p m] & E & I). injection E as <- <-. apply D_modifier. apply (Permutation_in _ (sort_pairs_perm _)). exact I.
    + apply in_flat_map in I. destruct I as ([z p] & I & J). unfold dep_edges in J. cbn [fst snd] in J. destruct J as [E|J].
      * injection E as <- <-. apply D_dependency. exact I.
      * destruct z as [q|m]; [|destruct J]. apply in_map_iff in J. destruct J as (m & E & J). injection E as <- <-.
        apply find_all_spec in J; [|apply sort_pairs_sorted]. apply (Permutation_in _ (sort_pairs_perm _)) in J. eapply D_modified; eassumption.
    + apply in_map_iff in I. destruct I as ([a b] & E & I). injection E as <- <-. apply windows_spec in I. destruct I as (u & v & I). eapply D_order; exact I.
  - intros H. destruct H as [p m I|p x I|p m q I J|u a b v E].
    + left. apply in_map_iff. exists (p, m). split; [reflexivity|]. apply (Permutation_in _ (Permutation_sym (sort_pairs_perm _))). exact I.
    + right; left. apply in_flat_map. exists (x, p). split; [exact I|]. left; reflexivity.
    + right; left. apply in_flat_map. exists (P q, p). split; [exact J|]. right. cbn [fst snd]. apply in_map_iff. exists m. split; [reflexivity|].
      apply find_all_spec; [apply sort_pairs_sorted|]. apply (Permutation_in _ (Permutation_sym (sort_pairs_perm _))). exact I.
    + right; right. apply in_map_iff. exists (a, b). split; [reflexivity|]. apply windows_spec. eauto.
Qed.
Lemma depends_valid : forall d y x, well_formed d -> depends d y x -> valid d y /\ valid d x.
Proof.
  intros d y x (W1 & W2 & W3 & W4) H. destruct H as [p m I|p x I|p m q I J|u a b v E].
  - apply W1 in I. exact I.
  - apply W2 in I. destruct I as [A B]. split; [exact B|exact A].
  - apply W1 in I. apply W2 in J. destruct I as [_ I]. destruct J as [J _]. split; assumption.
  - split; apply W3; rewrite E; apply in_or_app; right; [left; reflexivity|right; left; reflexivity].
Qed.

(** * Pending dependencies *)
Definition mem (x : exec) (l : list exec) : bool := existsb (exec_eqb x) l.
Lemma mem_spec : forall x l, mem x l = true <-> In x l.
Proof.
  intros x l. unfold mem. rewrite existsb_exists. split; [intros (y & I & E); apply exec_eqb_eq in E; subst; exact I|].
  intros I. exists x. split; [exact I|apply exec_eqb_refl].
Qed.
Definition pending (E : list edge) (fin : list exec) (x : exec) : nat :=
  length (filter (fun e => exec_eqb (snd e) x && negb (mem (fst e) fin)) E).
Definition occ (l : list exec) (x : exec) : nat := count_occ exec_dec l x.
Lemma occ_cons : forall y l x, occ (y :: l) x = (if exec_eqb y x then 1 else 0) + occ l x.
Proof.
  intros y l x. unfold occ. cbn [count_occ]. destruct (exec_dec y x) as [->|N]; [rewrite exec_eqb_refl; reflexivity|]. rewrite exec_eqb_neq by exact N. reflexivity.
Qed.
Lemma pending_nil : forall E x, pending E [] x = incoming E x.
Proof. intros E x. unfold pending, incoming. f_equal. apply filter_ext. intros e. cbn [mem existsb negb]. apply andb_true_r. Qed.
Lemma pending_finish : forall E fin y x, ~ In y fin -> pending E fin x = pending E (fin ++ [y]) x + occ (children E y) x.
Proof.
  intros E fin y x N. unfold pending, children. induction E as [|[a b] E IH]; [reflexivity|]. cbn [filter fst snd].
  assert (Mm : mem a (fin ++ [y]) = mem a fin || exec_eqb a y).
  { unfold mem. rewrite existsb_app. cbn [existsb]. rewrite orb_false_r. reflexivity. }
  rewrite Mm. destruct (exec_eqb a y) eqn:Ey.
  - assert (Ma : mem a fin = false).
    { destruct (mem a fin) eqn:M0; [|reflexivity]. apply mem_spec in M0. apply exec_eqb_eq in Ey. subst. contradiction. }
    rewrite Ma. cbn [orb negb map snd]. rewrite andb_false_r, andb_true_r, occ_cons. destruct (exec_eqb b x); cbn [length]; lia.
  - rewrite orb_false_r. destruct (exec_eqb b x && negb (mem a fin)); cbn [length]; lia.
Qed.
Lemma pending_zero : forall E fin x, pending E fin x = 0 <-> forall y, In (y, x) E -> In y fin.
Proof.
  intros E fin x. unfold pending. split.
  - intros H y I. destruct (mem y fin) eqn:Em; [apply mem_spec; exact Em|].
    assert (J : In (y, x) (filter (fun e => exec_eqb (snd e) x && negb (mem (fst e) fin)) E)).
    { apply filter_In. split; [exact I|]. cbn [fst snd]. rewrite exec_eqb_refl, Em. reflexivity. }
    destruct (filter _ E); [destruct J|discriminate H].
  - intros H. destruct (filter _ E) as [|[y z] l] eqn:Ef; [reflexivity|].
    assert (J : In (y, z) (filter (fun e => exec_eqb (snd e) x && negb (mem (fst e) fin)) E)) by (rewrite Ef; left; reflexivity).
    apply filter_In in J. destruct J as [J K]. cbn [fst snd] in K. apply andb_true_iff in K. destruct K as [K1 K2]. apply exec_eqb_eq in K1. subst z.
    apply H in J. apply mem_spec in J. rewrite J in K2. discriminate K2.
Qed.

(** * next_executables *)
Lemma next_spec : forall l c, (forall x, (N.of_nat (occ l x) <= c x)%N) ->
  exists c' ready, next_executables c l = Some (c', ready) /\ (forall x, c' x = (c x - N.of_nat (occ l x))%N) /\ NoDup ready /\
  forall x, In x ready <-> 0 < occ l x /\ c x = N.of_nat (occ l x).
Proof.
  intros l. induction l as [|y l IH]; intros c H.
  - exists c, []. split; [reflexivity|]. split; [intros x; unfold occ; cbn; lia|]. split; [constructor|]. intros x. unfold occ. cbn. lia.
  - cbn [next_executables]. pose proof (H y) as Hy. rewrite occ_cons, exec_eqb_refl in Hy. destruct (c y =? 0)%N eqn:E0; [apply N.eqb_eq in E0; lia|].
    set (c1 := fun z => if exec_eqb z y then (c y - 1)%N else c z).
    destruct (IH c1) as (c' & ready & En & Ec & Nd & Ri).
    { intros x. specialize (H x). rewrite occ_cons in H. unfold c1. destruct (exec_eqb x y) eqn:Exy.
      - apply exec_eqb_eq in Exy. subst x. rewrite exec_eqb_refl in H. lia.
      - lia. }
    rewrite En. eexists _, _. split; [reflexivity|]. split; [|split].
    + intros x. rewrite Ec, occ_cons. unfold c1. rewrite (exec_eqb_sym y x). destruct (exec_eqb x y) eqn:Exy; [apply exec_eqb_eq in Exy; subst x; lia|lia].
    + destruct (c y - 1 =? 0)%N eqn:E1; [|exact Nd]. apply N.eqb_eq in E1. constructor; [|exact Nd]. intros I. apply Ri in I.
      unfold c1 in I. rewrite exec_eqb_refl in I. lia.
    + intros x. rewrite occ_cons, (exec_eqb_sym y x). destruct (exec_eqb x y) eqn:Exy.
      * apply exec_eqb_eq in Exy. subst x. destruct (c y - 1 =? 0)%N eqn:E1.
        -- apply N.eqb_eq in E1. split; [intros _; lia|left; reflexivity].
        -- apply N.eqb_neq in E1. rewrite Ri. unfold c1. rewrite exec_eqb_refl. lia.
      * assert (R : In x (if (c y - 1 =? 0)%N then y :: ready else ready) <-> In x ready).
        { destruct (c y - 1 =? 0)%N; [|reflexivity]. cbn [In]. split; [intros [->|I]; [rewrite exec_eqb_refl in Exy; discriminate Exy|exact I]|auto]. }
        rewrite R, Ri. unfold c1. rewrite Exy. lia.
Qed.

(** * Events *)
Definition turned1 (e : event) : list exec :=
  match e with Started p => [P p] | Skipped p => [P p] | Modified m => [M m] | _ => [] end.
Definition finished1 (e : event) : list exec := match e with Succeeded p => [P p] | Modified m => [M m] | _ => [] end.
Definition ended1 (e : event) : list nat := match e with Succeeded p => [p] | Failed p => [p] | _ => [] end.
Definition turned := flat_map turned1.
Definition finished := flat_map finished1.
Definition ended := flat_map ended1.
Lemma turned_turn : forall log x, In x (turned log) <-> happened (turn x) log.
Proof.
  intros log x. unfold turned, happened. rewrite in_flat_map. split; intros (e & I & J); exists e; (split; [exact I|]).
  - destruct e; cbn [turned1] in J; try destruct J as [<-|[]]; try destruct J; reflexivity.
  - destruct e, x; cbn [turn] in J; try destruct J; left; reflexivity.
Qed.
Lemma finished_finishes : forall log x, In x (finished log) <-> happened (finishes x) log.
Proof.
  intros log x. unfold finished, happened. rewrite in_flat_map. split; intros (e & I & J); exists e; (split; [exact I|]).
  - destruct e; cbn [finished1] in J; try destruct J as [<-|[]]; try destruct J; reflexivity.
  - destruct e, x; cbn [finishes] in J; try destruct J; left; reflexivity.
Qed.
Lemma turned_app : forall a b, turned (a ++ b) = turned a ++ turned b.
Proof. apply flat_map_app. Qed.
Lemma finished_app : forall a b, finished (a ++ b) = finished a ++ finished b.
Proof. apply flat_map_app. Qed.
Lemma ended_app : forall a b, ended (a ++ b) = ended a ++ ended b.
Proof. apply flat_map_app. Qed.
Lemma nodup_once : forall log, NoDup (turned log) -> at_most_once log.
Proof.
  intros log Nd x a e b e' c -> T T'.
  assert (I : In x (turned1 e)) by (destruct e, x; cbn [turn] in T; try destruct T; left; reflexivity).
  assert (I' : In x (turned1 e')) by (destruct e', x; cbn [turn] in T'; try destruct T'; left; reflexivity).
  rewrite turned_app in Nd. change (turned (e :: b ++ e' :: c)) with (turned1 e ++ turned (b ++ e' :: c)) in Nd. rewrite turned_app in Nd.
  change (turned (e' :: c)) with (turned1 e' ++ turned c) in Nd.
  assert (A : In x (turned (b ++ e' :: c))) by (rewrite turned_app; apply in_or_app; right; apply in_or_app; left; exact I').
 clear I' T T'. apply in_split in I. destruct I as (u & v & Eu). rewrite Eu in Nd.
  revert A Nd. change (turned1 e' ++ turned c) with (turned (e' :: c)). rewrite <- turned_app. intros A Nd.
  rewrite <- app_assoc in Nd. cbn [app] in Nd. rewrite app_assoc in Nd. apply NoDup_remove_2 in Nd. apply Nd. apply in_or_app. right. apply in_or_app. right. exact A.
Qed.
Lemma snoc_split : forall (A : Type) (l : list A) x a e b, l ++ [x] = a ++ e :: b -> (b = [] /\ a = l /\ e = x) \/ exists b', b = b' ++ [x] /\ l = a ++ e :: b'.
Proof.
  intros A l x a e b H. destruct (exists_last (l := e :: b)) as (u & y & E); [discriminate|]. rewrite E, app_assoc in H. apply app_inj_tail in H. destruct H as [H ->].
  destruct u as [|z u]; cbn [app] in E.
  - injection E as -> ->. left. rewrite app_nil_r in H. auto.
  - injection E as -> ->. right. exists u. auto.
Qed.

Section Run.
Variable d : description.
Hypothesis W : well_formed d.
(** The subscription plan, if any: it is never scheduled and nothing precedes it. *)
Variable sub : option nat.
Hypothesis Hsub : forall p, sub = Some p -> forall y, ~ depends d y (P p).
Notation E := (edges d).

Definition all : list exec := map P (seq 0 (d_plans d)) ++ map M (seq 0 (d_modifiers d)).
Lemma all_spec : forall x, In x all <-> valid d x.
Proof.
  intros x. unfold all. rewrite in_app_iff, !in_map_iff. split.
  - intros [(p & <- & I)|(m & <- & I)]; apply in_seq in I; cbn [valid]; lia.
  - destruct x as [p|m]; cbn [valid]; intros L; [left; exists p|right; exists m]; (split; [reflexivity|]); apply in_seq; lia.
Qed.
Lemma all_nodup : NoDup all.
Proof.
  unfold all. assert (D : forall (A : Type) (a b : list A), NoDup a -> NoDup b -> (forall x, In x a -> ~ In x b) -> NoDup (a ++ b)).
  { intros A a b Na Nb D. induction Na as [|x a Nx Na IH]; [exact Nb|]. cbn [app]. constructor.
    - rewrite in_app_iff. intros [I|I]; [contradiction|]. apply (D x); [left; reflexivity|exact I].
    - apply IH. intros y I. apply D. right; exact I. }
  apply D.
  - apply Injective_map_NoDup; [|apply seq_NoDup]. intros a b H. congruence.
  - apply Injective_map_NoDup; [|apply seq_NoDup]. intros a b H. congruence.
  - intros x I J. apply in_map_iff in I. apply in_map_iff in J. destruct I as (p & <- & _). destruct J as (m & H & _). discriminate H.
Qed.
Lemma all_length : length all = d_plans d + d_modifiers d.
Proof. unfold all. rewrite app_length, !map_length, !seq_length. reflexivity. Qed.

Definition is_sub (x : exec) : Prop := exists p, sub = Some p /\ x = P p.
Record inv (c : exec -> N) (stack : list exec) (log : list event) : Prop :=
  { i_count : forall x, ~ is_sub x -> c x = N.of_nat (pending E (finished log) x);
    i_sub : forall x, is_sub x -> c x <> 0%N;
    i_nodup : NoDup stack;
    i_stack : forall x, In x stack -> valid d x /\ c x = 0%N /\ ~ In x (turned log);
    i_all : forall x, valid d x -> c x = 0%N -> In x (turned log) \/ In x stack;
    i_once : NoDup (turned log);
    i_turned : forall x, In x (turned log) -> c x = 0%N;
    i_deps : after_dependencies d log }.

Lemma deps_snoc : forall log e, after_dependencies d log ->
  (forall x y, turn x e -> depends d y x -> happened (finishes y) log) -> after_dependencies d (log ++ [e]).
Proof.
  intros log e A H x y b e' a Hl T D. apply snoc_split in Hl. destruct Hl as [(_ & -> & ->)|(a' & _ & Hl)]; [eauto|]. eapply A; eassumption.
Qed.
Lemma turn_ready : forall c log x, ~ is_sub x -> c x = N.of_nat (pending E (finished log) x) -> c x = 0%N ->
  forall y, depends d y x -> happened (finishes y) log.
Proof.
  intros c log x Ns Hc Hz y D. apply finished_finishes. rewrite Hz in Hc. assert (Z : pending E (finished log) x = 0) by lia.
  apply (proj1 (pending_zero E (finished log) x) Z). apply edges_depends. exact D.
Qed.
Lemma not_sub : forall c stack log x, inv c stack log -> c x = 0%N -> ~ is_sub x.
Proof. intros c stack log x I Z S. exact (i_sub _ _ _ I x S Z). Qed.

(** Finishing [y] and telling its children. *)
Lemma deliver : forall c st0 stack log e y, inv c st0 log -> finished1 e = [y] -> ~ In y (finished log) ->
  ((turned1 e = [] /\ st0 = stack) \/ (turned1 e = [y] /\ st0 = y :: stack)) ->
  exists c' ready, next_executables c (children E y) = Some (c', ready) /\ inv c' (rev ready ++ stack) (log ++ [e]) /\
    (forall x, (c' x <= c x)%N) /\ (forall x, In x ready -> c x <> 0%N /\ c' x = 0%N).
Proof.
  intros c st0 stack log e y I Fe Nf T.
  assert (Sub0 : forall x, In x stack -> In x st0) by (intros x J; destruct T as [[_ ->]|[_ ->]]; [exact J|right; exact J]).
  assert (Nd0 : NoDup stack) by (pose proof (i_nodup _ _ _ I) as N0; destruct T as [[_ ->]|[_ ->]]; [exact N0|inversion N0; assumption]).
  assert (Fl : finished (log ++ [e]) = finished log ++ [y]) by (rewrite finished_app; unfold finished at 2; cbn [flat_map]; rewrite app_nil_r, Fe; reflexivity).
  assert (Tl : turned (log ++ [e]) = turned log ++ turned1 e) by (rewrite turned_app; unfold turned at 2; cbn [flat_map]; rewrite app_nil_r; reflexivity).
  assert (Pf : forall x, pending E (finished log) x = pending E (finished log ++ [y]) x + occ (children E y) x) by (intros x; apply pending_finish; exact Nf).
  assert (Os : forall x, is_sub x -> occ (children E y) x = 0).
  { intros x (p & Ep & ->). apply count_occ_not_In. intros J. unfold children in J. apply in_map_iff in J. destruct J as ([a b] & Eb & J).
    apply filter_In in J. destruct J as [J _]. cbn [snd] in Eb. subst b. apply edges_depends in J. exact (Hsub p Ep a J). }
  assert (Dec : forall x, {is_sub x} + {~ is_sub x}).
  { intros x. destruct sub as [p|] eqn:Es.
    - destruct (exec_dec x (P p)) as [->|N]; [left; exists p; auto|right]. intros (q & Eq & ->). congruence.
    - right. intros (q & Eq & _). congruence. }
  destruct (next_spec (children E y) c) as (c' & ready & En & Ec & Nd & Ri).
  { intros x. destruct (Dec x) as [S|S]; [rewrite (Os x S); cbn; lia|]. rewrite (i_count _ _ _ I x S), Pf. lia. }
  exists c', ready. split; [exact En|].
  assert (Rc : forall x, In x ready -> c x <> 0%N /\ c' x = 0%N).
  { intros x J. apply Ri in J. destruct J as [J1 J2]. rewrite Ec. split; lia. }
  split; [|split; [intros x; rewrite Ec; lia|exact Rc]].
  assert (Vr : forall x, In x ready -> valid d x).
  { intros x J. apply Ri in J. destruct J as [J _]. assert (K : In x (children E y)) by (apply (count_occ_In exec_dec); unfold occ in J; lia).
    unfold children in K. apply in_map_iff in K. destruct K as ([a b] & Eb & K). cbn [snd] in Eb. subst b. apply filter_In in K. destruct K as [K _].
    apply edges_depends in K. apply depends_valid in K; [apply K|exact W]. }
  assert (Nt : forall x, In x ready -> ~ In x (turned log) /\ ~ In x stack /\ c x <> 0%N).
  { intros x J. destruct (Rc x J) as [J1 J2]. split; [|split; [|exact J1]].
    - intros K. apply J1. apply (i_turned _ _ _ I). exact K.
    - intros K. apply J1. apply (i_stack _ _ _ I x (Sub0 x K)). }
  assert (Te : forall x, In x (turned1 e) -> x = y /\ c y = 0%N /\ ~ In y (turned log) /\ ~ In y stack).
  { intros x J. destruct T as [[T _]|[T T']]; rewrite T in J; [destruct J|]. destruct J as [<-|[]]. split; [reflexivity|].
    destruct (i_stack _ _ _ I y) as (_ & Z & N); [rewrite T'; left; reflexivity|]. split; [exact Z|]. split; [exact N|].
    pose proof (i_nodup _ _ _ I) as N0. rewrite T' in N0. inversion N0; assumption. }
  constructor.
  - intros x S. rewrite Fl, Ec, (i_count _ _ _ I x S), Pf. lia.
  - intros x S. rewrite Ec, (Os x S). pose proof (i_sub _ _ _ I x S). lia.
  - assert (D : forall (A : Type) (a b : list A), NoDup a -> NoDup b -> (forall x, In x a -> ~ In x b) -> NoDup (a ++ b)).
    { intros A a b Na Nb D. induction Na as [|x a Nx Na IH]; [exact Nb|]. cbn [app]. constructor.
      - rewrite in_app_iff. intros [K|K]; [contradiction|]. apply (D x); [left; reflexivity|exact K].
      - apply IH. intros z K. apply D. right; exact K. }
    apply D; [apply NoDup_rev; exact Nd|exact Nd0|]. intros x J. apply in_rev in J. apply (Nt x J).
  - intros x J. apply in_app_or in J. destruct J as [J|J].
    + apply in_rev in J. split; [apply Vr; exact J|]. split; [apply Rc; exact J|]. rewrite Tl. rewrite in_app_iff. destruct (Nt x J) as (N1 & N2 & N3).
      intros [K|K]; [contradiction|]. destruct (Te x K) as (-> & Z & _). contradiction.
    + destruct (i_stack _ _ _ I x (Sub0 x J)) as (V & Z & N). split; [exact V|]. split; [rewrite Ec, Z; reflexivity|]. rewrite Tl, in_app_iff.
      intros [K|K]; [contradiction|]. destruct (Te x K) as (-> & _ & _ & N'). contradiction.
  - intros x V Z. rewrite Tl. rewrite !in_app_iff. destruct (N.eq_dec (c x) 0) as [Z'|Z'].
    + destruct (i_all _ _ _ I x V Z') as [K|K]; [auto|]. destruct T as [[_ T]|[T' T]]; rewrite T in K; [auto|]. destruct K as [<-|K]; [|auto].
      left. right. rewrite T'. left; reflexivity.
    + right. left. apply -> in_rev. apply Ri. rewrite Ec in Z. destruct (Dec x) as [S|S]; [rewrite (Os x S) in Z; lia|].
      rewrite (i_count _ _ _ I x S), Pf in *. lia.
  - rewrite Tl. destruct T as [[T _]|[T _]]; rewrite T; [rewrite app_nil_r; exact (i_once _ _ _ I)|].
    destruct (Te y) as (_ & _ & N & _); [rewrite T; left; reflexivity|].
    apply (Permutation_NoDup (l := y :: turned log)); [apply Permutation_cons_append|]. constructor; [exact N|exact (i_once _ _ _ I)].
  - intros x. rewrite Tl, in_app_iff, Ec. intros [K|K]; [rewrite (i_turned _ _ _ I x K); reflexivity|].
    destruct (Te x K) as (-> & Z & _). rewrite Z. reflexivity.
  - apply deps_snoc; [exact (i_deps _ _ _ I)|]. intros x z Tx Dz.
    assert (K : In x (turned1 e)) by (destruct e, x; cbn [turn] in Tx; try destruct Tx; left; reflexivity).
    destruct (Te x K) as (-> & Z & _). pose proof (not_sub _ _ _ _ I Z) as Ns.
    eapply turn_ready; [exact Ns|apply (i_count _ _ _ I); exact Ns|exact Z|exact Dz].
Qed.

(** * Flow of plans: started, in flight, answered *)
Record flow (running queue : list nat) (log : list event) : Prop :=
  { f_nodup : NoDup (running ++ queue ++ ended log);
    f_started : forall p, In (Started p) log -> In p (running ++ queue ++ ended log);
    f_sub : forall p, sub = Some p -> In p (queue ++ ended log);
    f_from : forall p, In p (running ++ queue) -> In (Started p) log \/ sub = Some p;
    f_turn : forall p, In p (ended log) -> In (Started p) log \/ sub = Some p;
    f_log : forall p before e after, log = before ++ e :: after -> e = Succeeded p \/ e = Failed p -> In (Started p) before \/ sub = Some p }.
Lemma flow_neutral : forall r q log e, flow r q log -> ended1 e = [] -> (forall p, e <> Started p) -> flow r q (log ++ [e]).
Proof.
  intros r q log e [F1 F2 F3 F4 F5 F6] Ee Ne.
  assert (El : ended (log ++ [e]) = ended log) by (rewrite ended_app; unfold ended at 2; cbn [flat_map]; rewrite Ee; apply app_nil_r).
  constructor; try rewrite El; auto.
  - intros p I. apply in_app_or in I. destruct I as [I|[I|[]]]; [auto|]. exfalso. eapply Ne; exact I.
  - intros p I. destruct (F4 p I); [left; apply in_or_app; auto|auto].
  - intros p I. destruct (F5 p I); [left; apply in_or_app; auto|auto].
  - intros p b e' a Hl He. apply snoc_split in Hl. destruct Hl as [(_ & -> & ->)|(a' & _ & Hl)].
    + destruct He as [->| ->]; discriminate Ee.
    + eauto.
Qed.
Lemma flow_start : forall r q log p, flow r q log -> ~ In p (r ++ q ++ ended log) -> flow (r ++ [p]) q (log ++ [Started p]).
Proof.
  intros r q log p [F1 F2 F3 F4 F5 F6] Np.
  assert (El : ended (log ++ [Started p]) = ended log) by (rewrite ended_app; apply app_nil_r).
  constructor; try rewrite El; auto.
  - rewrite <- app_assoc. cbn [app]. apply (Permutation_NoDup (l := p :: r ++ q ++ ended log)); [apply Permutation_middle|]. constructor; assumption.
  - intros p' I. rewrite <- app_assoc. cbn [app]. rewrite in_app_iff. cbn [In]. apply in_app_or in I. destruct I as [I|[I|[]]].
    + apply F2 in I. apply in_app_or in I. destruct I; auto.
    + injection I as ->. auto.
  - intros p' I. rewrite <- app_assoc in I. cbn [app] in I. apply in_app_or in I. rewrite in_app_iff. cbn [In]. destruct I as [I|[->|I]].
    + destruct (F4 p') as [K|K]; [apply in_or_app; auto| |]; auto.
    + auto.
    + destruct (F4 p') as [K|K]; [apply in_or_app; auto| |]; auto.
  - intros p' I. destruct (F5 p' I); [left; apply in_or_app; auto|auto].
  - intros p' b e' a Hl He. apply snoc_split in Hl. destruct Hl as [(_ & -> & ->)|(a' & _ & Hl)]; [destruct He as [He|He]; discriminate He|eauto].
Qed.
Lemma flow_end : forall r q log p e, flow r (p :: q) log -> e = Succeeded p \/ e = Failed p -> flow r q (log ++ [e]).
Proof.
  intros r q log p e [F1 F2 F3 F4 F5 F6] He.
  assert (El : ended (log ++ [e]) = ended log ++ [p]) by (rewrite ended_app; destruct He as [->| ->]; reflexivity).
  assert (Sp : In (Started p) log \/ sub = Some p) by (apply F4; apply in_or_app; right; left; reflexivity).
  assert (Pm : Permutation (r ++ (p :: q) ++ ended log) (r ++ q ++ ended log ++ [p])).
  { apply Permutation_app_head. rewrite app_assoc. cbn [app]. apply Permutation_cons_append. }
  constructor; try rewrite El.
  - eapply Permutation_NoDup; [exact Pm|exact F1].
  - intros p' I. apply (Permutation_in _ Pm). apply F2. apply in_app_or in I. destruct I as [I|[I|[]]]; [exact I|]. destruct He as [->| ->]; discriminate I.
  - intros p' S. specialize (F3 p' S). rewrite app_assoc, in_app_iff. cbn [app In] in *. destruct F3 as [->|F3]; [right; left; reflexivity|auto].
  - intros p' I. destruct (F4 p') as [K|K]; [|left; apply in_or_app; auto|auto]. apply in_app_or in I. apply in_or_app. destruct I as [I|I]; [auto|right; right; exact I].
  - intros p' I. apply in_app_or in I. destruct I as [I|[<-|[]]].
    + destruct (F5 p' I); [left; apply in_or_app; auto|auto].
    + destruct Sp; [left; apply in_or_app; auto|auto].
  - intros p' b e' a Hl He'. apply snoc_split in Hl. destruct Hl as [(_ & -> & ->)|(a' & _ & Hl)]; [|eauto].
    assert (p' = p) as -> by (destruct He as [->| ->], He' as [He'|He']; congruence). exact Sp.
Qed.

Lemma ended_turned : forall r q log p, flow r q log -> In p (r ++ q ++ ended log) -> In (P p) (turned log) \/ sub = Some p.
Proof.
  intros r q log p F I. assert (K : In (Started p) log \/ sub = Some p).
  { rewrite app_assoc in I. apply in_app_or in I. destruct I as [I|I]; [apply (f_from _ _ _ F); exact I|apply (f_turn _ _ _ F); exact I]. }
  destruct K as [K|K]; [left|auto]. apply turned_turn. exists (Started p). split; [exact K|reflexivity].
Qed.
(** Starting (or not) a plan that was on the stack. *)
Definition good (s : state) (stack : list exec) : Prop := inv (s_count s) stack (s_log s) /\ flow (s_running s) (s_queue s) (s_log s).
Lemma start_good : forall inputs s p stack, good s (P p :: stack) -> good (start_plan inputs s p) stack.
Proof.
  intros inputs s p stack [I F]. destruct (i_stack _ _ _ I (P p) (or_introl eq_refl)) as (V & Z & Nt). pose proof (not_sub _ _ _ _ I Z) as Ns.
  assert (G : forall e, turned1 e = [P p] -> finished1 e = [] -> (forall x, turn x e -> x = P p) -> inv (s_count s) stack (s_log s ++ [e])).
  { intros e Te Fe Tx.
    assert (Fl : finished (s_log s ++ [e]) = finished (s_log s)) by (rewrite finished_app; unfold finished at 2; cbn [flat_map]; rewrite Fe; apply app_nil_r).
    assert (Tl : turned (s_log s ++ [e]) = turned (s_log s) ++ [P p]) by (rewrite turned_app; unfold turned at 2; cbn [flat_map]; rewrite Te; reflexivity).
    destruct I as [I1 I2 I3 I4 I5 I6 I7 I8]. inversion I3 as [|? ? Nin Nd]; subst. constructor; try rewrite Fl; try rewrite Tl; auto.
    - intros x J. destruct (I4 x (or_intror J)) as (A & B & C). split; [exact A|split; [exact B|]]. rewrite in_app_iff. intros [K|[<-|[]]]; contradiction.
    - intros x Vx Zx. rewrite in_app_iff. destruct (I5 x Vx Zx) as [K|[<-|K]]; [auto|left; right; left; reflexivity|auto].
    - apply (Permutation_NoDup (l := P p :: turned (s_log s))); [apply Permutation_cons_append|]. constructor; assumption.
    - intros x. rewrite in_app_iff. intros [K|[<-|[]]]; auto.
    - apply deps_snoc; [exact I8|]. intros x y T D. apply Tx in T. subst x. eapply turn_ready; [exact Ns|apply I1; exact Ns|exact Z|exact D]. }
  assert (Nf : ~ In p (s_running s ++ s_queue s ++ ended (s_log s))).
  { intros J. destruct (ended_turned _ _ _ _ F J) as [K|K]; [contradiction|]. apply Ns. exists p. auto. }
  unfold good, start_plan. destruct (inputs p); cbn [s_count s_log s_running s_queue].
  - split; [|apply flow_start; [exact F|exact Nf]]. apply G; [reflexivity|reflexivity|]. intros [q|q] T; cbn [turn] in T; [congruence|destruct T].
  - split; [|apply flow_neutral; [exact F|reflexivity|discriminate]]. apply G; [reflexivity|reflexivity|]. intros [q|q] T; cbn [turn] in T; [congruence|destruct T].
Qed.

(** Executables not ready yet. *)
Definition waiting (c : exec -> N) : nat := length (filter (fun x => negb (c x =? 0)%N) all).
Lemma waiting_deliver : forall (c c' : exec -> N) ready, (forall x, (c' x <= c x)%N) -> NoDup ready ->
  (forall x, In x ready -> valid d x /\ c x <> 0%N /\ c' x = 0%N) -> waiting c' + length ready <= waiting c.
Proof.
  intros c c' ready L Nd R. unfold waiting. rewrite <- app_length. apply NoDup_incl_length.
  - assert (D : forall (A : Type) (a b : list A), NoDup a -> NoDup b -> (forall x, In x a -> ~ In x b) -> NoDup (a ++ b)).
    { intros A a b Na Nb D. induction Na as [|x a Nx Na IH]; [exact Nb|]. cbn [app]. constructor.
      - rewrite in_app_iff. intros [K|K]; [contradiction|]. apply (D x); [left; reflexivity|exact K].
      - apply IH. intros z K. apply D. right; exact K. }
    apply D; [apply NoDup_filter; apply all_nodup|exact Nd|]. intros x J K. apply filter_In in J. destruct J as [_ J]. destruct (R x K) as (_ & _ & Z).
    rewrite Z in J. discriminate J.
  - intros x J. apply filter_In. apply in_app_or in J. destruct J as [J|J].
    + apply filter_In in J. destruct J as [J1 J2]. split; [exact J1|]. apply negb_true_iff in J2. apply N.eqb_neq in J2. apply negb_true_iff. apply N.eqb_neq.
      specialize (L x). lia.
    + destruct (R x J) as (V & Z & _). split; [apply all_spec; exact V|]. apply negb_true_iff. apply N.eqb_neq. exact Z.
Qed.
Lemma waiting_bound : forall c stack log, inv c stack log -> length stack + waiting c <= d_plans d + d_modifiers d.
Proof.
  intros c stack log I. rewrite <- all_length. unfold waiting. rewrite <- app_length. apply NoDup_incl_length.
  - assert (D : forall (A : Type) (a b : list A), NoDup a -> NoDup b -> (forall x, In x a -> ~ In x b) -> NoDup (a ++ b)).
    { intros A a b Na Nb D. induction Na as [|x a Nx Na IH]; [exact Nb|]. cbn [app]. constructor.
      - rewrite in_app_iff. intros [K|K]; [contradiction|]. apply (D x); [left; reflexivity|exact K].
      - apply IH. intros z K. apply D. right; exact K. }
    apply D; [exact (i_nodup _ _ _ I)|apply NoDup_filter; apply all_nodup|]. intros x J K. apply filter_In in K. destruct K as [_ K].
    destruct (i_stack _ _ _ I x J) as (_ & Z & _). rewrite Z in K. discriminate K.
  - intros x J. apply in_app_or in J. destruct J as [J|J]; [apply all_spec; apply (i_stack _ _ _ I x J)|]. apply filter_In in J. apply J.
Qed.

Notation g := (finalize d).
Lemma g_children_edges : forall x, g_children g x = children E x.
Proof. intros x. rewrite finalize_edges. apply fold_addE. Qed.

Lemma modified_not_finished : forall log m, ~ In (M m) (turned log) -> ~ In (M m) (finished log).
Proof.
  intros log m N I. apply N. apply finished_finishes in I. apply turned_turn. destruct I as (e & I & J). exists e. split; [exact I|].
  destruct e; cbn [finishes] in J; try destruct J. reflexivity.
Qed.
Lemma ready_valid : forall c c' ready y stack log, inv c' (rev ready ++ stack) log -> next_executables c (children E y) = Some (c', ready) -> forall x, In x ready -> valid d x.
Proof. intros c c' ready y stack log I _ x J. apply (i_stack _ _ _ I x). apply in_or_app. left. apply -> in_rev. exact J. Qed.
Lemma ready_nodup : forall c stack ready log, inv c (rev ready ++ stack) log -> NoDup ready.
Proof.
  intros c stack ready log I. pose proof (i_nodup _ _ _ I) as N. rewrite <- (rev_involutive ready). apply NoDup_rev. clear I.
  induction (rev ready) as [|x l IH]; [constructor|]. cbn [app] in N. inversion N as [|? ? A B]; subst. constructor; [|apply IH; exact B].
  intros J. apply A. apply in_or_app. auto.
Qed.
Lemma work_good : forall fuel inputs s stack, good s stack -> length stack + waiting (s_count s) <= fuel ->
  exists s', work fuel g inputs s stack = Some s' /\ good s' [].
Proof.
  intros fuel. induction fuel as [|fuel IH]; intros inputs s stack G L.
  - destruct stack as [|x stack]; [exists s; split; [reflexivity|exact G]|]. cbn [length] in L. lia.
  - destruct stack as [|[p|m] stack]; [exists s; split; [reflexivity|exact G]| |].
    + cbn [work]. apply IH; [apply start_good; exact G|]. cbn [length] in L.
      assert (Ec : s_count (start_plan inputs s p) = s_count s) by (unfold start_plan; destruct (inputs p); reflexivity). rewrite Ec. lia.
    + cbn [work]. destruct G as [I F]. destruct (i_stack _ _ _ I (M m) (or_introl eq_refl)) as (V & Z & Nt).
      destruct (deliver (s_count s) (M m :: stack) stack (s_log s) (Modified m) (M m)) as (c' & ready & En & I' & Lc & Rc);
        [exact I|reflexivity|apply modified_not_finished; exact Nt|right; split; reflexivity|].
      rewrite g_children_edges, En. apply IH.
      * split; [exact I'|]. cbn [s_running s_queue s_log]. apply flow_neutral; [exact F|reflexivity|discriminate].
      * cbn [s_count]. rewrite app_length, rev_length. cbn [length] in L.
        pose proof (waiting_deliver (s_count s) c' ready Lc (ready_nodup _ _ _ _ I')) as Wd. 
        assert (R : forall x, In x ready -> valid d x /\ s_count s x <> 0%N /\ c' x = 0%N).
        { intros x J. split; [eapply ready_valid; eassumption|apply Rc; exact J]. }
        specialize (Wd R). lia.
Qed.
Lemma remove_one_perm : forall p l, In p l -> Permutation l (p :: remove_one p l).
Proof.
  intros p l. induction l as [|x l IH]; intros I; [destruct I|]. cbn [remove_one]. destruct (x =? p) eqn:Ex; [apply Nat.eqb_eq in Ex; subst; apply Permutation_refl|].
  destruct I as [->|I]; [rewrite Nat.eqb_refl in Ex; discriminate Ex|]. eapply perm_trans; [apply perm_skip; apply IH; exact I|apply perm_swap].
Qed.
Lemma flow_finish : forall r q log p, flow r q log -> In p r -> flow (remove_one p r) (q ++ [p]) log.
Proof.
  intros r q log p [F1 F2 F3 F4 F5 F6] I. pose proof (remove_one_perm p r I) as Pr.
  assert (P1 : Permutation (r ++ q) (remove_one p r ++ q ++ [p])).
  { eapply perm_trans; [apply Permutation_app_tail; exact Pr|]. cbn [app]. rewrite app_assoc. apply Permutation_cons_append. }
  assert (P2 : Permutation (r ++ q ++ ended log) (remove_one p r ++ (q ++ [p]) ++ ended log)).
  { rewrite !app_assoc. apply Permutation_app_tail. rewrite <- app_assoc. exact P1. }
  constructor; auto.
  - eapply Permutation_NoDup; [exact P2|exact F1].
  - intros p' J. apply (Permutation_in _ P2). apply F2. exact J.
  - intros p' S. specialize (F3 p' S). rewrite !in_app_iff in *. tauto.
  - intros p' J. apply F4. apply (Permutation_in _ (Permutation_sym P1)). exact J.
Qed.
Lemma step_good : forall o s, good s [] -> exists s', step d g s o = Some s' /\ good s' [].
Proof.
  intros o s [I F]. destruct o as [p|ok inputs]; cbn [step].
  - destruct (existsb (Nat.eqb p) (s_running s)) eqn:Ep; [|exists s; split; [reflexivity|split; assumption]].
    eexists. split; [reflexivity|]. split; [exact I|]. cbn [s_running s_queue s_log]. apply flow_finish; [exact F|].
    apply existsb_exists in Ep. destruct Ep as (y & J & Ey). apply Nat.eqb_eq in Ey. subst y. exact J.
  - destruct (s_queue s) as [|p queue] eqn:Eq; [exists s; split; [reflexivity|split; [assumption|rewrite Eq; assumption]]|].
    unfold ingest. destruct ok; cbn [s_count s_running s_queue s_log].
    + assert (Nf : ~ In (P p) (finished (s_log s))).
      { intros J. assert (K : In p (ended (s_log s))).
        { unfold finished in J. apply in_flat_map in J. destruct J as (e & J1 & J2). unfold ended. apply in_flat_map. exists e. split; [exact J1|].
          destruct e; cbn [finished1] in J2; try (destruct J2 as [J2|[]]; try discriminate J2; injection J2 as ->; left; reflexivity); destruct J2. }
        pose proof (f_nodup _ _ _ F) as N0. apply NoDup_remove_2 in N0. apply N0. rewrite !in_app_iff. auto. }
      destruct (deliver (s_count s) [] [] (s_log s) (Succeeded p) (P p)) as (c' & ready & En & I' & Lc & Rc);
        [exact I|reflexivity|exact Nf|left; split; reflexivity|].
      rewrite g_children_edges, En. rewrite app_nil_r in I'. apply work_good.
      * split; [exact I'|]. cbn [s_running s_queue s_log]. eapply flow_end; [exact F|auto].
      * cbn [s_count]. eapply waiting_bound. exact I'.
    + eexists. split; [reflexivity|]. split; cbn [s_count s_running s_queue s_log]; [|eapply flow_end; [exact F|auto]].
      assert (Fl : finished (s_log s ++ [Failed p]) = finished (s_log s)) by (rewrite finished_app; apply app_nil_r).
      assert (Tl : turned (s_log s ++ [Failed p]) = turned (s_log s)) by (rewrite turned_app; apply app_nil_r).
      destruct I as [I1 I2 I3 I4 I5 I6 I7 I8]. constructor; try rewrite Fl; try rewrite Tl; auto.
      apply deps_snoc; [exact I8|]. intros x y T. destruct T.
Qed.
Lemma steps_good : forall ops s, good s [] -> exists s', steps d g s ops = Some s' /\ good s' [].
Proof.
  intros ops. induction ops as [|o ops IH]; intros s G; [exists s; split; [reflexivity|exact G]|]. cbn [steps].
  destruct (step_good o s G) as (s1 & -> & G1). apply IH. exact G1.
Qed.
Lemma start_all_good : forall inputs l s, good s (map P l) -> good (fold_left (start_plan inputs) l s) [].
Proof.
  intros inputs l. induction l as [|p l IH]; intros s G; [exact G|]. cbn [fold_left]. apply IH. apply start_good. exact G.
Qed.
Lemma executable_plans_spec : forall c p, In p (executable_plans d c) <-> p < d_plans d /\ c (P p) = 0%N.
Proof. intros c p. unfold executable_plans. rewrite filter_In, in_seq, N.eqb_eq. split; intros [A B]; (split; [lia|exact B]). Qed.
Lemma modifier_waits : forall m, m < d_modifiers d -> pending E [] (M m) <> 0.
Proof.
  intros m L H. destruct W as (_ & _ & _ & W4). destruct (W4 m L) as (p & I).
  apply (proj1 (pending_zero E [] (M m)) H (P p)). apply edges_depends. apply D_modifier. exact I.
Qed.
Lemma initial_good : forall c queue, (forall x, ~ is_sub x -> c x = g_count g x) -> (forall x, is_sub x -> c x <> 0%N) ->
  (forall p, sub = Some p <-> queue = [p]) -> (sub = None -> queue = []) ->
  good {| s_count := c; s_running := []; s_queue := queue; s_log := [] |} (map P (executable_plans d c)).
Proof.
  intros c queue Hc Hs Hq Hn.
  assert (Gp : forall x, g_count g x = N.of_nat (pending E [] x)).
  { intros x. rewrite finalize_edges, pending_nil. apply fold_addE. }
  split; cbn [s_count s_running s_queue s_log].
  - constructor; cbn [turned finished flat_map].
    + intros x N. rewrite Hc by exact N. apply Gp.
    + exact Hs.
    + apply Injective_map_NoDup; [intros a b H; congruence|]. apply NoDup_filter. apply seq_NoDup.
    + intros x J. apply in_map_iff in J. destruct J as (p & <- & J). apply executable_plans_spec in J. destruct J as [J1 J2]. split; [exact J1|]. split; [exact J2|intros []].
    + intros x V Z. right. destruct x as [p|m]; [apply in_map; apply executable_plans_spec; split; assumption|].
      exfalso. rewrite Hc, Gp in Z; [|intros (q & _ & K); discriminate K]. apply (modifier_waits m V). lia.
    + constructor.
    + intros x [].
    + intros x y b e a H. destruct b; discriminate H.
  - assert (Q : forall p, In p queue -> sub = Some p).
    { intros p J. destruct sub as [q|] eqn:Es; [|rewrite (Hn eq_refl) in J; destruct J].
      assert (Eq : queue = [q]) by (apply Hq; reflexivity). rewrite Eq in J. destruct J as [->|[]]. reflexivity. }
    constructor; cbn [ended flat_map app]; rewrite ?app_nil_r.
    + destruct sub as [q|] eqn:Es; [assert (Eq : queue = [q]) by (apply Hq; reflexivity); rewrite Eq; constructor; [intros []|constructor]|rewrite (Hn eq_refl); constructor].
    + intros p [].
    + intros p S. apply Hq in S. rewrite S. left; reflexivity.
    + intros p J. right. apply Q. exact J.
    + intros p [].
    + intros p b e a H. destruct b; discriminate H.
Qed.

Lemma good_turn : forall s, good s [] -> forall x, ~ is_sub x -> valid d x ->
  (forall y, depends d y x -> happened (finishes y) (s_log s)) -> happened (turn x) (s_log s).
Proof.
  intros s [I _] x N V H. assert (Z : s_count s x = 0%N).
  { rewrite (i_count _ _ _ I x N). assert (K : pending E (finished (s_log s)) x = 0); [|rewrite K; reflexivity].
    apply pending_zero. intros y J. apply finished_finishes. apply H. apply edges_depends. exact J. }
  destruct (i_all _ _ _ I x V Z) as [K|[]]. apply turned_turn. exact K.
Qed.
Lemma good_sub_never : forall s stack p, good s stack -> sub = Some p -> ~ happened (turn (P p)) (s_log s).
Proof.
  intros s stack p [I _] S H. apply turned_turn in H. apply (i_turned _ _ _ I) in H. apply (i_sub _ _ _ I (P p)); [exists p; auto|exact H].
Qed.
(** Every plan that was started is in flight, waiting to be ingested, or answered. *)
Lemma good_answered : forall s stack p, good s stack -> In (Started p) (s_log s) ->
  In p (s_running s) \/ In p (s_queue s) \/ In (Succeeded p) (s_log s) \/ In (Failed p) (s_log s).
Proof.
  intros s stack p [_ F] H. apply (f_started _ _ _ F) in H. rewrite !in_app_iff in H. destruct H as [H|[H|H]]; [auto|auto|].
  unfold ended in H. apply in_flat_map in H. destruct H as (e & J & K).
  destruct e; cbn [ended1] in K; try (destruct K; fail); destruct K as [<-|[]]; auto.
Qed.
Lemma good_answered_once : forall s stack, good s stack -> NoDup (ended (s_log s)).
Proof.
  intros s stack [_ F]. pose proof (f_nodup _ _ _ F) as N. rewrite app_assoc in N.
  induction (s_running s ++ s_queue s) as [|x l IH]; [exact N|]. apply IH. inversion N; assumption.
Qed.
End Run.

Lemma ended_once : forall log, NoDup (ended log) -> answered_once log.
Proof.
  intros log N p a e b e' c -> H H'. rewrite ended_app in N. change (ended (e :: b ++ e' :: c)) with (ended1 e ++ ended (b ++ e' :: c)) in N.
  assert (Ee : ended1 e = [p]) by (destruct H as [->| ->]; reflexivity). rewrite Ee in N. cbn [app] in N. apply NoDup_remove_2 in N. apply N.
  apply in_or_app. right. rewrite ended_app. apply in_or_app. right. unfold ended. cbn [flat_map]. apply in_or_app. left.
  destruct H' as [->| ->]; left; reflexivity.
Qed.

Lemma run_good : forall d inputs ops, well_formed d -> exists s, run d inputs ops = Some s /\ good d None s [].
Proof.
  intros d inputs ops W. unfold run. apply steps_good; [exact W|intros p H; discriminate H|]. unfold start_all. apply start_all_good.
  cbn [s_count]. apply initial_good.
  - exact W.
  - intros p H. discriminate H.
  - reflexivity.
  - intros x (p & H & _). discriminate H.
  - intros p. split; intros H; discriminate H.
  - reflexivity.
Qed.
Lemma event_good : forall d p inputs ops, well_formed d -> (forall q, q < d_plans d -> (forall y, ~ depends d y (P q)) <-> q = p) -> p < d_plans d ->
  exists s, run_event d inputs ops = Some s /\ good d (Some p) s [].
Proof.
  intros d p inputs ops W U L. unfold run_event.
  assert (X : executable_plans d (g_count (finalize d)) = [p]).
  { assert (S : forall q, In q (executable_plans d (g_count (finalize d))) <-> q = p).
    { intros q. rewrite executable_plans_spec. rewrite finalize_edges, (proj2 (fold_addE (edges d))), <- pending_nil. split.
      - intros [Lq Z]. apply (U q Lq). intros y D. assert (K : pending (edges d) [] (P q) = 0) by lia.
        apply (proj1 (pending_zero _ _ _) K y). apply edges_depends. exact D.
      - intros ->. split; [exact L|]. assert (K : pending (edges d) [] (P p) = 0); [|rewrite K; reflexivity].
        apply pending_zero. intros y J. apply edges_depends in J. exfalso. exact (proj2 (U p L) eq_refl y J). }
    assert (N : NoDup (executable_plans d (g_count (finalize d)))) by (apply NoDup_filter; apply seq_NoDup).
    destruct (executable_plans d (g_count (finalize d))) as [|a [|b l]].
    - exfalso. apply (proj2 (S p) eq_refl).
    - f_equal. apply S. left; reflexivity.
    - exfalso. assert (a = p) by (apply S; left; reflexivity). assert (b = p) by (apply S; right; left; reflexivity). subst. inversion N as [|? ? A B]. apply A. left; reflexivity. }
  rewrite X. apply steps_good; [exact W|intros q H; injection H as <-; apply (proj2 (U p L) eq_refl)|].
  unfold start_all. apply start_all_good. cbn [s_count]. apply initial_good.
    + exact W.
    + intros q H. injection H as <-. apply (proj2 (U p L) eq_refl).
    + intros x N. rewrite exec_eqb_neq; [reflexivity|]. intros ->. apply N. exists p. auto.
    + intros x (q & H & ->). injection H as <-. rewrite exec_eqb_refl. discriminate.
    + intros q. split; intros H; congruence.
    + intros H. discriminate H.
Qed.
