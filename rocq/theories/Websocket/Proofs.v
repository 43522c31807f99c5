(** Invariants of a connection. *)
From Coq Require Import List Bool Arith NArith Lia.
From Verif.Websocket Require Import Model Spec.
Import ListNotations.
Local Open Scope nat_scope.
Local Open Scope list_scope.

Lemma of_task_app : forall k a b, of_task k (a ++ b) = of_task k a ++ of_task k b.
Proof. intros k a b. unfold of_task. rewrite filter_app, map_app. reflexivity. Qed.
Lemma of_task_none : forall k m, of_task k [(None, m)] = [].
Proof. reflexivity. Qed.
Lemma of_task_some : forall k j m, of_task k [(Some j, m)] = if Nat.eqb j k then [m] else [].
Proof. intros k j m. unfold of_task. cbn [filter fst]. destruct (Nat.eqb j k); reflexivity. Qed.
Lemma of_task_out : forall k l, (forall j m, In (Some j, m) l -> j < k) -> of_task k l = [].
Proof.
  intros k l H. unfold of_task. induction l as [| [[j |] m] l IH]; [reflexivity | |].
  - cbn [filter fst]. destruct (Nat.eqb j k) eqn:E; [apply Nat.eqb_eq in E; specialize (H j m (or_introl eq_refl)); lia |]. apply IH. intros j' m' H'. apply (H j' m'). right. exact H'.
  - cbn [filter fst]. apply IH. intros j' m' H'. apply (H j' m'). right. exact H'.
Qed.
Lemma update_length : forall A k (f : A -> A) l, List.length (update k f l) = List.length l.
Proof. intros A k f l. revert k. induction l as [| x l IH]; intros [| k]; cbn; [reflexivity | reflexivity | reflexivity | rewrite IH; reflexivity]. Qed.
Lemma nth_update : forall A k (f : A -> A) l j, nth_error (update k f l) j = if Nat.eqb j k then option_map f (nth_error l j) else nth_error l j.
Proof.
  intros A k f l. revert k. induction l as [| x l IH]; intros k j.
  - cbn [update]. destruct (Nat.eqb j k), j; reflexivity.
  - destruct k as [| k], j as [| j]; cbn [update nth_error Nat.eqb option_map]; try reflexivity. apply IH.
Qed.
Lemma map_update : forall A B (g : A -> B) k f (l : list A), (forall x, g (f x) = g x) -> map g (update k f l) = map g l.
Proof. intros A B g k f l H. revert k. induction l as [| x l IH]; intros [| k]; cbn [update map]; [reflexivity | reflexivity | rewrite H; reflexivity | rewrite IH; reflexivity]. Qed.
Lemma find_sub_in : forall i l k, find_sub i l = Some k -> In (i, k) l.
Proof.
  intros i l k H. unfold find_sub in H. destruct (find (fun x => Nat.eqb (fst x) i) l) as [[j k'] |] eqn:E; [| discriminate]. injection H as <-. apply find_some in E as [E1 E2]. cbn in E2. apply Nat.eqb_eq in E2 as <-. exact E1.
Qed.
Lemma find_sub_none : forall i l, find_sub i l = None -> ~ In i (map fst l).
Proof.
  intros i l H. unfold find_sub in H. destruct (find (fun x => Nat.eqb (fst x) i) l) as [x |] eqn:E; [discriminate |]. intro C. apply in_map_iff in C as ([j k] & <- & C). apply (find_none _ _ E) in C. cbn in C. rewrite Nat.eqb_refl in C. discriminate.
Qed.
Lemma find_sub_some : forall i l, In i (map fst l) -> exists k, find_sub i l = Some k.
Proof. intros i l H. destruct (find_sub i l) as [k |] eqn:E; [exists k; reflexivity |]. destruct (find_sub_none _ _ E H). Qed.

Definition pings (l : list (option nat * message)) : Prop := Forall (fun m => m = (None, MPing)) l.
Definition acked (l : list (option nat * message)) : Prop :=
  exists a c, l = a ++ (None, MAck) :: c /\ pings a /\ forall t, ~ In (t, MAck) c.
(** Messages of the loop. *)
Definition own (m : message) : Prop := m = MPong \/ is_close m.
Definition shape (t : task) : Prop :=
  exists rs e, t_sent t = map (message_of (t_id t)) rs ++ e /\ (e = [] \/ e = [MComplete (t_id t)] /\ t_status t = Over).
Definition handed (pump : bool) (out queue : list (option nat * message)) (k : nat) (t : task) : Prop :=
  if pump then of_task k out ++ of_task k queue = t_sent t else prefix (of_task k out) (t_sent t).

Record Inv (s : state) : Prop := {
  v_subs : forall i k, In (i, k) (s_subs s) -> exists t, nth_error (s_tasks s) k = Some t /\ t_id t = i;
  v_nodup : NoDup (map fst (s_subs s));
  v_run : forall k t, nth_error (s_tasks s) k = Some t -> t_status t = Running -> In (t_id t, k) (s_subs s);
  v_ended : s_phase s = Ended -> forall k t, nth_error (s_tasks s) k = Some t -> t_status t <> Running;
  v_use : forall i, In i (map fst (s_subs s)) <-> in_use i (s_heard s) = true;
  v_exec : s_executed s = operations [] (s_heard s);
  v_ids : map fst (s_executed s) = map t_id (s_tasks s);
  v_handed : forall k t, nth_error (s_tasks s) k = Some t -> handed (s_pump s) (s_out s) (s_queue s) k t;
  v_empty : s_pump s = false -> s_queue s = [];
  v_tags : forall k m, In (Some k, m) (s_out s ++ s_queue s) -> k < List.length (s_tasks s);
  v_shape : forall t, In t (s_tasks s) -> shape t;
  v_own : forall m, In (None, m) (s_queue s) -> own m;
  v_blocked : forall m, s_phase s = Open (Some m) -> own m;
  v_phase :
    match s_phase s with
    | Waiting | Creating => s_tasks s = [] /\ s_queue s = [] /\ s_heard s = [] /\ s_pump s = true /\ pings (s_out s)
    | Open _ => acked (s_out s)
    | Ended => acked (s_out s) \/ s_tasks s = [] /\ s_queue s = [] /\ s_heard s = [] /\ (pings (s_out s) \/ exists a c, s_out s = a ++ [(None, MClose c)] /\ pings a)
    end;
  v_acked_tasks : s_tasks s <> [] -> acked (s_out s);
  v_close : forall a t m b, s_out s = a ++ (t, m) :: b -> is_close m -> b = []
}.

Lemma in_use_snoc : forall i heard e, in_use i (heard ++ [e]) =
  match e with
  | Subscribe j _ => if Nat.eqb i j then true else in_use i heard
  | Complete j => if Nat.eqb i j then false else in_use i heard
  | _ => in_use i heard
  end.
Proof. intros i heard e. unfold in_use. rewrite fold_left_app. reflexivity. Qed.
Lemma operations_app : forall a b before, operations before (a ++ b) = operations before a ++ operations (before ++ a) b.
Proof.
  induction a as [| e a IH]; intros b before; [cbn [app operations]; rewrite app_nil_r; reflexivity |].
  cbn [app operations]. rewrite IH, <- !app_assoc. reflexivity.
Qed.
Lemma acked_snoc : forall l t m, acked l -> m <> MAck -> acked (l ++ [(t, m)]).
Proof.
  intros l t m (a & c & -> & H1 & H2) Hm. exists a, (c ++ [(t, m)]). split; [rewrite <- app_assoc; reflexivity |]. split; [exact H1 |].
  intros t' H. apply in_app_or in H as [H | [H | []]]; [exact (H2 _ H) | injection H as _ ->; contradiction].
Qed.
Lemma closed_false : forall s a t m b, closed s = false -> s_out s = a ++ (t, m) :: b -> ~ is_close m.
Proof.
  intros s a t m b H E C. unfold closed in H. rewrite E in H. rewrite existsb_app in H. cbn [existsb snd] in H. destruct m; try destruct C. rewrite orb_true_r in H. discriminate H.
Qed.
Lemma pings_no_close : forall l a t m b, pings l -> l = a ++ (t, m) :: b -> ~ is_close m.
Proof. intros l a t m b H -> C. apply Forall_app in H as [_ H]. inversion H as [| x y H1 H2]. injection H1 as -> ->. exact C. Qed.
Lemma snoc_split : forall A (l : list A) x a y b, l ++ [x] = a ++ y :: b -> b = [] /\ l = a /\ x = y \/ exists b', b = b' ++ [x] /\ l = a ++ y :: b'.
Proof.
  intros A l x a y b H. destruct (rev b) as [| z r] eqn:E.
  - assert (b = []) as -> by (rewrite <- (rev_involutive b), E; reflexivity). apply app_inj_tail in H as [-> ->]. left. split; [reflexivity | split; reflexivity].
  - assert (b = rev r ++ [z]) as -> by (rewrite <- (rev_involutive b), E; reflexivity). rewrite app_comm_cons, app_assoc in H. apply app_inj_tail in H as [-> ->]. right. exists (rev r). split; reflexivity.
Qed.

Lemma start_inv : Inv start.
Proof.
  assert (Z : forall k (t : task), nth_error [] k = Some t -> False) by (intros [| k] t H; discriminate).
  constructor; cbn.
  - intros i k [].
  - constructor.
  - intros k t H. destruct (Z _ _ H).
  - discriminate.
  - intros i. split; [intros [] | discriminate].
  - reflexivity.
  - reflexivity.
  - intros k t H. destruct (Z _ _ H).
  - discriminate.
  - intros k m [].
  - intros t [].
  - intros m [].
  - discriminate.
  - split; [reflexivity |]. split; [reflexivity |]. split; [reflexivity |]. split; [reflexivity | constructor].
  - intros H. contradiction.
  - intros [| x a] t m b H; discriminate.
Qed.

Ltac proj := cbn [finish hear with_phase with_tasks with_subs write enqueue s_phase s_subs s_tasks s_queue s_pump s_out s_executed s_heard].
Lemma abort_id : forall t, t_id (abort t) = t_id t.
Proof. intros t. unfold abort. destruct (t_status t); reflexivity. Qed.
Lemma abort_sent : forall t, t_sent (abort t) = t_sent t.
Proof. intros t. unfold abort. destruct (t_status t); reflexivity. Qed.
Lemma abort_not_running : forall t, t_status (abort t) <> Running.
Proof. intros t. unfold abort. destruct (t_status t) eqn:E; cbn; rewrite ?E; discriminate. Qed.
Lemma abort_over : forall t, t_status t = Over -> t_status (abort t) = Over.
Proof. intros t E. unfold abort. rewrite E. exact E. Qed.
Lemma shape_abort : forall t, shape t -> shape (abort t).
Proof.
  intros t (rs & e & E & H). exists rs, e. rewrite abort_id, abort_sent. split; [exact E |]. destruct H as [-> | [-> H]]; [left; reflexivity |]. right. split; [reflexivity | apply abort_over; exact H].
Qed.
Lemma in_update : forall A k (f : A -> A) l x, In x (update k f l) -> In x l \/ exists y, nth_error l k = Some y /\ x = f y.
Proof.
  intros A k f l x H. apply In_nth_error in H as (j & H). rewrite nth_update in H. destruct (Nat.eqb j k) eqn:E; [| left; apply (nth_error_In _ _ H)].
  apply Nat.eqb_eq in E as ->. destruct (nth_error l k) as [y |]; [| discriminate]. injection H as <-. right. exists y. split; reflexivity.
Qed.

(** The loop returns. *)
Lemma finish_inv : forall s, Inv s -> acked (s_out s) -> Inv (finish s).
Proof.
  intros s [v1 v2 v3 v4 v5 v6 v7 v8 v9 v10 v11 v12 v13 v14 v15 v16] Ha.
  assert (N : forall k t, nth_error (map abort (s_tasks s)) k = Some t -> exists t0, nth_error (s_tasks s) k = Some t0 /\ t = abort t0).
  { intros k t H. rewrite nth_error_map in H. destruct (nth_error (s_tasks s) k) as [t0 |]; [| discriminate]. injection H as <-. exists t0. split; reflexivity. }
  constructor; proj.
  - intros i k H. destruct (v1 i k H) as (t & H1 & H2). exists (abort t). split; [rewrite nth_error_map, H1; reflexivity | rewrite abort_id; exact H2].
  - exact v2.
  - intros k t H Hr. destruct (N _ _ H) as (t0 & _ & ->). destruct (abort_not_running _ Hr).
  - intros _ k t H. destruct (N _ _ H) as (t0 & _ & ->). apply abort_not_running.
  - exact v5.
  - exact v6.
  - rewrite map_map. rewrite v7. apply map_ext. intros t. symmetry. apply abort_id.
  - intros k t H. destruct (N _ _ H) as (t0 & H0 & ->). unfold handed. rewrite abort_sent. exact (v8 _ _ H0).
  - exact v9.
  - intros k m H. rewrite map_length. exact (v10 _ _ H).
  - intros t H. apply in_map_iff in H as (t0 & <- & H). apply shape_abort. exact (v11 _ H).
  - exact v12.
  - discriminate.
  - left. exact Ha.
  - intros _. exact Ha.
  - exact v16.
Qed.
Lemma phase_inv : forall s b, Inv s -> acked (s_out s) -> (forall m, b = Some m -> own m) -> Inv (with_phase (Open b) s).
Proof.
  intros s b [v1 v2 v3 v4 v5 v6 v7 v8 v9 v10 v11 v12 v13 v14 v15 v16] Ha Hb. constructor; proj; try assumption; try discriminate.
  intros m H. injection H as ->. apply Hb. reflexivity.
Qed.
Lemma enqueue_own_inv : forall s m, Inv s -> s_pump s = true -> own m -> match s_phase s with Open _ => True | _ => False end -> Inv (enqueue (None, m) s).
Proof.
  intros s m [v1 v2 v3 v4 v5 v6 v7 v8 v9 v10 v11 v12 v13 v14 v15 v16] Hp Hm Hph. constructor; proj; try assumption.
  - intros k t H. specialize (v8 k t H). unfold handed in *. rewrite Hp in *. rewrite of_task_app, of_task_none, app_nil_r. exact v8.
  - rewrite Hp. discriminate.
  - intros k m' H. rewrite app_assoc in H. apply in_app_or in H as [H | [H | []]]; [exact (v10 _ _ H) | discriminate].
  - intros m' H. apply in_app_or in H as [H | [H | []]]; [exact (v12 _ H) | injection H as <-; exact Hm].
  - destruct (s_phase s); try destruct Hph. exact v14.
Qed.
Lemma answer_inv : forall s m, Inv s -> match s_phase s with Open _ => True | _ => False end -> own m -> Inv (answer m s).
Proof.
  intros s m V Hph Hm. assert (Ha : acked (s_out s)) by (destruct V as [_ _ _ _ _ _ _ _ _ _ _ _ _ v14 _ _]; destruct (s_phase s); try destruct Hph; exact v14).
  unfold answer. destruct (s_pump s) eqn:Ep; [| apply finish_inv; assumption]. destruct (room s).
  - assert (V1 : Inv (enqueue (None, m) (with_phase (Open None) s))).
    { apply enqueue_own_inv; [apply phase_inv; [exact V | exact Ha | discriminate] | exact Ep | exact Hm | exact Logic.I]. }
    cbn zeta. destruct m; try exact V1. apply finish_inv; [exact V1 | exact Ha].
  - apply phase_inv; [exact V | exact Ha |]. intros m' H. injection H as <-. exact Hm.
Qed.

Lemma hear_inv : forall s e, Inv s -> acked (s_out s) -> match s_phase s with Open _ => True | _ => False end -> (forall i, in_use i (s_heard s ++ [e]) = in_use i (s_heard s)) ->
  operations [] (s_heard s ++ [e]) = operations [] (s_heard s) -> Inv (hear e s).
Proof.
  intros s e [v1 v2 v3 v4 v5 v6 v7 v8 v9 v10 v11 v12 v13 v14 v15 v16] Ha Hph Hu Ho. constructor; proj; try assumption.
  - intros i. rewrite Hu. apply v5.
  - rewrite Ho. exact v6.
  - destruct (s_phase s); try destruct Hph. exact v14.
Qed.
Lemma operations_snoc : forall heard e, operations [] (heard ++ [e]) = operations [] heard ++ match e with Subscribe i r => if in_use i heard then [] else [(i, r)] | _ => [] end.
Proof. intros heard e. rewrite operations_app. cbn [operations app]. rewrite app_nil_r. reflexivity. Qed.

Lemma handle_inv : forall s e, Inv s -> s_phase s = Open None -> Inv (handle e (hear e s)).
Proof.
  intros s e V Hph. assert (Ha : acked (s_out s)) by (destruct V as [_ _ _ _ _ _ _ _ _ _ _ _ _ v14 _ _]; rewrite Hph in v14; exact v14).
  assert (Hop : match s_phase s with Open _ => True | _ => False end) by (rewrite Hph; exact Logic.I).
  destruct e as [| i r | i | |]; cbn [handle].
  - apply answer_inv; [| exact Hop | right; exact Logic.I]. apply hear_inv; [exact V | exact Ha | exact Hop | intros j; rewrite in_use_snoc; reflexivity |]. rewrite operations_snoc, app_nil_r. reflexivity.
  - destruct (find_sub i (s_subs (hear (Subscribe i r) s))) as [k |] eqn:E; cbn [hear s_subs] in E.
    + assert (U : in_use i (s_heard s) = true) by (apply (v_use _ V); apply in_map_iff; exists (i, k); split; [reflexivity | apply find_sub_in; exact E]).
      apply answer_inv; [| exact Hop | right; exact Logic.I]. apply hear_inv; [exact V | exact Ha | exact Hop | |].
      * intros j. rewrite in_use_snoc. destruct (Nat.eqb j i) eqn:Ej; [apply Nat.eqb_eq in Ej as ->; symmetry; exact U | reflexivity].
      * rewrite operations_snoc, U, app_nil_r. reflexivity.
    + assert (Hn := find_sub_none _ _ E). assert (U : in_use i (s_heard s) = false) by (destruct (in_use i (s_heard s)) eqn:X; [apply (v_use _ V) in X; contradiction | reflexivity]).
      destruct V as [v1 v2 v3 v4 v5 v6 v7 v8 v9 v10 v11 v12 v13 v14 v15 v16]. constructor; proj.
      * intros j k [H | H]; [injection H as -> <-; eexists; split; [rewrite nth_error_app2, Nat.sub_diag by lia; reflexivity | reflexivity] |].
        destruct (v1 j k H) as (t & H1 & H2). exists t. split; [rewrite nth_error_app1; [exact H1 | apply nth_error_Some; rewrite H1; discriminate] | exact H2].
      * constructor; assumption.
      * intros k t H Hr. destruct (Nat.lt_ge_cases k (List.length (s_tasks s))) as [Hk | Hk]; [rewrite nth_error_app1 in H by exact Hk; right; apply v3; assumption |].
        rewrite nth_error_app2 in H by exact Hk. destruct (k - List.length (s_tasks s)) as [| d] eqn:Ed; [| destruct d; discriminate]. injection H as <-. left. cbn. f_equal. lia.
      * rewrite Hph. discriminate.
      * intros j. rewrite in_use_snoc. destruct (Nat.eqb j i) eqn:Ej; [apply Nat.eqb_eq in Ej as ->; split; [reflexivity | left; reflexivity] |].
        apply Nat.eqb_neq in Ej. rewrite <- v5. cbn [map fst In]. split; [intros [H | H]; [congruence | exact H] | intro H; right; exact H].
      * rewrite operations_snoc, U, v6. reflexivity.
      * rewrite !map_app, v7. reflexivity.
      * intros k t H. destruct (Nat.lt_ge_cases k (List.length (s_tasks s))) as [Hk | Hk]; [rewrite nth_error_app1 in H by exact Hk; apply v8; exact H |].
        rewrite nth_error_app2 in H by exact Hk. destruct (k - List.length (s_tasks s)) as [| d] eqn:Ed; [| destruct d; discriminate]. injection H as <-. assert (k = List.length (s_tasks s)) as -> by lia.
        unfold handed. cbn [t_sent]. assert (O1 : of_task (List.length (s_tasks s)) (s_out s) = []) by (apply of_task_out; intros j m Hj; apply (v10 j m), in_or_app; left; exact Hj).
        assert (O2 : of_task (List.length (s_tasks s)) (s_queue s) = []) by (apply of_task_out; intros j m Hj; apply (v10 j m), in_or_app; right; exact Hj). rewrite O1, O2.
        destruct (s_pump s); [reflexivity | exists []; reflexivity].
      * exact v9.
      * intros k m H. rewrite app_length. cbn. specialize (v10 _ _ H). lia.
      * intros t H. apply in_app_or in H as [H | [<- | []]]; [exact (v11 _ H) |]. exists [], []. split; [reflexivity | left; reflexivity].
      * exact v12.
      * rewrite Hph. discriminate.
      * rewrite Hph. exact Ha.
      * intros _. exact Ha.
      * exact v16.
  - destruct (find_sub i (s_subs (hear (Complete i) s))) as [k |] eqn:E; cbn [hear s_subs] in E.
    + apply find_sub_in in E. destruct V as [v1 v2 v3 v4 v5 v6 v7 v8 v9 v10 v11 v12 v13 v14 v15 v16].
      assert (Ef : forall j, In j (map fst (filter (fun x : id * nat => negb (Nat.eqb (fst x) i)) (s_subs s))) <-> In j (map fst (s_subs s)) /\ j <> i).
      { intro j. rewrite !in_map_iff. split.
        - intros (x & <- & H). apply filter_In in H as [H1 H2]. split; [exists x; split; [reflexivity | exact H1] |]. intro C. rewrite C, Nat.eqb_refl in H2. discriminate.
        - intros ((x & <- & H1) & H2). exists x. split; [reflexivity |]. apply filter_In. split; [exact H1 |]. apply Nat.eqb_neq in H2. rewrite H2. reflexivity. }
      constructor; proj.
      * intros j k' H. apply filter_In in H as [H _]. destruct (v1 j k' H) as (t & H1 & H2). rewrite nth_update, H1. destruct (Nat.eqb k' k); [exists (abort t); split; [reflexivity | rewrite abort_id; exact H2] | exists t; split; [reflexivity | exact H2]].
      * clear - v2. induction (s_subs s) as [| x l IH]; [constructor |]. cbn [map] in v2. inversion v2 as [| y z H1 H2]. subst. cbn [filter]. destruct (negb (Nat.eqb (fst x) i)); [| apply IH; exact H2]. cbn [map]. constructor; [| apply IH; exact H2].
        intro C. apply H1. apply in_map_iff in C as (w & <- & C). apply filter_In in C as [C _]. apply in_map. exact C.
      * intros k' t H Hr. rewrite nth_update in H. destruct (Nat.eqb k' k) eqn:Ek.
        -- destruct (nth_error (s_tasks s) k') as [t0 |]; [| discriminate]. injection H as <-. destruct (abort_not_running _ Hr).
        -- apply Nat.eqb_neq in Ek. specialize (v3 k' t H Hr). apply filter_In. split; [exact v3 |]. cbn [fst]. destruct (Nat.eqb (t_id t) i) eqn:Ei; [| reflexivity]. apply Nat.eqb_eq in Ei. rewrite Ei in v3. exfalso. apply Ek.
           clear - v2 v3 E. induction (s_subs s) as [| x l IH]; [destruct E |]. cbn [map] in v2. inversion v2 as [| y z H1 H2]. subst. destruct v3 as [-> | v3], E as [E | E].
           ++ injection E as <-. reflexivity.
           ++ exfalso. apply H1. apply in_map_iff. exists (i, k). split; [reflexivity | exact E].
           ++ subst x. exfalso. apply H1. apply in_map_iff. exists (i, k'). split; [reflexivity | exact v3].
           ++ apply IH; assumption.
      * rewrite Hph. discriminate.
      * intros j. rewrite in_use_snoc. rewrite Ef, v5. destruct (Nat.eqb j i) eqn:Ej; [apply Nat.eqb_eq in Ej as ->; split; [intros [_ H]; contradiction | discriminate] |]. apply Nat.eqb_neq in Ej. split; [intros [H _]; exact H | intros H; split; assumption].
      * rewrite operations_snoc, app_nil_r. exact v6.
      * rewrite map_update by apply abort_id. exact v7.
      * intros k' t H. rewrite nth_update in H. destruct (Nat.eqb k' k); [| apply v8; exact H]. destruct (nth_error (s_tasks s) k') as [t0 |] eqn:Et; [| discriminate]. injection H as <-. unfold handed. rewrite abort_sent. exact (v8 _ _ Et).
      * exact v9.
      * intros k' m H. rewrite update_length. exact (v10 _ _ H).
      * intros t H. apply in_update in H as [H | (y & H & ->)]; [exact (v11 _ H) |]. apply shape_abort. apply v11. apply (nth_error_In _ _ H).
      * exact v12.
      * rewrite Hph. discriminate.
      * rewrite Hph. exact Ha.
      * intros _. exact Ha.
      * exact v16.
    + apply hear_inv; [exact V | exact Ha | exact Hop | |].
      * intros j. rewrite in_use_snoc. destruct (Nat.eqb j i) eqn:Ej; [| reflexivity]. apply Nat.eqb_eq in Ej as ->. destruct (in_use i (s_heard s)) eqn:X; [| reflexivity]. apply (v_use _ V) in X. destruct (find_sub_none _ _ E X).
      * rewrite operations_snoc, app_nil_r. reflexivity.
  - apply answer_inv; [| exact Hop | left; reflexivity]. apply hear_inv; [exact V | exact Ha | exact Hop | intros j; rewrite in_use_snoc; reflexivity |]. rewrite operations_snoc, app_nil_r. reflexivity.
  - apply hear_inv; [exact V | exact Ha | exact Hop | intros j; rewrite in_use_snoc; reflexivity |]. rewrite operations_snoc, app_nil_r. reflexivity.
Qed.

Lemma task_sends_inv : forall s k m st, Inv s -> (forall i, own (m i) -> False) -> (forall i, m i <> MAck) ->
  (forall t, In t (s_tasks s) -> t_status t <> Over -> shape (add_sent (m (t_id t)) (st (t_status t)) t)) -> (forall x, st x = Running -> x = Running) -> Inv (task_sends k m st s).
Proof.
  intros s k m st V Hown Hack Hshape Hst. unfold task_sends. destruct (nth_error (s_tasks s) k) as [t |] eqn:Et; [| exact V].
  assert (Hin := nth_error_In _ _ Et).
  assert (K : t_status t <> Over -> Inv (if s_pump s then if room s then enqueue (Some k, m (t_id t)) (with_tasks (update k (add_sent (m (t_id t)) (st (t_status t))) (s_tasks s)) s) else s
    else with_tasks (update k (set_status Over) (s_tasks s)) s)); [| destruct (t_status t); try (apply K; discriminate); exact V].
  intros Hover. specialize (Hshape t Hin Hover). destruct V as [v1 v2 v3 v4 v5 v6 v7 v8 v9 v10 v11 v12 v13 v14 v15 v16].
  assert (Hne : s_tasks s <> []) by (intro C; rewrite C in Hin; destruct Hin). assert (Ha := v15 Hne).
  assert (Hk : k < List.length (s_tasks s)) by (apply nth_error_Some; rewrite Et; discriminate).
  destruct (s_pump s) eqn:Ep; [destruct (room s); [| constructor; rewrite ?Ep; assumption] |].
  - constructor; proj.
    + intros i j H. destruct (v1 i j H) as (t0 & H1 & H2). rewrite nth_update, H1. destruct (Nat.eqb j k); [eexists; split; [reflexivity | exact H2] | exists t0; split; [reflexivity | exact H2]].
    + exact v2.
    + intros j t0 H Hr. rewrite nth_update in H. destruct (Nat.eqb j k) eqn:E; [| apply v3; assumption]. apply Nat.eqb_eq in E as ->. rewrite Et in H. injection H as <-. cbn [add_sent t_id t_status] in *. apply v3; [exact Et |]. apply Hst. exact Hr.
    + intros He j t0 H. rewrite nth_update in H. destruct (Nat.eqb j k) eqn:E; [| apply (v4 He j t0); assumption]. apply Nat.eqb_eq in E as ->. rewrite Et in H. injection H as <-. cbn [add_sent t_status]. intro C. apply Hst in C. exact (v4 He _ _ Et C).
    + exact v5.
    + exact v6.
    + rewrite map_update by reflexivity. exact v7.
    + intros j t0 H. unfold handed. rewrite Ep. rewrite of_task_app, of_task_some, (Nat.eqb_sym k j). rewrite nth_update in H. destruct (Nat.eqb j k) eqn:E.
      * apply Nat.eqb_eq in E as ->. rewrite Et in H. injection H as <-. cbn [add_sent t_sent]. specialize (v8 _ _ Et). unfold handed in v8. rewrite <- v8, app_assoc. reflexivity.
      * specialize (v8 _ _ H). unfold handed in v8. rewrite app_nil_r. exact v8.
    + rewrite Ep. discriminate.
    + intros j m' H. rewrite update_length. rewrite app_assoc in H. apply in_app_or in H as [H | [H | []]]; [exact (v10 _ _ H) | injection H as <- _; exact Hk].
    + intros t0 H. apply in_update in H as [H | (y & H & ->)]; [exact (v11 _ H) |]. rewrite Et in H. injection H as <-. exact Hshape.
    + intros m' H. apply in_app_or in H as [H | [H | []]]; [exact (v12 _ H) | discriminate].
    + exact v13.
    + destruct (s_phase s); [destruct v14 as [C _]; contradiction | destruct v14 as [C _]; contradiction | exact v14 | left; exact Ha].
    + intros _. exact Ha.
    + exact v16.
  - constructor; proj; rewrite ?Ep.
    + intros i j H. destruct (v1 i j H) as (t0 & H1 & H2). rewrite nth_update, H1. destruct (Nat.eqb j k); [eexists; split; [reflexivity | exact H2] | exists t0; split; [reflexivity | exact H2]].
    + exact v2.
    + intros j t0 H Hr. rewrite nth_update in H. destruct (Nat.eqb j k) eqn:E; [| apply v3; assumption]. apply Nat.eqb_eq in E as ->. rewrite Et in H. injection H as <-. discriminate Hr.
    + intros He j t0 H. rewrite nth_update in H. destruct (Nat.eqb j k) eqn:E; [| apply (v4 He j t0); assumption]. apply Nat.eqb_eq in E as ->. rewrite Et in H. injection H as <-. discriminate.
    + exact v5.
    + exact v6.
    + rewrite map_update by reflexivity. exact v7.
    + intros j t0 H. rewrite nth_update in H. destruct (Nat.eqb j k) eqn:E; [| apply v8; exact H]. apply Nat.eqb_eq in E as ->. rewrite Et in H. injection H as <-. exact (v8 _ _ Et).
    + exact v9.
    + intros j m' H. rewrite update_length. exact (v10 _ _ H).
    + intros t0 H. apply in_update in H as [H | (y & H & ->)]; [exact (v11 _ H) |]. rewrite Et in H. injection H as <-. destruct (v11 _ Hin) as (rs & e & E & H'). exists rs, e. split; [exact E |]. destruct H' as [-> | [-> _]]; [left; reflexivity | right; split; reflexivity].
    + exact v12.
    + exact v13.
    + destruct (s_phase s); [destruct v14 as [C _]; contradiction | destruct v14 as [C _]; contradiction | exact v14 | left; exact Ha].
    + intros _. exact Ha.
    + exact v16.
Qed.

(** Before the loop. *)
Lemma early : forall s, Inv s -> s_phase s = Waiting \/ s_phase s = Creating ->
  s_tasks s = [] /\ s_subs s = [] /\ s_queue s = [] /\ s_heard s = [] /\ s_pump s = true /\ pings (s_out s).
Proof.
  intros s V H. assert (P := v_phase _ V). assert (Q : s_tasks s = [] /\ s_queue s = [] /\ s_heard s = [] /\ s_pump s = true /\ pings (s_out s)) by (destruct H as [E | E]; rewrite E in P; exact P).
  destruct Q as (Q1 & Q2 & Q3 & Q4 & Q5). split; [exact Q1 |]. split; [| split; [exact Q2 | split; [exact Q3 | split; [exact Q4 | exact Q5]]]].
  destruct (s_subs s) as [| [i k] l] eqn:E; [reflexivity |]. destruct (v_subs _ V i k) as (t & Ht & _); [rewrite E; left; reflexivity |]. rewrite Q1 in Ht. destruct k; discriminate.
Qed.
(** A state of the same connection in another phase, or with another output, before the loop. *)
Lemma early_inv : forall s s', Inv s -> s_phase s = Waiting \/ s_phase s = Creating ->
  s_tasks s' = [] -> s_subs s' = [] -> s_queue s' = [] -> s_heard s' = [] -> s_pump s' = true -> s_executed s' = [] ->
  (s_phase s' = Waiting \/ s_phase s' = Creating) /\ pings (s_out s') \/
  s_phase s' = Ended /\ (pings (s_out s') \/ exists a c, s_out s' = a ++ [(None, MClose c)] /\ pings a) \/
  s_phase s' = Open None /\ (exists a, s_out s' = a ++ [(None, MAck)] /\ pings a) ->
  Inv s'.
Proof.
  intros s s' V H T1 T2 T3 T4 T5 T6 P.
  assert (Z : forall k (t : task), nth_error [] k = Some t -> False) by (intros [| k] t X; discriminate).
  assert (Tag : forall k m, ~ In (Some k, m) (s_out s')).
  { assert (F : forall k m l, pings l -> ~ In (Some k, m) l) by (intros k m l Hp C; unfold pings in Hp; rewrite Forall_forall in Hp; specialize (Hp _ C); discriminate).
    intros k m C. destruct P as [[_ P] | [[_ [P | (a & c & E & P)]] | [_ (a & E & P)]]]; [exact (F _ _ _ P C) | exact (F _ _ _ P C) | |]; rewrite E in C; apply in_app_or in C as [C | [C | []]]; [exact (F _ _ _ P C) | discriminate | exact (F _ _ _ P C) | discriminate]. }
  constructor; rewrite ?T1, ?T2, ?T3, ?T4, ?T5, ?T6.
  - intros i k [].
  - constructor.
  - intros k t C. destruct (Z _ _ C).
  - intros _ k t C. destruct (Z _ _ C).
  - intros i. split; [intros [] | discriminate].
  - reflexivity.
  - reflexivity.
  - intros k t C. destruct (Z _ _ C).
  - reflexivity.
  - intros k m C. rewrite app_nil_r in C. destruct (Tag _ _ C).
  - intros t [].
  - intros m [].
  - intros m C. destruct P as [[[E | E] _] | [[E _] | [E _]]]; rewrite E in C; discriminate.
  - destruct P as [[[E | E] P] | [[E P] | [E (a & Ea & P)]]]; rewrite E.
    + split; [reflexivity |]. split; [reflexivity |]. split; [reflexivity |]. split; [reflexivity | exact P].
    + split; [reflexivity |]. split; [reflexivity |]. split; [reflexivity |]. split; [reflexivity | exact P].
    + right. split; [reflexivity |]. split; [reflexivity |]. split; [reflexivity | exact P].
    + exists a, []. split; [exact Ea |]. split; [exact P | intros t []].
  - intros C. contradiction.
  - intros a t m b E C. destruct P as [[_ P] | [[_ [P | (a' & c & Ea & P)]] | [_ (a' & Ea & P)]]].
    + destruct (pings_no_close _ _ _ _ _ P E C).
    + destruct (pings_no_close _ _ _ _ _ P E C).
    + rewrite Ea in E. apply snoc_split in E as [(-> & _) | (b' & -> & E)]; [reflexivity |]. destruct (pings_no_close _ _ _ _ _ P E C).
    + rewrite Ea in E. apply snoc_split in E as [(-> & _) | (b' & -> & E)]; [reflexivity |]. destruct (pings_no_close _ _ _ _ _ P E C).
Qed.

Lemma executed_early : forall s, Inv s -> s_phase s = Waiting \/ s_phase s = Creating -> s_executed s = [].
Proof. intros s V H. destruct (early s V H) as (_ & _ & _ & E & _). rewrite (v_exec _ V), E. reflexivity. Qed.

Lemma step_inv : forall s i, Inv s -> Inv (step s i).
Proof.
  intros s i V. destruct i as [m sent | ok sent | | k r | k | k | ok |]; cbn [step].
  - unfold receive. destruct (s_phase s) as [| | [b |] |] eqn:Hph.
    + destruct (early s V (or_introl Hph)) as (E1 & E2 & E3 & E4 & E5 & E6). assert (E7 := executed_early s V (or_introl Hph)).
      assert (End : Inv (with_phase Ended s)) by (apply (early_inv s); try assumption; [left; exact Hph | right; left; split; [reflexivity | left; exact E6]]).
      destruct m as [[e |] | | | |]; try exact End; [| exact V]. destruct e as [| i r | i | |]; cbn [accept]; try exact V.
      * apply (early_inv s); try assumption; [left; exact Hph | left; split; [right; reflexivity | exact E6]].
      * destruct sent; [| exact End]. apply (early_inv s); try assumption; [left; exact Hph | right; left; split; [reflexivity | right; exists (s_out s), 4401%N; split; [reflexivity | exact E6]]].
      * destruct sent; [| exact End]. apply (early_inv s); try assumption; [left; exact Hph | left; split; [left; exact Hph |]]. apply Forall_app. split; [exact E6 | constructor; [reflexivity | constructor]].
    + destruct m as [[e |] | | | |]; exact V.
    + destruct m as [[e |] | | | |]; exact V.
    + assert (Ha : acked (s_out s)) by (assert (P := v_phase _ V); rewrite Hph in P; exact P).
      destruct m as [[e |] | | | |]; try exact V; try (apply finish_inv; assumption). apply handle_inv; assumption.
    + destruct m as [[e |] | | | |]; exact V.
  - destruct (s_phase s) as [| | b |] eqn:Hph; try exact V. destruct (early s V (or_intror Hph)) as (E1 & E2 & E3 & E4 & E5 & E6). assert (E7 := executed_early s V (or_intror Hph)).
    assert (End : Inv (with_phase Ended s)) by (apply (early_inv s); try assumption; [right; exact Hph | right; left; split; [reflexivity | left; exact E6]]).
    destruct ok, sent; try exact End.
    + apply (early_inv s); try assumption; [right; exact Hph | right; right; split; [reflexivity | exists (s_out s); split; [reflexivity | exact E6]]].
    + apply (early_inv s); try assumption; [right; exact Hph | right; left; split; [reflexivity | right; exists (s_out s), 4403%N; split; [reflexivity | exact E6]]].
  - assert (K : s_phase s = Waiting \/ s_phase s = Creating -> Inv (with_phase Ended (write (None, MClose 4408) s))).
    { intro H. destruct (early s V H) as (E1 & E2 & E3 & E4 & E5 & E6). assert (E7 := executed_early s V H).
      apply (early_inv s); try assumption. right. left. split; [reflexivity | right; exists (s_out s), 4408%N; split; [reflexivity | exact E6]]. }
    destruct (s_phase s) as [| | b |]; try exact V; apply K; [left; reflexivity | right; reflexivity].
  - apply task_sends_inv; [exact V | | | | intros x H; exact H].
    + intros i [H | H]; destruct r; [discriminate | discriminate | destruct H | destruct H].
    + intros i H. destruct r; discriminate.
    + intros t Ht Hs. destruct (v_shape _ V t Ht) as (rs & e & E & H). exists (rs ++ [r]), []. cbn [add_sent t_sent t_id]. destruct H as [-> | [_ H]]; [| contradiction]. rewrite E, map_app, !app_nil_r. split; [reflexivity | left; reflexivity].
  - apply task_sends_inv; [exact V | | | | intros x H; discriminate H].
    + intros i [H | H]; [discriminate | destruct H].
    + discriminate.
    + intros t Ht Hs. destruct (v_shape _ V t Ht) as (rs & e & E & H). exists rs, [MComplete (t_id t)]. cbn [add_sent t_sent t_id t_status]. destruct H as [-> | [_ H]]; [| contradiction]. rewrite E, app_nil_r. split; [reflexivity | right; split; reflexivity].
  - destruct (nth_error (s_tasks s) k) as [t |] eqn:Et; [| exact V]. destruct (t_status t) eqn:Est; try exact V.
    destruct V as [v1 v2 v3 v4 v5 v6 v7 v8 v9 v10 v11 v12 v13 v14 v15 v16]. assert (Hin := nth_error_In _ _ Et).
    assert (Hne : s_tasks s <> []) by (intro C; rewrite C in Hin; destruct Hin). assert (Ha := v15 Hne).
    constructor; proj.
    + intros i j H. destruct (v1 i j H) as (t0 & H1 & H2). rewrite nth_update, H1. destruct (Nat.eqb j k); [eexists; split; [reflexivity | exact H2] | exists t0; split; [reflexivity | exact H2]].
    + exact v2.
    + intros j t0 H Hr. rewrite nth_update in H. destruct (Nat.eqb j k) eqn:E; [| apply v3; assumption]. apply Nat.eqb_eq in E as ->. rewrite Et in H. injection H as <-. discriminate Hr.
    + intros He j t0 H. rewrite nth_update in H. destruct (Nat.eqb j k) eqn:E; [| apply (v4 He j t0); assumption]. apply Nat.eqb_eq in E as ->. rewrite Et in H. injection H as <-. discriminate.
    + exact v5.
    + exact v6.
    + rewrite map_update by reflexivity. exact v7.
    + intros j t0 H. rewrite nth_update in H. destruct (Nat.eqb j k) eqn:E; [| apply v8; exact H]. apply Nat.eqb_eq in E as ->. rewrite Et in H. injection H as <-. exact (v8 _ _ Et).
    + exact v9.
    + intros j m' H. rewrite update_length. exact (v10 _ _ H).
    + intros t0 H. apply in_update in H as [H | (y & H & ->)]; [exact (v11 _ H) |]. rewrite Et in H. injection H as <-. destruct (v11 _ Hin) as (rs & e & E & H'). exists rs, e. split; [exact E |]. destruct H' as [-> | [-> _]]; [left; reflexivity | right; split; reflexivity].
    + exact v12.
    + exact v13.
    + destruct (s_phase s); [destruct v14 as [C _]; contradiction | destruct v14 as [C _]; contradiction | exact v14 | left; exact Ha].
    + intros _. exact Ha.
    + exact v16.
  - destruct (s_pump s) eqn:Ep; [| exact V]. destruct (s_queue s) as [| m q] eqn:Eq; [exact V |].
    assert (Ha : acked (s_out s)).
    { assert (P := v_phase _ V). destruct (s_phase s); [destruct P as (_ & P & _); congruence | destruct P as (_ & P & _); congruence | exact P |]. destruct P as [P | (_ & P & _)]; [exact P | congruence]. }
    destruct V as [v1 v2 v3 v4 v5 v6 v7 v8 v9 v10 v11 v12 v13 v14 v15 v16]. destruct (ok && negb (closed s)) eqn:Eok.
    + apply andb_true_iff in Eok as [-> Hc]. apply negb_true_iff in Hc. destruct m as [tag m].
      assert (Hm : m <> MAck).
      { intros ->. destruct tag as [k |].
        - assert (In (Some k, MAck) (s_out s ++ s_queue s)) as X by (rewrite Eq; apply in_or_app; right; left; reflexivity). specialize (v10 _ _ X).
          destruct (nth_error (s_tasks s) k) as [t |] eqn:Et; [| apply nth_error_None in Et; lia]. assert (Hs := v8 _ _ Et). unfold handed in Hs. rewrite Ep, Eq in Hs.
          assert (In MAck (t_sent t)) as Hi. { rewrite <- Hs. apply in_or_app. right. unfold of_task. cbn [filter fst]. rewrite Nat.eqb_refl. left. reflexivity. }
          destruct (v11 _ (nth_error_In _ _ Et)) as (rs & e & E & H). rewrite E in Hi. apply in_app_or in Hi as [Hi | Hi]; [apply in_map_iff in Hi as ([r | r] & Hi & _); discriminate |]. destruct H as [-> | [-> _]]; [destruct Hi | destruct Hi as [Hi | []]; discriminate].
        - destruct (v12 MAck) as [H | H]; [rewrite Eq; left; reflexivity | discriminate | destruct H]. }
      constructor; proj; try assumption.
      * intros k t H. specialize (v8 k t H). unfold handed in *. rewrite Ep, Eq in v8. rewrite of_task_app, <- app_assoc, <- of_task_app. exact v8.
      * discriminate.
      * intros k m' H. rewrite <- app_assoc in H. cbn [app] in H. rewrite <- Eq in H. exact (v10 _ _ H).
      * intros m' H. apply v12. rewrite Eq. right. exact H.
      * destruct (s_phase s); [destruct v14 as (_ & C & _); congruence | destruct v14 as (_ & C & _); congruence | apply acked_snoc; assumption | left; apply acked_snoc; assumption].
      * intros _. apply acked_snoc; assumption.
      * intros a t m' b E C. apply snoc_split in E as [(-> & _) | (b' & -> & E)]; [reflexivity |]. destruct (closed_false _ _ _ _ _ Hc E C).
    + constructor; proj; try assumption.
      * intros k t H. specialize (v8 k t H). unfold handed in *. rewrite Ep, Eq in v8. exists (of_task k (m :: q)). symmetry. exact v8.
      * reflexivity.
      * intros k m' H. rewrite app_nil_r in H. apply (v10 k m'). apply in_or_app. left. exact H.
      * intros m' [].
      * destruct (s_phase s); [destruct v14 as (_ & C & _); congruence | destruct v14 as (_ & C & _); congruence | exact v14 | left; exact Ha].
  - destruct (s_phase s) as [| | [m |] |] eqn:Hph; try exact V. apply answer_inv; [exact V | rewrite Hph; exact Logic.I | apply (v_blocked _ V m Hph)].
Qed.
Theorem run_inv : forall inputs, Inv (run inputs).
Proof. intro inputs. unfold run. assert (H : forall l s, Inv s -> Inv (fold_left step l s)) by (induction l as [| i l IH]; intros s V; [exact V | apply IH, step_inv, V]). apply H, start_inv. Qed.
