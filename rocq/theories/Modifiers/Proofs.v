From Coq Require Import List Arith Bool Lia Sorting.Sorted Sorting.Permutation.
From Verif.Modifiers Require Import Model Spec.
Import ListNotations.

(** ** Accumulation *)
Lemma update_length i f l : List.length (update i f l) = List.length l.
Proof. revert i. induction l as [|x l IH]; intros [|i]; cbn; auto. Qed.
Lemma update_rules i f l : (forall x, r_rule (f x) = r_rule x) -> map r_rule (update i f l) = map r_rule l.
Proof. intros H. revert i. induction l as [|x l IH]; intros [|i]; cbn; rewrite ?H, ?IH; reflexivity. Qed.
Lemma update_nth i f l j : nth_error (update i f l) j = if j =? i then option_map f (nth_error l j) else nth_error l j.
Proof.
  revert i j. induction l as [|x l IH]; intros [|i] [|j]; cbn; try reflexivity.
  - destruct (j =? i); reflexivity.
  - apply IH.
Qed.

Definition acc_ok (n : nat) (a : accumulator) (ins : list (rule * option nat)) : Prop :=
  (forall r i, lookup r (dedup a) = Some i -> n <= i /\ exists x, nth_error (records a) i = Some x /\ r_rule x = r) /\
  (forall i x, n <= i -> nth_error (records a) i = Some x -> lookup (r_rule x) (dedup a) = Some i) /\
  (forall r, (exists i, lookup r (dedup a) = Some i) <-> In r (map fst ins)) /\
  (forall i x, n <= i -> nth_error (records a) i = Some x ->
     r_fields x = fields_of (r_rule x) ins /\ (r_root x = true <-> In (r_rule x, None) ins)) /\
  n <= List.length (records a).

Lemma fields_of_app r a b : fields_of r (a ++ b) = fields_of r a ++ fields_of r b.
Proof. unfold fields_of. apply flat_map_app. Qed.
Lemma fields_of_none r ins : ~ In r (map fst ins) -> fields_of r ins = [].
Proof.
  induction ins as [|[r' f] ins IH]; intros H; [reflexivity|]. unfold fields_of. cbn [flat_map fst].
  destruct (rule_eq_dec r' r); [subst; exfalso; apply H; left; reflexivity|]. cbn [app].
  apply IH. intros I. apply H. right. exact I.
Qed.

Lemma insert_ok n a ins r f : acc_ok n a ins -> acc_ok n (insert a r f) (ins ++ [(r, f)]).
Proof.
  intros (H1 & H2 & H3 & H4 & H5). unfold insert.
  set (upd := fun x => match f with
       | Some f => {| r_rule := r_rule x; r_root := r_root x; r_fields := r_fields x ++ [f] |}
       | None => {| r_rule := r_rule x; r_root := true; r_fields := r_fields x |} end).
  assert (Ur : forall x, r_rule (upd x) = r_rule x) by (intros x; unfold upd; destruct f; reflexivity).
  assert (G : forall a' ix, 
     (forall r' i, lookup r' (dedup a') = Some i -> n <= i /\ exists x, nth_error (records a') i = Some x /\ r_rule x = r') ->
     (forall i x, n <= i -> nth_error (records a') i = Some x -> lookup (r_rule x) (dedup a') = Some i) ->
     (forall r', (exists i, lookup r' (dedup a') = Some i) <-> In r' (map fst ins) \/ r' = r) ->
     (forall i x, n <= i -> nth_error (records a') i = Some x ->
       r_fields x = fields_of (r_rule x) ins /\ (r_root x = true <-> In (r_rule x, None) ins)) ->
     n <= List.length (records a') -> lookup r (dedup a') = Some ix ->
     acc_ok n {| dedup := dedup a'; records := update ix upd (records a') |} (ins ++ [(r, f)])).
  { intros a' ix G1 G2 G3 G4 G5 L. split; [|split; [|split; [|split]]]; cbn [dedup records].
    - intros r' i E. destruct (G1 _ _ E) as [A (x & B & C)]. split; [exact A|]. rewrite update_nth, B.
      destruct (i =? ix); cbn [option_map]; eexists; (split; [reflexivity|]); rewrite ?Ur; exact C.
    - intros i x Hi E. rewrite update_nth in E. destruct (Nat.eqb_spec i ix) as [->|N].
      + destruct (nth_error (records a') ix) as [y|] eqn:Ey; [|discriminate]. injection E as <-. rewrite Ur. apply G2; assumption.
      + apply G2; assumption.
    - intros r'. rewrite G3, map_app, in_app_iff. cbn. split; [intros [?| -> ]; auto|intros [?|[?|[]]]; auto].
    - intros i x Hi E. rewrite update_nth in E. rewrite fields_of_app, in_app_iff. cbn [In].
      destruct (Nat.eqb_spec i ix) as [->|N].
      + destruct (nth_error (records a') ix) as [y|] eqn:Ey; [|discriminate]. injection E as <-. rewrite Ur.
        destruct (G4 _ _ Hi Ey) as [A B]. pose proof (G2 _ _ Hi Ey) as C.
        destruct (G1 _ _ L) as [_ (y' & Ey' & R)]. assert (y' = y) by congruence. subst y'. rewrite R in *.
        unfold fields_of at 2. cbn [flat_map fst snd]. destruct (rule_eq_dec r r); [|congruence].
        unfold upd. destruct f as [f|]; cbn [r_fields r_root app]; rewrite A, ?app_nil_r.
        * split; [reflexivity|]. rewrite B. split; [auto|]. intros [?|[?|[]]]; [assumption|discriminate].
        * split; [reflexivity|]. split; auto.
      + destruct (G4 _ _ Hi E) as [A B]. assert (R : r_rule x <> r).
        { intros R. pose proof (G2 _ _ Hi E) as C. rewrite R in C. congruence. }
        unfold fields_of at 2. cbn [flat_map fst snd]. destruct (rule_eq_dec r (r_rule x)); [congruence|].
        cbn [app]. rewrite app_nil_r. split; [exact A|]. rewrite B. split; [auto|]. intros [?|[?|[]]]; [assumption|congruence].
    - rewrite update_length. exact G5. }
  destruct (lookup r (dedup a)) as [ix|] eqn:L.
  - apply G; auto. intros r'. rewrite H3. split; [auto|]. intros [?| -> ]; [assumption|]. apply H3. eauto.
  - cbn [dedup records].
    set (a' := {| dedup := (r, List.length (records a)) :: dedup a;
                  records := records a ++ [{| r_rule := r; r_root := false; r_fields := [] |}] |}).
    assert (Nr : ~ In r (map fst ins)). { intros I. apply H3 in I. destruct I as [i I]. congruence. }
    apply (G a' (List.length (records a))); unfold a'; cbn [dedup records].
    + intros r' i E. cbn [lookup] in E. destruct (rule_eq_dec r' r) as [->|N].
      * injection E as <-. split; [exact H5|]. rewrite nth_error_app2, Nat.sub_diag by lia. eexists. split; reflexivity.
      * destruct (H1 _ _ E) as [A (x & B & C)]. split; [exact A|]. exists x. split; [|exact C].
        rewrite nth_error_app1; [exact B|]. apply nth_error_Some. congruence.
    + intros i x Hi E. destruct (Nat.lt_ge_cases i (List.length (records a))) as [Li|Li].
      * rewrite nth_error_app1 in E by exact Li. pose proof (H2 _ _ Hi E) as C. cbn [lookup].
        destruct (rule_eq_dec (r_rule x) r) as [R|R]; [rewrite R in C; congruence|exact C].
      * rewrite nth_error_app2 in E by exact Li. destruct (i - List.length (records a)) as [|k] eqn:Ek; [|destruct k; discriminate].
        injection E as <-. cbn [r_rule lookup]. destruct (rule_eq_dec r r); [|congruence]. f_equal. lia.
    + intros r'. cbn [lookup]. destruct (rule_eq_dec r' r) as [->|N]; [split; eauto|]. rewrite H3. split; [auto|]. intros [?|?]; [assumption|contradiction].
    + intros i x Hi E. destruct (Nat.lt_ge_cases i (List.length (records a))) as [Li|Li].
      * rewrite nth_error_app1 in E by exact Li. apply (H4 i); assumption.
      * rewrite nth_error_app2 in E by exact Li. destruct (i - List.length (records a)) as [|k] eqn:Ek; [|destruct k; discriminate].
        injection E as <-. cbn [r_rule r_fields r_root]. rewrite fields_of_none by exact Nr. split; [reflexivity|].
        split; [discriminate|]. intros I. exfalso. apply Nr, in_map_iff. exists (r, None). auto.
    + rewrite app_length. lia.
    + cbn [lookup]. destruct (rule_eq_dec r r); [reflexivity|congruence].
Qed.
Lemma fold_insert_ok n : forall ins a done, acc_ok n a done ->
  acc_ok n (fold_left (fun a i => insert a (fst i) (snd i)) ins a) (done ++ ins).
Proof.
  induction ins as [|[r f] ins IH]; intros a done H; cbn [fold_left]; [rewrite app_nil_r; exact H|].
  replace (done ++ (r, f) :: ins) with ((done ++ [(r, f)]) ++ ins) by (rewrite <- app_assoc; reflexivity).
  apply IH. apply insert_ok. exact H.
Qed.
Lemma insert_prefix n a r f : n <= List.length (records a) -> (forall r i, lookup r (dedup a) = Some i -> n <= i) ->
  firstn n (records (insert a r f)) = firstn n (records a).
Proof.
  intros L H. unfold insert.
  assert (U : forall i g l, n <= i -> firstn n (update i g l) = firstn n l).
  { clear. induction n as [|n IH]; intros i g l Hi; [reflexivity|]. destruct l, i; cbn; try reflexivity; [lia|]. f_equal. apply IH. lia. }
  destruct (lookup r (dedup a)) as [ix|] eqn:E; cbn [records].
  - apply U. eapply H. exact E.
  - rewrite U by exact L. rewrite firstn_app. replace (n - List.length (records a)) with 0 by lia. cbn. apply app_nil_r.
Qed.
Lemma fold_prefix n : forall ins a done, acc_ok n a done ->
  firstn n (records (fold_left (fun a i => insert a (fst i) (snd i)) ins a)) = firstn n (records a).
Proof.
  induction ins as [|[r f] ins IH]; intros a done H; cbn [fold_left]; [reflexivity|].
  cbn [fst snd]. rewrite (IH _ _ (insert_ok n a done r f H)). destruct H as (H1 & _ & _ & _ & H5).
  apply insert_prefix; [exact H5|]. intros r' i E. apply (H1 _ _ E).
Qed.
Lemma acc_start native : acc_ok (List.length native) {| dedup := []; records := native |} [].
Proof.
  split; [|split; [|split; [|split]]]; cbn [dedup records].
  - intros r i E. discriminate.
  - intros i x Hi E. assert (i < List.length native) by (apply nth_error_Some; congruence). lia.
  - intros r. cbn. split; [intros [i E]; discriminate|tauto].
  - intros i x Hi E. assert (i < List.length native) by (apply nth_error_Some; congruence). lia.
  - lia.
Qed.

Lemma accumulate_spec native ins : exists acc,
  accumulate native ins = native ++ acc /\ NoDup (map r_rule acc) /\
  (forall r, In r (map r_rule acc) <-> In r (map fst ins)) /\
  (forall x, In x acc -> r_fields x = fields_of (r_rule x) ins /\ (r_root x = true <-> In (r_rule x, None) ins)).
Proof.
  set (a := fold_left (fun a i => insert a (fst i) (snd i)) ins {| dedup := []; records := native |}).
  pose proof (fold_insert_ok (List.length native) ins _ [] (acc_start native)) as H. fold a in H. cbn [app] in H.
  pose proof (fold_prefix (List.length native) ins _ [] (acc_start native)) as P. fold a in P. cbn [records] in P.
  rewrite firstn_all in P.
  destruct H as (H1 & H2 & H3 & H4 & H5). set (n := List.length native) in *.
  exists (skipn n (records a)). unfold accumulate. fold a.
  assert (Hn : forall j, nth_error (skipn n (records a)) j = nth_error (records a) (n + j)).
  { intros j. rewrite <- (firstn_skipn n (records a)) at 2. rewrite nth_error_app2; rewrite firstn_length_le by exact H5; [|lia].
    f_equal. lia. }
  split; [rewrite <- P at 1; symmetry; apply firstn_skipn|]. split; [|split].
  - apply NoDup_nth_error. intros i j Hi E. rewrite map_length in Hi. rewrite !nth_error_map, !Hn in E.
    assert (exists x, nth_error (records a) (n + i) = Some x) as [x Ex].
    { rewrite <- Hn. destruct (nth_error (skipn n (records a)) i) eqn:Q; [eauto|]. apply nth_error_None in Q. lia. }
    rewrite Ex in E. cbn in E. destruct (nth_error (records a) (n + j)) as [y|] eqn:Ey; [|discriminate].
    injection E as E. apply H2 in Ex; [|lia]. apply H2 in Ey; [|lia]. rewrite E in Ex. assert (n + i = n + j) by congruence. lia.
  - intros r. rewrite <- H3. rewrite in_map_iff. split.
    + intros (x & <- & I). apply In_nth_error in I. destruct I as [j I]. rewrite Hn in I. exists (n + j). apply H2; [lia|exact I].
    + intros (i & E). destruct (H1 _ _ E) as [A (x & B & C)]. exists x. split; [exact C|].
      apply (nth_error_In _ (i - n)). rewrite Hn. replace (n + (i - n)) with i by lia. exact B.
  - intros x I. apply In_nth_error in I. destruct I as [j I]. rewrite Hn in I. apply (H4 (n + j)); [lia|exact I].
Qed.

(** ** Slices *)
Lemma skipn_add {A} : forall (l : list A) m n, skipn n (skipn m l) = skipn (m + n) l.
Proof. induction l as [|x l IH]; intros [|m] n; [reflexivity|destruct n; reflexivity|reflexivity|apply IH]. Qed.
Lemma slice_app {A} (l : list A) a b c : a <= b <= c -> slice l a c = slice l a b ++ slice l b c.
Proof.
  intros H. unfold slice. replace (c - a) with ((b - a) + (c - b)) by lia.
  rewrite <- (firstn_skipn (b - a) (firstn (b - a + (c - b)) (skipn a l))). f_equal.
  - rewrite firstn_firstn. f_equal. lia.
  - rewrite skipn_firstn_comm. replace (b - a + (c - b) - (b - a)) with (c - b) by lia. f_equal.
    rewrite skipn_add. f_equal. lia.
Qed.
Lemma slice_nil {A} (l : list A) a : slice l a a = [].
Proof. unfold slice. rewrite Nat.sub_diag. reflexivity. Qed.
Lemma slice_slice {A} (l : list A) q0 q1 s t : q0 <= s -> s <= t -> t <= q1 ->
  slice (slice l q0 q1) (s - q0) (t - q0) = slice l s t.
Proof.
  intros. unfold slice. rewrite skipn_firstn_comm, skipn_add, firstn_firstn. f_equal; [lia|f_equal; lia].
Qed.
Lemma slice_prefix {A} (l m : list A) a b : b <= List.length l -> slice (l ++ m) a b = slice l a b.
Proof.
  intros H. unfold slice. rewrite skipn_app, firstn_app. rewrite skipn_length.
  destruct (Nat.le_gt_cases a b).
  - replace (b - a - (List.length l - a)) with 0 by lia. cbn. apply app_nil_r.
  - replace (b - a) with 0 by lia. reflexivity.
Qed.
Lemma slice_end {A} (l : list A) a : slice l a (List.length l) = skipn a l.
Proof. unfold slice. apply firstn_all2. rewrite skipn_length. lia. Qed.
Lemma slice_snoc {A} (l : list A) a b x : a <= b -> nth_error l b = Some x -> slice l a (S b) = slice l a b ++ [x].
Proof.
  intros L E. rewrite (slice_app l a b (S b)) by lia. f_equal. unfold slice. replace (S b - b) with 1 by lia.
  clear L. revert l E. induction b as [|b IH]; intros [|y l] E; try discriminate; cbn in *; [congruence|auto].
Qed.

(** ** Grouping *)
Section Group.
Variable ext_of name_of : nat -> nat.
Variable els : list rule.
Notation own := (owned ext_of name_of).
Definition open (e : nat) (ds : list dir_group) : list (nat * nat * rule) :=
  flat_map (fun n => let '(nm, (s, t)) := n in map (fun r => (e, nm, r)) (slice els s t)) ds.

Lemma asked_app a b : asked (a ++ b) = asked a ++ asked b.
Proof. apply flat_map_app. Qed.
Lemma call_prefix bd more g : snd (snd (fst g)) <= List.length bd -> call els (bd ++ more) g = call els bd g.
Proof. destruct g as [[e [d0 d1]] [q0 q1]]. cbn. intros H. rewrite slice_prefix by exact H. reflexivity. Qed.
Lemma calls_prefix bd more be : Forall (fun g : ext_group => snd (snd (fst g)) <= List.length bd) be ->
  map (call els (bd ++ more)) be = map (call els bd) be.
Proof. intros H. apply map_ext_in. intros g I. apply call_prefix. rewrite Forall_forall in H. apply H. exact I. Qed.
Lemma call_open bd e d0 d1 q0 q1 :
  Forall (fun n : dir_group => q0 <= fst (snd n) /\ fst (snd n) <= snd (snd n) /\ snd (snd n) <= q1) (slice bd d0 d1) ->
  asked [call els bd (e, (d0, d1), (q0, q1))] = open e (slice bd d0 d1).
Proof.
  intros H. unfold asked, open, call. cbn [flat_map fst snd]. rewrite app_nil_r.
  induction (slice bd d0 d1) as [|[nm [s t]] ds IH]; [reflexivity|]. inversion H as [|? ? (A & B & C) H']; subst. cbn [fst snd] in *.
  cbn [map flat_map]. cbn [fst snd]. rewrite slice_slice by assumption. f_equal. apply IH. exact H'.
Qed.
Lemma open_app e a b : open e (a ++ b) = open e a ++ open e b.
Proof. apply flat_map_app. Qed.

Lemma group_spec start : forall recs ix e dstart estart nm nstart be bd,
  map r_rule recs = skipn ix els -> Forall is_ext (map r_rule recs) ->
  start <= estart <= nstart -> nstart <= ix -> ix <= List.length els -> dstart <= List.length bd ->
  Forall (fun g : ext_group => snd (snd (fst g)) <= List.length bd) be ->
  Forall (fun n : dir_group => estart <= fst (snd n) /\ fst (snd n) <= snd (snd n) /\ snd (snd n) <= nstart) (slice bd dstart (List.length bd)) ->
  asked (map (call els bd) be) ++ open e (slice bd dstart (List.length bd)) ++ map (fun r => (e, nm, r)) (slice els nstart ix)
    = map own (slice els start ix) ->
  exists be' bd', group_loop ext_of name_of ix recs e dstart estart nm nstart be bd = Some (be', bd') /\
    asked (map (call els bd') be') = map own (skipn start els).
Proof.
  induction recs as [|x recs IH]; intros ix e dstart estart nm nstart be bd E X L1 L2 L3 L4 F1 F2 I; cbn [group_loop].
  - assert (Ix : ix = List.length els). { symmetry in E. apply (f_equal (@List.length rule)) in E. rewrite skipn_length in E. cbn in E. lia. }
    eexists _, _. split; [reflexivity|].
    rewrite map_app, asked_app, calls_prefix by exact F1. cbn [map].
    set (bd' := bd ++ [(nm, (nstart, ix))]).
    assert (Sl : slice bd' dstart (List.length bd') = slice bd dstart (List.length bd) ++ [(nm, (nstart, ix))]).
    { rewrite !slice_end. unfold bd'. rewrite skipn_app. replace (dstart - List.length bd) with 0 by lia. reflexivity. }
    rewrite call_open.
    + rewrite Sl, open_app. cbn [open flat_map]. rewrite app_nil_r, I, Ix, slice_end. reflexivity.
    + rewrite Sl. apply Forall_app. split.
      * eapply Forall_impl; [|exact F2]. intros n. cbn. lia.
      * repeat constructor; cbn; lia.
  - cbn [map] in E, X. inversion X as [|? ? X1 X2]; subst. destruct (r_rule x) as [|d tg] eqn:R; [destruct X1|].
    assert (Hn : nth_error els ix = Some (Ext d tg)).
    { rewrite <- (firstn_skipn ix els), <- E, nth_error_app2; rewrite firstn_length_le by exact L3; [|lia]. rewrite Nat.sub_diag. reflexivity. }
    assert (Li : ix < List.length els) by (apply nth_error_Some; congruence).
    assert (E' : map r_rule recs = skipn (S ix) els).
    { replace (S ix) with (ix + 1) by lia. rewrite <- skipn_add, <- E. reflexivity. }
    destruct (Nat.eqb_spec e (ext_of d)) as [Ee|Ee]; cbn [negb].
    + destruct (Nat.eqb_spec nm (name_of d)) as [En|En]; cbn [negb].
      * apply IH; auto; try lia. rewrite (slice_snoc els nstart ix _ ltac:(lia) Hn), (slice_snoc els start ix _ ltac:(lia) Hn), !map_app.
        rewrite <- I, !app_assoc. f_equal. cbn. subst. reflexivity.
      * set (bd' := bd ++ [(nm, (nstart, ix))]).
        assert (Ll : List.length bd' = S (List.length bd)) by (unfold bd'; rewrite app_length; cbn; lia).
        assert (Sl : slice bd' dstart (List.length bd') = slice bd dstart (List.length bd) ++ [(nm, (nstart, ix))]).
        { rewrite !slice_end. unfold bd'. rewrite skipn_app. replace (dstart - List.length bd) with 0 by lia. reflexivity. }
        apply IH; auto; try lia.
        -- eapply Forall_impl; [|exact F1]. intros g. cbn. lia.
        -- rewrite Sl. apply Forall_app. split; [eapply Forall_impl; [|exact F2]; intros n; cbn; lia|]. repeat constructor; cbn; lia.
        -- rewrite Sl, open_app. unfold bd'. rewrite calls_prefix by exact F1. cbn [open flat_map]. rewrite app_nil_r.
           rewrite (slice_snoc els ix ix _ ltac:(lia) Hn), slice_nil, (slice_snoc els start ix _ ltac:(lia) Hn), (map_app own), <- I.
           rewrite <- !app_assoc. cbn. subst e. reflexivity.
    + set (bd' := bd ++ [(nm, (nstart, ix))]).
      assert (Ll : List.length bd' = S (List.length bd)) by (unfold bd'; rewrite app_length; cbn; lia).
      assert (Sl : slice bd' dstart (List.length bd') = slice bd dstart (List.length bd) ++ [(nm, (nstart, ix))]).
      { rewrite !slice_end. unfold bd'. rewrite skipn_app. replace (dstart - List.length bd) with 0 by lia. reflexivity. }
      apply IH; auto; try lia.
      * apply Forall_app. split; [eapply Forall_impl; [|exact F1]; intros g; cbn; lia|]. repeat constructor; cbn; lia.
      * rewrite slice_nil. constructor.
      * rewrite slice_nil. cbn [open flat_map app]. rewrite map_app, asked_app. cbn [map]. rewrite call_open.
        -- rewrite Sl, open_app. unfold bd'. rewrite calls_prefix by exact F1. cbn [open flat_map]. rewrite app_nil_r.
           rewrite (slice_snoc els ix ix _ ltac:(lia) Hn), slice_nil, (slice_snoc els start ix _ ltac:(lia) Hn), (map_app own), <- I.
           rewrite <- !app_assoc. cbn. reflexivity.
        -- rewrite Sl. apply Forall_app. split; [eapply Forall_impl; [|exact F2]; intros n; cbn; lia|]. repeat constructor; cbn; lia.
Qed.
End Group.

(** ** Groups are maximal: one call per extension, one group per directive name *)
Lemma ss_snoc {A} (R : A -> A -> Prop) l b : StronglySorted R l -> Forall (fun x => R x b) l -> StronglySorted R (l ++ [b]).
Proof.
  induction l as [|x l IH]; intros S F; cbn; [repeat constructor|].
  inversion S; subst. inversion F; subst. constructor; [auto|]. apply Forall_app. auto.
Qed.
Lemma ss_snoc_trans {A} (R : A -> A -> Prop) l a b : (forall x y z, R x y -> R y z -> R x z) ->
  StronglySorted R (l ++ [a]) -> R a b -> StronglySorted R ((l ++ [a]) ++ [b]).
Proof.
  intros T S H. apply ss_snoc; [exact S|]. apply Forall_app. split; [|auto].
  induction l as [|x l IH]; [constructor|]. inversion S as [|? ? S1 S2]; subst. constructor; [|auto].
  apply Forall_app in S2. destruct S2 as [_ S2]. inversion S2; subst. eapply T; eauto.
Qed.
Lemma ss_irrefl_nodup {A} (R : A -> A -> Prop) l : (forall x, ~ R x x) -> StronglySorted R l -> NoDup l.
Proof.
  intros I. induction l as [|x l IH]; intros S; constructor; inversion S as [|? ? S1 S2]; subst; [|auto].
  rewrite Forall_forall in S2. intros H. exact (I x (S2 x H)).
Qed.

Section Distinct.
Variable ext_of name_of : nat -> nat.
Variable cmp : nat -> nat -> comparison.
Hypothesis O : name_order cmp.
Definition nlt (a b : nat) : Prop := cmp a b = Lt.
Definition gext (g : ext_group) : nat := fst (fst g).
Definition names_ok (bd : list dir_group) (g : ext_group) : Prop :=
  snd (snd (fst g)) <= List.length bd /\
  StronglySorted nlt (map fst (slice bd (fst (snd (fst g))) (snd (snd (fst g))))).
Lemma nlt_trans x y z : nlt x y -> nlt y z -> nlt x z.
Proof. apply (no_trans cmp O). Qed.
Lemma nlt_irrefl x : ~ nlt x x.
Proof. unfold nlt. intros H. assert (cmp x x = Eq) by (apply (no_eq cmp O); reflexivity). congruence. Qed.
Lemma names_ok_more bd more be : Forall (names_ok bd) be -> Forall (names_ok (bd ++ more)) be.
Proof.
  apply Forall_impl. intros g [A B]. split; [rewrite app_length; lia|]. rewrite slice_prefix by exact A. exact B.
Qed.
Definition after (e nm : nat) (x : record) : Prop :=
  match r_rule x with Native _ => False | Ext d _ => e <= ext_of d /\ (e = ext_of d -> cmp nm (name_of d) <> Gt) end.

Lemma group_distinct : forall recs ix e dstart estart nm nstart be bd be' bd',
  group_loop ext_of name_of ix recs e dstart estart nm nstart be bd = Some (be', bd') ->
  sorted_by (order ext_of name_of cmp) recs -> Forall (after e nm) recs -> dstart <= List.length bd ->
  StronglySorted lt (map gext be ++ [e]) -> Forall (names_ok bd) be ->
  StronglySorted nlt (map fst (slice bd dstart (List.length bd)) ++ [nm]) ->
  StronglySorted lt (map gext be') /\ Forall (names_ok bd') be'.
Proof.
  induction recs as [|x recs IH]; intros ix e dstart estart nm nstart be bd be' bd' E S F L1 Se No Sn; cbn [group_loop] in E.
  - injection E as <- <-. rewrite map_app. split; [exact Se|]. apply Forall_app. split; [apply names_ok_more; exact No|].
    constructor; [|constructor]. split; cbn [fst snd]; [lia|]. rewrite !slice_end, skipn_app.
    replace (dstart - List.length bd) with 0 by lia. cbn [skipn]. rewrite map_app. cbn [map fst]. rewrite slice_end in Sn. exact Sn.
  - inversion S as [|? ? S1 S2]; subst. inversion F as [|? ? F1 F2]; subst.
    unfold after in F1. destruct (r_rule x) as [|d tg] eqn:R; [destruct F1|]. destruct F1 as [Le Ln].
    assert (Step : Forall (after (ext_of d) (name_of d)) recs).
    { rewrite Forall_forall in *. intros y Iy. specialize (S2 y Iy). specialize (F2 y Iy). unfold after, order in *. rewrite R in S2.
      destruct (r_rule y) as [|d' t']; [exact F2|]. destruct (Nat.compare_spec (ext_of d) (ext_of d')) as [Q|Q|Q]; [|split; [lia|intros; lia]|congruence].
      split; [lia|]. intros _. exact S2. }
    assert (Sl : forall b, map fst (slice (bd ++ [(nm, b)]) dstart (List.length (bd ++ [(nm, b)]))) = map fst (slice bd dstart (List.length bd)) ++ [nm]).
    { intros b. rewrite !slice_end, skipn_app. replace (dstart - List.length bd) with 0 by lia. cbn [skipn]. rewrite map_app. reflexivity. }
    destruct (Nat.eqb_spec e (ext_of d)) as [Ee|Ee]; cbn [negb] in E.
    + destruct (Nat.eqb_spec nm (name_of d)) as [En|En]; cbn [negb] in E.
      * eapply IH; try exact E; auto.
      * eapply IH; try exact E; auto.
        -- rewrite Ee. exact Step.
        -- rewrite app_length. lia.
        -- apply names_ok_more. exact No.
        -- rewrite Sl. apply ss_snoc_trans; [exact nlt_trans|exact Sn|]. specialize (Ln Ee). unfold nlt.
           destruct (cmp nm (name_of d)) eqn:Q; [|reflexivity|congruence]. apply (no_eq cmp O) in Q. congruence.
    + eapply IH; try exact E; auto.
      * rewrite map_app. cbn [map gext fst]. apply ss_snoc_trans; [intros; lia|exact Se|lia].
      * apply Forall_app. split; [apply names_ok_more; exact No|]. constructor; [|constructor]. split; cbn [fst snd]; [lia|]. rewrite Sl. exact Sn.
      * rewrite slice_nil. cbn. repeat constructor.
Qed.
End Distinct.

(** ** The whole *)
Section All.
Variable ext_of name_of : nat -> nat.
Variable cmp : nat -> nat -> comparison.
Hypothesis O : name_order cmp.

Lemma elements_all recs : Forall is_ext (map r_rule recs) -> elements recs = Some (map r_rule recs).
Proof.
  induction recs as [|x recs IH]; intros F; [reflexivity|]. inversion F as [|? ? F1 F2]; subst. cbn [elements map].
  destruct (r_rule x); [destruct F1|]. rewrite IH by exact F2. reflexivity.
Qed.
Lemma elements_native recs d : In (Native d) (map r_rule recs) -> elements recs = None.
Proof.
  induction recs as [|x recs IH]; intros I; [destruct I|]. cbn [elements]. destruct I as [->|I]; [reflexivity|].
  rewrite IH by exact I. destruct (r_rule x); reflexivity.
Qed.
Lemma sorted_after x recs d tg : r_rule x = Ext d tg -> Forall (fun y => order ext_of name_of cmp x y <> Gt) recs ->
  Forall is_ext (map r_rule recs) /\ Forall (after ext_of name_of cmp (ext_of d) (name_of d)) recs.
Proof.
  intros R F. split.
  - apply Forall_forall. intros r I. apply in_map_iff in I. destruct I as (y & <- & I). rewrite Forall_forall in F.
    specialize (F y I). unfold order in F. rewrite R in F. destruct (r_rule y); [congruence|exact Logic.I].
  - eapply Forall_impl; [|exact F]. intros y. unfold order, after. rewrite R. destruct (r_rule y) as [|d' t']; [congruence|].
    destruct (Nat.compare_spec (ext_of d) (ext_of d')) as [Q|Q|Q]; [|split; [lia|intros; lia]|congruence]. split; [lia|auto].
Qed.

(** Natives first, then groups. *)
Lemma build_spec : forall recs pre, sorted_by (order ext_of name_of cmp) recs ->
  let els := map r_rule (pre ++ recs) in
  exists n be bd, build_from ext_of name_of (List.length pre) recs = Some (n, be, bd) /\
  asked (map (call els bd) be) = map (owned ext_of name_of) (skipn n els) /\
  Forall is_ext (skipn n els) /\
  StronglySorted lt (map gext be) /\ Forall (names_ok cmp bd) be /\
  (be = [] <-> forall x, In x recs -> ~ is_ext (r_rule x)).
Proof.
  induction recs as [|x recs IH]; intros pre So; cbv zeta; cbn [build_from].
  - exists (List.length pre), [], []. split; [reflexivity|]. rewrite app_nil_r, skipn_all2 by (rewrite map_length; lia).
    split; [reflexivity|]. split; [constructor|]. split; [constructor|]. split; [constructor|]. split; [intros _ x []|reflexivity].
  - inversion So as [|? ? S1 S2]; subst. destruct (r_rule x) as [ds|d tg] eqn:R.
    + destruct (IH (pre ++ [x]) S1) as (n & be & bd & A & B & C & D & E & F).
      rewrite app_length in A. cbn [List.length] in A. rewrite Nat.add_1_r in A. rewrite <- app_assoc in *. cbn [app] in *.
      exists n, be, bd. split; [exact A|]. split; [exact B|]. split; [exact C|]. split; [exact D|]. split; [exact E|].
      rewrite F. split; [|auto with datatypes]. intros H y [<-|I]; [rewrite R; auto|auto].
    + destruct (sorted_after x recs d tg R S2) as [X Af].
      set (els := map r_rule (pre ++ x :: recs)).
      assert (Sk : skipn (List.length pre) els = Ext d tg :: map r_rule recs).
      { unfold els. rewrite map_app, skipn_app, map_length, skipn_all2 by (rewrite map_length; lia). rewrite Nat.sub_diag. cbn. rewrite R. reflexivity. }
      assert (Ll : List.length els = List.length pre + S (List.length recs)) by (unfold els; rewrite map_length, app_length; reflexivity).
      destruct (group_spec ext_of name_of els (List.length pre) recs (S (List.length pre)) (ext_of d) 0 (List.length pre) (name_of d) (List.length pre) [] [])
        as (be & bd & A & B); auto; try lia.
      * replace (S (List.length pre)) with (List.length pre + 1) by lia. rewrite <- skipn_add, Sk. reflexivity.
      * constructor.
      * cbn [map asked flat_map app]. rewrite slice_nil. cbn [open flat_map app].
        unfold slice. replace (S (List.length pre) - List.length pre) with 1 by lia. rewrite Sk. reflexivity.
      * exists (List.length pre), be, bd. rewrite A. split; [reflexivity|]. split; [exact B|]. split.
        { rewrite Sk. constructor; [exact I|exact X]. }
        destruct (group_distinct ext_of name_of cmp O recs _ _ _ _ _ _ _ _ _ _ A S1 Af) as [D E]; try (cbn; repeat constructor; fail).
        split; [exact D|]. split; [exact E|].
        split; [|intros H; exfalso; apply (H x); [left; reflexivity|rewrite R; exact I]].
        intros ->. exfalso. cbn [map asked flat_map] in B. rewrite Sk in B. discriminate.
Qed.

Lemma authorize_spec sorted : sorted_by (order ext_of name_of cmp) sorted -> Forall is_ext (map r_rule sorted) ->
  exists calls, authorize ext_of name_of sorted = Some calls /\
  asked calls = map (owned ext_of name_of) (map r_rule sorted) /\
  NoDup (map fst calls) /\ Forall (fun c => NoDup (map fst (snd c))) calls.
Proof.
  intros S X. destruct (build_spec sorted [] S) as (n & be & bd & A & B & C & D & E & F). cbn [app List.length] in *.
  unfold authorize. rewrite A.
  assert (N0 : n = 0).
  { clear - A X. destruct sorted as [|x l]; cbn in A; [congruence|]. inversion X as [|? ? X1 _]; subst. destruct (r_rule x); [destruct X1|].
    destruct (group_loop _ _ _ _ _ _ _ _ _ _ _) as [[? ?]|]; congruence. }
  subst n. cbn [skipn] in B. destruct be as [|g be].
  - exists []. split; [reflexivity|]. cbn in B. rewrite <- B. split; [reflexivity|]. split; constructor.
  - rewrite (elements_all sorted X). eexists. split; [reflexivity|]. split; [exact B|]. split.
    + rewrite map_map. replace (map (fun x => fst (call (map r_rule sorted) bd x)) (g :: be)) with (map gext (g :: be)).
      * apply (ss_irrefl_nodup lt); [intros; lia|exact D].
      * apply map_ext. intros [[e [d0 d1]] [q0 q1]]. reflexivity.
    + apply Forall_forall. intros c I. apply in_map_iff in I. destruct I as ([[e [d0 d1]] [q0 q1]] & <- & I).
      rewrite Forall_forall in E. destruct (E _ I) as [_ N]. cbn [call snd fst] in *. rewrite map_map.
      match goal with |- NoDup (map ?f ?l) => replace (map f l) with (map fst l) by (apply map_ext; intros [nm [s t]]; reflexivity) end.
      apply (ss_irrefl_nodup (nlt cmp)); [apply nlt_irrefl; exact O|exact N].
Qed.

Lemma authorize_native sorted d : sorted_by (order ext_of name_of cmp) sorted ->
  In (Native d) (map r_rule sorted) -> (exists x, In x sorted /\ is_ext (r_rule x)) ->
  authorize ext_of name_of sorted = None.
Proof.
  intros S I (x & Ix & Hx). destruct (build_spec sorted [] S) as (n & be & bd & A & B & C & D & E & F). cbn [app List.length] in *.
  unfold authorize. rewrite A. destruct be as [|g be].
  - exfalso. exact (proj1 F eq_refl x Ix Hx).
  - rewrite (elements_native _ _ I). reflexivity.
Qed.

Lemma deny_some_spec sorted q : forall l r, deny_some sorted q l = Some r ->
  r = flat_map (fun p => match nth_error sorted (fst q + fst p) with Some x => deny x (snd p) | None => [] end) l.
Proof.
  induction l as [|[i e] l IH]; intros r H; cbn [deny_some] in H; [injection H as <-; reflexivity|].
  destruct (_ <? _); [|discriminate]. cbn [flat_map fst snd]. destruct (nth_error sorted (fst q + i)) as [x|]; [|discriminate].
  destruct (deny_some sorted q l) as [r'|]; [|discriminate]. injection H as <-. rewrite <- (IH r' eq_refl). reflexivity.
Qed.
Lemma deny_some_total sorted q : snd q <= List.length sorted -> forall l, Forall (fun p => fst q + fst p < snd q) l ->
  exists r, deny_some sorted q l = Some r.
Proof.
  intros L. induction l as [|[i e] l IH]; intros F; cbn [deny_some]; [eauto|]. inversion F as [|? ? F1 F2]; subst. cbn [fst] in F1.
  destruct (Nat.ltb_spec (fst q + i) (snd q)); [|lia].
  destruct (nth_error sorted (fst q + i)) as [x|] eqn:E; [|apply nth_error_None in E; lia].
  destruct (IH F2) as [r ->]. eauto.
Qed.
End All.
