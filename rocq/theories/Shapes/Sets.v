(** The index loops compute the set operations they stand for. *)
From Coq Require Import List Arith NArith Bool Lia Sorting.Sorted Sorting.Permutation.
From Verif.Shapes Require Import Model Spec.
Import ListNotations.

Lemma ts_cons x l : type_set (x :: l) <-> type_set l /\ forall y, In y l -> x < y.
Proof.
  unfold type_set. split.
  - intros H. inversion H; subst. rewrite Forall_forall in *. auto.
  - intros [A B]. constructor; [exact A|]. apply Forall_forall. exact B.
Qed.
Lemma ts_nil : type_set []. Proof. constructor. Qed.
Lemma ts_nodup l : type_set l -> NoDup l.
Proof.
  induction l as [|x l IH]; intros H; [constructor|]. apply ts_cons in H. destruct H as [A B].
  constructor; [|auto]. intros I. specialize (B x I). lia.
Qed.
Lemma ts_last x l : type_set (x :: l) -> forall y, In y (x :: l) -> y <= last (x :: l) 0.
Proof.
  revert x. induction l as [|z l IH]; intros x H y I.
  - simpl in I. destruct I as [->|[]]. simpl. lia.
  - apply ts_cons in H. destruct H as [A B]. cbn [last]. change (y <= last (z :: l) 0).
    specialize (IH z A). destruct I as [<-|I]; [|auto].
    specialize (B z (or_introl eq_refl)). specialize (IH z (or_introl eq_refl)). lia.
Qed.

(** Functional counterpart of [extract_intersection]. *)
Fixpoint split3 (xs : list nat) : list nat -> list nat * list nat * list nat :=
  fix go (ys : list nat) :=
  match xs, ys with
  | x :: xs', y :: ys' =>
      match Nat.compare x y with
      | Lt => let '(a, b, c) := split3 xs' ys in (x :: a, b, c)
      | Gt => let '(a, b, c) := go ys' in (a, y :: b, c)
      | Eq => let '(a, b, c) := split3 xs' ys' in (a, b, x :: c)
      end
  | _, _ => (xs, ys, [])
  end.
Lemma split3_nil_l ys : split3 [] ys = ([], ys, []).
Proof. destruct ys; reflexivity. Qed.
Lemma split3_nil_r xs : split3 xs [] = (xs, [], []).
Proof. destruct xs; reflexivity. Qed.
Lemma split3_cons x xs y ys : split3 (x :: xs) (y :: ys) =
  match Nat.compare x y with
  | Lt => let '(a, b, c) := split3 xs (y :: ys) in (x :: a, b, c)
  | Gt => let '(a, b, c) := split3 (x :: xs) ys in (a, y :: b, c)
  | Eq => let '(a, b, c) := split3 xs ys in (a, b, x :: c)
  end.
Proof. reflexivity. Qed.

Lemma split3_spec : forall xs ys, type_set xs -> type_set ys ->
  let '(a, b, c) := split3 xs ys in
  type_set a /\ type_set b /\ type_set c /\
  (forall t, In t a <-> In t xs /\ ~ In t ys) /\
  (forall t, In t b <-> In t ys /\ ~ In t xs) /\
  (forall t, In t c <-> In t xs /\ In t ys).
Proof.
  induction xs as [|x xs IHx]; intros ys Hx Hy.
  - rewrite split3_nil_l. split; [constructor|]. split; [exact Hy|]. split; [constructor|]. simpl. intuition.
  - induction ys as [|y ys IHy].
    + rewrite split3_nil_r. split; [exact Hx|]. split; [constructor|]. split; [constructor|]. cbn [In]. intuition.
    + rewrite split3_cons. pose proof Hx as Hx'. pose proof Hy as Hy'.
      apply ts_cons in Hx', Hy'. destruct Hx' as [Tx Lx], Hy' as [Ty Ly].
      destruct (Nat.compare_spec x y) as [E|E|E].
      * subst y. specialize (IHx ys Tx Ty). destruct (split3 xs ys) as [[a b] c].
        destruct IHx as (A & B & C & D & F & G).
        assert (Nx : ~ In x xs) by (intros I; specialize (Lx x I); lia).
        assert (Ny : ~ In x ys) by (intros I; specialize (Ly x I); lia).
        split; [exact A|]. split; [exact B|]. split.
        { apply ts_cons. split; [exact C|]. intros t I. apply G in I. apply Lx, I. }
        split; [|split]; intros t; specialize (D t); specialize (F t); specialize (G t); simpl.
        -- rewrite D. split; [|intuition]. intros [I1 I2]. split; [auto|]. intros [<-|I3]; auto.
        -- rewrite F. split; [|intuition]. intros [I1 I2]. split; [auto|]. intros [<-|I3]; auto.
        -- rewrite G. intuition. 
      * specialize (IHx (y :: ys) Tx Hy). destruct (split3 xs (y :: ys)) as [[a b] c].
        destruct IHx as (A & B & C & D & F & G).
        assert (Ny : ~ In x (y :: ys)) by (intros [->|I]; [lia|specialize (Ly x I); lia]).
        split. { apply ts_cons. split; [exact A|]. intros t I. apply D in I. apply Lx, I. }
        split; [exact B|]. split; [exact C|].
        split; [|split]; intros t; specialize (D t); specialize (F t); specialize (G t).
        -- simpl In at 1. rewrite D. simpl In at 3. intuition. subst t. auto.
        -- rewrite F. simpl In at 4. intuition. subst t. auto.
        -- rewrite G. simpl In at 3. intuition. subst t. contradiction.
      * specialize (IHy Ty). destruct (split3 (x :: xs) ys) as [[a b] c].
        destruct IHy as (A & B & C & D & F & G).
        assert (Nx : ~ In y (x :: xs)) by (intros [->|I]; [lia|specialize (Lx y I); lia]).
        split; [exact A|]. split.
        { apply ts_cons. split; [exact B|]. intros t I. apply F in I. apply Ly, I. }
        split; [exact C|].
        split; [|split]; intros t; specialize (D t); specialize (F t); specialize (G t).
        -- rewrite D. simpl In at 4. intuition. subst t. auto.
        -- simpl In at 1. rewrite F. simpl In at 3. intuition. subst t. auto.
        -- rewrite G. simpl In at 4. intuition. subst t. contradiction.
Qed.

(** [inter] *)
Lemma inter_nil_r xs : inter xs [] = [].
Proof. destruct xs; reflexivity. Qed.
Lemma inter_split3 : forall xs ys, inter xs ys = snd (split3 xs ys).
Proof.
  induction xs as [|x xs IHx]; intros ys; [rewrite split3_nil_l; destruct ys; reflexivity|].
  induction ys as [|y ys IHy]; [reflexivity|]. rewrite split3_cons.
  change (inter (x :: xs) (y :: ys)) with
    (match Nat.compare x y with Lt => inter xs (y :: ys) | Gt => inter (x :: xs) ys | Eq => x :: inter xs ys end).
  destruct (Nat.compare x y).
  - rewrite IHx. destruct (split3 xs ys) as [[a b] c]; reflexivity.
  - rewrite IHx. destruct (split3 xs (y :: ys)) as [[a b] c]; reflexivity.
  - rewrite IHy. destruct (split3 (x :: xs) ys) as [[a b] c]; reflexivity.
Qed.
Lemma inter_spec xs ys : type_set xs -> type_set ys ->
  type_set (inter xs ys) /\ forall t, In t (inter xs ys) <-> In t xs /\ In t ys.
Proof.
  intros A B. rewrite inter_split3. pose proof (split3_spec xs ys A B) as H.
  destruct (split3 xs ys) as [[a b] c]. simpl. tauto.
Qed.

(** supersets *)
Lemma superset_loop_spec : forall output cond, type_set output -> type_set cond ->
  superset_loop output cond = true <-> forall t, In t output -> In t cond.
Proof.
  induction output as [|l output IHo]; intros cond Ho Hc; [destruct cond; simpl; intuition|].
  induction cond as [|r cond IHc].
  - simpl. split; [discriminate|]. intros H. exfalso. apply (H l). auto.
  - change (superset_loop (l :: output) (r :: cond)) with
      (match Nat.compare l r with Lt => false | Gt => superset_loop (l :: output) cond | Eq => superset_loop output cond end).
    pose proof Ho as Ho'. pose proof Hc as Hc'. apply ts_cons in Ho', Hc'. destruct Ho' as [To Lo], Hc' as [Tc Lc].
    destruct (Nat.compare_spec l r) as [E|E|E].
    + subst r. rewrite (IHo cond To Tc). split.
      * intros H t [<-|I]; simpl; auto.
      * intros H t I. specialize (H t (or_intror I)). destruct H as [->|H]; [|auto]. specialize (Lo _ I). lia.
    + split; [discriminate|]. intros H. specialize (H l (or_introl eq_refl)). destruct H as [->|H]; [lia|].
      specialize (Lc _ H). lia.
    + rewrite (IHc Tc). split.
      * intros H t I. simpl. auto.
      * intros H t I. specialize (H t I). destruct H as [<-|H]; [|exact H].
        destruct I as [<-|I]; [lia|]. specialize (Lo _ I). lia.
Qed.
Lemma is_superset_spec cond output : type_set output -> type_set cond ->
  is_superset cond output = true <-> forall t, In t output -> In t cond.
Proof.
  intros Ho Hc. unfold is_superset. destruct (Nat.ltb_spec (List.length cond) (List.length output)).
  - split; [discriminate|]. intros I. apply (NoDup_incl_length (ts_nodup _ Ho)) in I. lia.
  - apply superset_loop_spec; auto.
Qed.

(** Array lemmas. *)
Lemma skipn_skipn : forall (a : list nat) n m, skipn n (skipn m a) = skipn (m + n) a.
Proof. induction a as [|x a IH]; intros n [|m]; [reflexivity|destruct n; reflexivity|reflexivity|apply IH]. Qed.
Lemma set_nth_length a i x : i < List.length a -> List.length (set_nth a i x) = List.length a.
Proof. intros H. unfold set_nth. rewrite app_length, firstn_length. cbn [List.length]. rewrite skipn_length. lia. Qed.
Lemma firstn_set a i x : i < List.length a -> firstn (S i) (set_nth a i x) = firstn i a ++ [x].
Proof.
  intros H. unfold set_nth. rewrite firstn_app, firstn_length, firstn_firstn.
  replace (Nat.min (S i) i) with i by lia. replace (S i - Nat.min i (List.length a)) with 1 by lia. reflexivity.
Qed.
Lemma skipn_set a i x k : i < k -> i < List.length a -> skipn k (set_nth a i x) = skipn k a.
Proof.
  intros H L. unfold set_nth. rewrite skipn_app, firstn_length.
  replace (Nat.min i (List.length a)) with i by lia.
  rewrite (skipn_all2 (firstn i a)) by (rewrite firstn_length; lia). cbn [app].
  replace (k - i) with (S (k - S i)) by lia. change (skipn (S (k - S i)) (x :: skipn (S i) a)) with (skipn (k - S i) (skipn (S i) a)).
  rewrite skipn_skipn. f_equal. lia.
Qed.
Lemma nth_skipn (a : list nat) l x : nth_error a l = Some x -> skipn l a = x :: skipn (S l) a.
Proof. revert a. induction l; intros [|y a] H; simpl in *; try discriminate; [injection H as ->; reflexivity|]. apply IHl in H. exact H. Qed.
Lemma nth_none_skipn (a : list nat) l : nth_error a l = None -> skipn l a = [].
Proof. intros H. apply nth_error_None in H. apply skipn_all2. exact H. Qed.
Lemma nth_lt (a : list nat) l x : nth_error a l = Some x -> l < List.length a.
Proof. intros H. apply nth_error_Some. congruence. Qed.

Lemma copy_tail_spec : forall fuel a l len, len <= l -> List.length a <= l + fuel ->
  let '(a', len') := copy_tail fuel a l len in firstn len' a' = firstn len a ++ skipn l a.
Proof.
  induction fuel as [|fuel IH]; intros a l len L F; cbn [copy_tail].
  - rewrite (skipn_all2 a) by lia. rewrite app_nil_r. reflexivity.
  - destruct (nth_error a l) as [x|] eqn:E.
    + pose proof (nth_lt _ _ _ E) as Lt. specialize (IH (set_nth a len x) (S l) (S len)).
      rewrite set_nth_length in IH by lia.
      destruct (copy_tail fuel (set_nth a len x) (S l) (S len)) as [a' len'].
      rewrite IH by lia. rewrite firstn_set by lia. rewrite (nth_skipn _ _ _ E), skipn_set by lia.
      rewrite <- app_assoc. reflexivity.
    + rewrite (nth_none_skipn _ _ E), app_nil_r. reflexivity.
Qed.
Lemma finish_spec a l len : len <= l -> finish a l len = firstn len a ++ skipn l a.
Proof.
  intros L. unfold finish. destruct (Nat.eqb_spec l len).
  - subst. symmetry. apply firstn_skipn.
  - pose proof (copy_tail_spec (List.length a) a l len L) as H.
    destruct (copy_tail (List.length a) a l len) as [a' len']. apply H. lia.
Qed.

Definition x_ok (s : xstate) : Prop := xleft_len s <= xl s /\ xright_len s <= xr s.
Lemma x_loop_spec : forall fuel s, x_ok s ->
  (List.length (xleft s) - xl s) + (List.length (xright s) - xr s) <= fuel ->
  let s' := x_loop fuel s in
  let '(a, b, c) := split3 (skipn (xl s) (xleft s)) (skipn (xr s) (xright s)) in
  finish (xleft s') (xl s') (xleft_len s') = firstn (xleft_len s) (xleft s) ++ a /\
  finish (xright s') (xr s') (xright_len s') = firstn (xright_len s) (xright s) ++ b /\
  xinter s' = xinter s ++ c.
Proof.
  induction fuel as [|fuel IH]; intros s [O1 O2] F; cbv zeta.
  - cbn [x_loop]. rewrite (skipn_all2 (xleft s)) by lia. rewrite (skipn_all2 (xright s)) by lia.
    rewrite split3_nil_l. rewrite !finish_spec by assumption.
    rewrite (skipn_all2 (xleft s)) by lia. rewrite (skipn_all2 (xright s)) by lia.
    rewrite !app_nil_r. auto.
  - cbn [x_loop].
    destruct (nth_error (xleft s) (xl s)) as [x|] eqn:Ex.
    2:{ rewrite (nth_none_skipn _ _ Ex), split3_nil_l, !finish_spec, (nth_none_skipn _ _ Ex), !app_nil_r by assumption. auto. }
    destruct (nth_error (xright s) (xr s)) as [y|] eqn:Ey.
    2:{ rewrite (nth_none_skipn _ _ Ey), split3_nil_r, !finish_spec, (nth_none_skipn _ _ Ey), !app_nil_r by assumption. auto. }
    pose proof (nth_lt _ _ _ Ex) as Lx. pose proof (nth_lt _ _ _ Ey) as Ly.
    rewrite (nth_skipn _ _ _ Ex), (nth_skipn _ _ _ Ey), split3_cons.
    destruct (Nat.compare x y).
    + match goal with |- context [x_loop fuel ?S] => specialize (IH S) end. cbv zeta in IH. unfold x_ok in IH.
      cbn [xleft xright xl xr xleft_len xright_len xinter] in IH.
      specialize (IH ltac:(split; lia) ltac:(lia)).
      destruct (split3 (skipn (S (xl s)) (xleft s)) (skipn (S (xr s)) (xright s))) as [[a b] c].
      destruct IH as (A & B & C). rewrite A, B, C, <- app_assoc. auto.
    + match goal with |- context [x_loop fuel ?S] => specialize (IH S) end. cbv zeta in IH. unfold x_ok in IH.
      cbn [xleft xright xl xr xleft_len xright_len xinter] in IH.
      rewrite set_nth_length in IH by lia.
      specialize (IH ltac:(split; lia) ltac:(lia)).
      rewrite skipn_set, (nth_skipn _ _ _ Ey) in IH by lia.
      destruct (split3 (skipn (S (xl s)) (xleft s)) (y :: skipn (S (xr s)) (xright s))) as [[a b] c].
      destruct IH as (A & B & C). rewrite A, B, C, firstn_set, <- app_assoc by lia. auto.
    + match goal with |- context [x_loop fuel ?S] => specialize (IH S) end. cbv zeta in IH. unfold x_ok in IH.
      cbn [xleft xright xl xr xleft_len xright_len xinter] in IH.
      rewrite set_nth_length in IH by lia.
      specialize (IH ltac:(split; lia) ltac:(lia)).
      rewrite skipn_set, (nth_skipn _ _ _ Ex) in IH by lia.
      destruct (split3 (x :: skipn (S (xl s)) (xleft s)) (skipn (S (xr s)) (xright s))) as [[a b] c].
      destruct IH as (A & B & C). rewrite A, B, C, firstn_set, <- app_assoc by lia. auto.
Qed.

Lemma split3_disjoint : forall xs ys, (forall a b, In a xs -> In b ys -> a <> b) -> type_set xs -> type_set ys ->
  split3 xs ys = (xs, ys, []).
Proof.
  induction xs as [|x xs IHx]; intros ys D Hx Hy; [apply split3_nil_l|].
  induction ys as [|y ys IHy]; [reflexivity|]. rewrite split3_cons.
  pose proof Hx as Hx'. pose proof Hy as Hy'. apply ts_cons in Hx', Hy'.
  destruct (Nat.compare_spec x y) as [E|E|E].
  - exfalso. apply (D x y); simpl; auto.
  - rewrite IHx; [reflexivity| |tauto|assumption]. intros a b Ia Ib. apply D; simpl; auto.
  - rewrite IHy; [reflexivity| |tauto]. intros a b Ia Ib. apply D; simpl in *; auto.
Qed.

Lemma extract_spec left right : left <> [] -> right <> [] -> type_set left -> type_set right ->
  extract_intersection left right = Some (split3 left right).
Proof.
  intros N1 N2 T1 T2. destruct left as [|l0 left]; [congruence|]. destruct right as [|r0 right]; [congruence|].
  unfold extract_intersection. destruct (_ || _) eqn:E.
  - f_equal. symmetry. apply split3_disjoint; auto. intros a b Ia Ib <-.
    apply orb_true_iff in E. rewrite !Nat.ltb_lt in E.
    pose proof (ts_last _ _ T1 a Ia) as A1. pose proof (ts_last _ _ T2 a Ib) as A2.
    apply ts_cons in T1, T2. destruct T1 as [_ T1], T2 as [_ T2].
    assert (B1 : l0 <= a) by (destruct Ia as [->|Ia]; [lia|specialize (T1 a Ia); lia]).
    assert (B2 : r0 <= a) by (destruct Ib as [->|Ib]; [lia|specialize (T2 a Ib); lia]).
    destruct E; lia.
  - set (s := {| xleft := l0 :: left; xright := r0 :: right; xl := 0; xr := 0; xleft_len := 0; xright_len := 0; xinter := [] |}).
    pose proof (x_loop_spec (List.length (l0 :: left) + List.length (r0 :: right)) s) as H.
    cbv zeta in H. cbn [xleft xright xl xr xleft_len xright_len xinter s skipn firstn app] in H.
    cbv zeta. destruct (split3 (l0 :: left) (r0 :: right)) as [[a b] c].
    destruct H as (A & B & C); [split; simpl; lia|lia|]. fold s in A, B, C. rewrite A, B, C. reflexivity.
Qed.

(** [keep] *)
Lemma swap_spec a l n x : n <= l -> nth_error a l = Some x ->
  List.length (swap a l n) = List.length a /\ firstn (S n) (swap a l n) = firstn n a ++ [x] /\
  skipn (S l) (swap a l n) = skipn (S l) a.
Proof.
  intros L E. pose proof (nth_lt _ _ _ E) as Ll. unfold swap. rewrite E.
  destruct (nth_error a n) as [y|] eqn:En.
  2:{ apply nth_error_None in En. lia. }
  assert (Q : List.length (set_nth a l y) = List.length a) by (apply set_nth_length; lia).
  split; [rewrite set_nth_length; lia|]. split.
  - rewrite firstn_set by lia. f_equal. unfold set_nth. rewrite firstn_app, firstn_firstn, firstn_length.
    replace (Nat.min n l) with n by lia. replace (n - Nat.min l (List.length a)) with 0 by lia. rewrite app_nil_r. reflexivity.
  - rewrite skipn_set by lia. apply skipn_set; lia.
Qed.
Lemma keep_loop_spec : forall fuel a types l r n, n <= l ->
  (List.length a - l) + (List.length types - r) <= fuel ->
  let '(a', n') := keep_loop fuel a types l r n in
  firstn n' a' = firstn n a ++ inter (skipn l a) (skipn r types).
Proof.
  induction fuel as [|fuel IH]; intros a types l r n L F; cbn [keep_loop].
  - rewrite (skipn_all2 a) by lia. replace (inter [] (skipn r types)) with (@nil nat) by (destruct (skipn r types); reflexivity).
    rewrite app_nil_r. reflexivity.
  - destruct (nth_error a l) as [x|] eqn:Ex.
    2:{ rewrite (nth_none_skipn _ _ Ex). replace (inter [] (skipn r types)) with (@nil nat) by (destruct (skipn r types); reflexivity).
        rewrite app_nil_r. reflexivity. }
    destruct (nth_error types r) as [y|] eqn:Ey.
    2:{ rewrite (nth_none_skipn _ _ Ey), inter_nil_r, app_nil_r. reflexivity. }
    pose proof (nth_lt _ _ _ Ex) as Lx. pose proof (nth_lt _ _ _ Ey) as Ly.
    rewrite (nth_skipn _ _ _ Ex), (nth_skipn _ _ _ Ey).
    change (inter (x :: skipn (S l) a) (y :: skipn (S r) types)) with
      (match Nat.compare x y with Lt => inter (skipn (S l) a) (y :: skipn (S r) types)
       | Gt => inter (x :: skipn (S l) a) (skipn (S r) types) | Eq => x :: inter (skipn (S l) a) (skipn (S r) types) end).
    destruct (Nat.compare x y).
    + destruct (swap_spec a l n x L Ex) as (A & B & C).
      specialize (IH (swap a l n) types (S l) (S r) (S n)). rewrite A in IH. specialize (IH ltac:(lia) ltac:(lia)).
      destruct (keep_loop fuel (swap a l n) types (S l) (S r) (S n)) as [a' n'].
      rewrite IH, B, C, <- app_assoc. reflexivity.
    + specialize (IH a types (S l) r n ltac:(lia) ltac:(lia)). destruct (keep_loop fuel a types (S l) r n).
      rewrite IH, (nth_skipn _ _ _ Ey). reflexivity.
    + specialize (IH a types l (S r) n ltac:(lia) ltac:(lia)). destruct (keep_loop fuel a types l (S r) n).
      rewrite IH, (nth_skipn _ _ _ Ex). reflexivity.
Qed.
Lemma keep_spec a types : keep a types = inter a types.
Proof.
  unfold keep. pose proof (keep_loop_spec (List.length a + List.length types) a types 0 0 0 ltac:(lia) ltac:(lia)) as H.
  destruct (keep_loop _ _ _ _ _ _). exact H.
Qed.
Lemma possible_types_spec output conds : type_set output -> Forall type_set conds ->
  type_set (compute_possible_types output conds) /\
  forall t, In t (compute_possible_types output conds) <-> In t output /\ forall c, In c conds -> In t c.
Proof.
  intros To. destruct conds as [|first rest]; intros Tc; cbn [compute_possible_types].
  - split; [exact To|]. simpl. intuition.
  - inversion Tc as [|? ? T1 T2]; subst. destruct (inter_spec output first To T1) as [A B].
    assert (G : forall rest, Forall type_set rest -> forall s, type_set s ->
       type_set (fold_left keep rest s) /\ forall t, In t (fold_left keep rest s) <-> In t s /\ forall c, In c rest -> In t c).
    { clear. induction rest as [|c rest IH]; intros T s Ts; cbn [fold_left]; [split; [exact Ts|simpl; intuition]|].
      inversion T as [|? ? T1 T2]; subst. rewrite keep_spec. destruct (inter_spec s c Ts T1) as [A B].
      destruct (IH T2 _ A) as [C D]. split; [exact C|]. intros t. rewrite D, B. simpl. split.
      - intros [[I1 I2] I3]. split; [exact I1|]. intros c' [<-|I]; auto.
      - intros [I1 I2]. split; [split; auto|auto]. }
    destruct (G rest T2 _ A) as [C D]. split; [exact C|]. intros t. rewrite D, B. simpl. split.
    + intros [[I1 I2] I3]. split; [exact I1|]. intros c' [<-|I]; auto.
    + intros [I1 I2]. split; [split; auto|auto].
Qed.
