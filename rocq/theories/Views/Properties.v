(** C92-C94: what is read of the response during execution, and authorization of the response. *)

From Coq Require Import List Arith ZArith String Bool Lia.
From Verif Require Import Response.Model Response.Spec Response.Merge Response.Nulls.
From Verif Require Import Views.Model Views.Spec Views.Trees Views.Reading Views.Authorize.
Import ListNotations.
Local Open Scope string_scope.
Local Open Scope nat_scope.
Local Open Scope list_scope.

(** ** C92: requirements and representations *)

Theorem C92_required : forall ps fuel r v t, rep ps v t -> distinct t -> depth t < fuel ->
  (forall x, view_required ps fuel r v = VOk x <-> reads r t x) /\
  view_required ps fuel r v <> VCrash /\ view_required ps fuel r v <> VFuel.
Proof.
  intros ps fuel r v t R Ds D. unfold view_required. rewrite (view_tview _ _ natural_required ps fuel r v t R).
  exact (tree_required_ok fuel t r Ds D).
Qed.

Theorem C92_field_set : forall ps fuel r s v t, rep ps v t -> distinct t -> depth t < fuel ->
  sorted_reqs r -> has_set r s ->
  (forall x, view_set ps fuel (r, s) v = VOk x <-> reads_set r s t x) /\
  view_set ps fuel (r, s) v <> VCrash /\ view_set ps fuel (r, s) v <> VFuel.
Proof.
  intros ps fuel r s v t R Ds D Sr Hs. unfold view_set. rewrite (view_tview _ _ natural_set ps fuel (r, s) v t R).
  exact (tree_set_ok fuel t r s Ds D Sr Hs).
Qed.

Lemma exact_fields_ok : forall (vv : list req -> tree -> vres out) fs,
  NoDup (map (fun f => snd (fst f)) fs) ->
  (forall f r x, In f fs -> (vv r (snd f) = VOk x <-> reads r (snd f) x)) ->
  forall r es, exact_fields vv fs r = VOk es <->
    Forall2 (fun q e => fst e = q_name q /\ exists t, carries fs (q_key q) t /\ reads (q_sub q) t (snd e)) r es.
Proof.
  intros vv fs N H r. induction r as [|q r IH]; intros es; cbn [exact_fields].
  - split; [intros E; injection E as <-; constructor|intros P; inversion P; reflexivity].
  - assert (H' : forall t r x, carries fs (q_key q) t -> (vv r t = VOk x <-> reads r t x)).
    { intros t r' x (p & Ip). exact (H _ r' x Ip). }
    split.
    + destruct (find_value (q_key q) fs) as [t|] eqn:E; [|discriminate].
      pose proof (find_value_some _ _ _ E) as C. intros X. apply vbind_ok in X. destruct X as (x & Ex & X).
      apply vbind_ok in X. destruct X as (l & El & X). injection X as <-.
      constructor; [|apply IH; exact El]. split; [reflexivity|]. exists t. split; [exact C|]. apply (H' t); assumption.
    + intros P. inversion P as [|? e ? es' [En (t & C & Rd)] P']; subst.
      rewrite (carries_find fs _ t N C). apply vbind_ok. exists (snd e). split; [apply (H' t); assumption|].
      apply vbind_ok. exists es'. split; [apply IH; exact P'|]. rewrite <- En. destruct e. reflexivity.
Qed.

Lemma exact_fields_calm : forall (vv : list req -> tree -> vres out) fs,
  (forall f r, In f fs -> calm (vv r (snd f))) -> forall r, calm (exact_fields vv fs r).
Proof.
  intros vv fs H r. induction r as [|q r IH]; cbn [exact_fields]; [apply ok_calm|].
  destruct (find_value (q_key q) fs) as [t|] eqn:E; [|split; discriminate].
  destruct (find_value_some _ _ _ E) as (p & Ip). apply vbind_calm; [exact (H _ _ Ip)|].
  intros x _. apply vbind_calm; [exact IH|]. intros l _. apply ok_calm.
Qed.

(** A representation has the type's name and every required field of the object, in order;
    if one is missing, or has no value to be sent, there is none. *)
Definition represents (typename : nat) (tname : string) (r : list req) (fs : list (rkey * tree)) (x : out) : Prop :=
  exists es, x = OObj ((typename, OStr tname) :: es) /\
    Forall2 (fun q e => fst e = q_name q /\ exists t, carries fs (q_key q) t /\ reads (q_sub q) t (snd e)) r es.

Theorem C92_representation : forall ps fuel typename tname r i d fs,
  rep ps (VObj i) (TObj i d fs) -> distinct (TObj i d fs) -> depth (TObj i d fs) <= fuel ->
  (forall x, representation fuel ps typename tname r i = VOk x <-> represents typename tname r fs x) /\
  representation fuel ps typename tname r i <> VCrash /\ representation fuel ps typename tname r i <> VFuel.
Proof.
  intros ps fuel typename tname r i d fs R Ds D.
  inversion Ds as [| |? ? ? N Dl|]; subst. inversion R as [| |? ? vs ? G E F|]; subst.
  unfold representation, at_object. rewrite G. cbn [o_def o_fields]. unfold extra_object.
  rewrite (natural_exact _ _ (rep ps) (view_required ps fuel) (tree_required fuel) vs fs
             (freps_aligned (rep ps) vs fs E F)
             (fun w a b Rab => view_tview _ _ natural_required ps fuel w a b Rab)).
  assert (Q : forall f r, In f fs -> (forall x, tree_required fuel r (snd f) = VOk x <-> reads r (snd f) x) /\ calm (tree_required fuel r (snd f))).
  { intros f r' If. apply tree_required_ok; [|exact (depth_obj_lt i d fs f fuel If (le_n_S _ _ D))].
    rewrite Forall_forall in Dl. apply Dl. apply in_map. exact If. }
  split.
  - intros x. rewrite vbind_ok. unfold represents. split.
    + intros (es & Ee & X). injection X as <-. exists es. split; [reflexivity|].
      apply (exact_fields_ok (tree_required fuel) fs N); [|exact Ee]. intros f r' y If. exact (proj1 (Q f r' If) y).
    + intros (es & -> & H). exists es. split; [|reflexivity].
      apply (exact_fields_ok (tree_required fuel) fs N); [|exact H]. intros f r' y If. exact (proj1 (Q f r' If) y).
  - apply vbind_calm; [|intros; apply ok_calm]. apply exact_fields_calm. intros f r' If. exact (proj2 (Q f r' If)).
Qed.

(** The parents of an entity fetch: those with a representation are fetched with it, in order;
    the others are told apart, in order. *)
Inductive parted (P : id -> out -> Prop) : list (nat * id) -> list (nat * out) -> list nat -> Prop :=
| PtNil : parted P [] [] []
| PtHas n i x l a b : P i x -> parted P l a b -> parted P ((n, i) :: l) ((n, x) :: a) b
| PtNot n i l a b : (forall x, ~ P i x) -> parted P l a b -> parted P ((n, i) :: l) a (n :: b).

(** The store holds one tree for a value. *)
Lemma rep_det : forall t ps v, rep ps v t -> forall t', rep ps v t' -> t' = t.
Proof.
  intros t. induction t as [w|i ts IH|i d fs IH|i t IH] using tree_ind2; intros ps v R t' R'; inversion R; subst.
  - inversion R'; subst; try discriminate. reflexivity.
  - inversion R' as [? L|? vs' ts' G' F'| |]; subst; [discriminate|].
    assert (vs' = vs) by congruence. subst vs'. f_equal.
    match goal with F : Forall2 (rep ps) vs ts |- _ => revert F end. clear - IH F'.
    revert ts IH. induction F' as [|x y vs ts' Rx F' IHF]; intros ts IH F; inversion F; subst; [reflexivity|].
    inversion IH; subst. f_equal; eauto.
  - inversion R' as [? L| |? d' fs' ts' G' E' F'|]; subst; [discriminate|].
    assert (Eo : MkObj d' fs' = MkObj d fs0) by congruence. injection Eo as -> ->. f_equal.
    match goal with F : Forall2 (rep ps) _ (map snd fs) |- _ => revert F end.
    match goal with E : map fst fs0 = map fst fs |- _ => revert E end.
    clear - IH F' E'. revert fs IH ts' E' F'.
    induction fs0 as [|f fs0 IHf]; intros [|g fs] IH [|g' ts'] E' F' E F; try discriminate; [reflexivity|].
    cbn [map] in *. inversion F; subst. inversion F'; subst. inversion IH; subst.
    injection E as E1 E2. injection E' as E1' E2'. f_equal.
    + destruct g, g'. cbn [fst snd] in *. f_equal; [congruence|eauto].
    + apply IHf; assumption.
  - inversion R' as [? L| | |? v' t'' G' R'']; subst; [discriminate|].
    assert (v' = v0) by congruence. subst v'. f_equal. eauto.
Qed.

Theorem C92_entities : forall ps fuel typename tname r l,
  (forall n i, In (n, i) l -> exists d fs, rep ps (VObj i) (TObj i d fs) /\ distinct (TObj i d fs) /\ depth (TObj i d fs) <= fuel) ->
  exists a b, executor fuel ps typename tname r l = Some (a, b) /\
    parted (fun i x => exists d fs, rep ps (VObj i) (TObj i d fs) /\ represents typename tname r fs x) l a b.
Proof.
  intros ps fuel typename tname r l. induction l as [|[n i] l IH]; intros H.
  - exists [], []. split; [reflexivity|constructor].
  - destruct IH as (a & b & E & P); [intros n' i' I'; apply (H n' i'); right; exact I'|].
    destruct (H n i (or_introl eq_refl)) as (d & fs & R & Ds & D).
    destruct (C92_representation ps fuel typename tname r i d fs R Ds D) as (Q1 & Q2 & Q3).
    cbn [executor]. rewrite E.
    destruct (representation fuel ps typename tname r i) as [x| | |] eqn:Er; try contradiction.
    + exists ((n, x) :: a), b. split; [reflexivity|]. constructor; [|exact P].
      exists d, fs. split; [exact R|]. apply Q1. reflexivity.
    + exists a, (n :: b). split; [reflexivity|]. constructor; [|exact P].
      intros x (d' & fs' & R' & Rx).
      assert (Eq : d' = d /\ fs' = fs).
      { pose proof (rep_det _ _ _ R _ R') as X. injection X as -> ->. split; reflexivity. }
      destruct Eq as [-> ->]. apply Q1 in Rx. discriminate.
Qed.

(** What is written has each name once if what is asked for does. *)
Theorem C92_names : forall r i d fs es, reads r (TObj i d fs) (OObj es) -> NoDup (map q_name r) -> NoDup (map fst es).
Proof.
  intros r i d fs es H. inversion H as [| | |? ? ? ? ? P]; subst. clear H.
  assert (Sub : forall r es, picks d fs q_key q_parent (fun q t e => fst e = q_name q /\ reads (q_sub q) t (snd e)) r es ->
    forall n, In n (map fst es) -> In n (map q_name r)).
  { clear. intros r es P. induction P as [|q t e r es C [E _] P IH|q r es L O P IH]; intros n I; [exact I| |].
    - cbn [map] in *. destruct I as [<-|I]; [left; symmetry; exact E|right; exact (IH n I)].
    - right. exact (IH n I). }
  induction P as [|q t e r es C [E _] P IH|q r es L O P IH]; intros N; [constructor| |].
  - cbn [map] in *. inversion N as [|? ? N1 N2]; subst. constructor; [|exact (IH N2)].
    intros I. apply N1. rewrite <- E. exact (Sub r es P _ I).
  - cbn [map] in N. inversion N; subst. apply IH. assumption.
Qed.

(** A store: the root object 0 of type 0 has a field with key 1 (the object 1 of type 7), and
    the hidden list of strings with key 2. *)
Definition ex_ps : list part :=
  [ {| p_objs := [MkObj (Some 0) [((1, 1), VObj (0, 1)); ((2, 2), VInacc (0, 0))];
                  MkObj (Some 7) [((1, 5), VStr "x"); ((2, 6), VInt 4)]];
       p_lists := [[VStr "a"; VNull]];
       p_inacc := [VList (0, 0)] |} ].
Definition ex_tree : tree :=
  TObj (0, 0) (Some 0)
    [((1, 1), TObj (0, 1) (Some 7) [((1, 5), TLeaf (VStr "x")); ((2, 6), TLeaf (VInt 4))]);
     ((2, 2), TInacc (0, 0) (TList (0, 0) [TLeaf (VStr "a"); TLeaf VNull]))].
Lemma ex_rep : rep ex_ps (VObj (0, 0)) ex_tree.
Proof.
  eapply RObj; [reflexivity|reflexivity|]. constructor.
  - eapply RObj; [reflexivity|reflexivity|]. repeat (constructor; [constructor; reflexivity|]). constructor.
  - constructor; [|constructor]. eapply RInacc; [reflexivity|]. eapply RList; [reflexivity|].
    repeat (constructor; [constructor; reflexivity|]). constructor.
Qed.

(** The fields 20 (key 1, name 100) with a field 30 (key 5, name 101) and 31 which the object
    lacks and which is of another type, and 21 (key 2, name 102). *)
Definition ex_reqs : list req :=
  [Req 20 1 100 (EObj 0) [Req 30 5 101 (EObj 7) []; Req 31 8 103 (ESet [3; 4]) []];
   Req 21 2 102 (EObj 0) []].
Example C92_required_ex :
  view_required ex_ps 9 ex_reqs (VObj (0, 0)) =
  VOk (OObj [(100, OObj [(101, OStr "x")]); (102, OList [OStr "a"; ONull])]).
Proof. vm_compute. reflexivity. Qed.
Example C92_field_set_ex :
  view_set ex_ps 9 (ex_reqs, [Item 20 [Item 30 []]]) (VObj (0, 0)) = VOk (OObj [(100, OObj [(101, OStr "x")])]) /\
  sorted_reqs ex_reqs /\ has_set ex_reqs [Item 20 [Item 30 []]].
Proof.
  split; [vm_compute; reflexivity|]. split.
  - constructor.
    + cbn. repeat (constructor; auto).
    + cbn. repeat constructor.
  - constructor; [cbn; repeat constructor|]. intros i [<-|[]]. eexists. split.
    + split; [left; reflexivity|reflexivity].
    + constructor; [cbn; repeat constructor|]. intros i [<-|[]]. eexists. split.
      * split; [left; reflexivity|reflexivity].
      * constructor; [constructor|]. intros i [].
Qed.

(** The object 1 can be represented by its key, the root can't. *)
Example C92_entities_ex :
  executor 9 ex_ps 0 "T" [Req 30 5 101 (EObj 7) []; Req 32 6 104 (EObj 7) []] [(0, (0, 0)); (1, (0, 1))] =
  Some ([(1, OObj [(0, OStr "T"); (101, OStr "x"); (104, OInt 4)])], [0]).
Proof. vm_compute. reflexivity. Qed.

(** Fields of different types read with the same response key, as in
    [... on A { id } ... on B { id }], are both written: the name is there twice. *)
Theorem C92_names_refuted : exists ps fuel r v es,
  NoDup (map q_field r) /\ NoDup (map (fun q => (q_name q, q_parent q)) r) /\
  view_required ps fuel r v = VOk (OObj es) /\ ~ NoDup (map fst es).
Proof.
  exists ex_ps, 9, [Req 30 5 101 (EObj 7) []; Req 40 5 101 (EObj 8) []], (VObj (0, 1)).
  exists [(101, OStr "x"); (101, OStr "x")].
  split; [|split; [|split; [vm_compute; reflexivity|]]].
  - cbn. repeat constructor; cbn; intuition discriminate.
  - cbn. repeat constructor; cbn; intuition discriminate.
  - intros N. inversion N as [|? ? H _]; subst. apply H. left. reflexivity.
Qed.

(** Requirements with a field twice, for one of which a subselection is missing, end in a panic. *)
Theorem C92_field_set_refuted : exists ps fuel r s v,
  (forall i, In i s -> exists q, In q r /\ q_field q = i_field i /\ has_set (q_sub q) (i_sub i)) /\
  view_set ps fuel (r, s) v = VCrash.
Proof.
  exists ex_ps, 9, [Req 20 1 100 (EObj 0) []; Req 20 1 100 (EObj 0) [Req 30 5 101 (EObj 7) []]], [Item 20 [Item 30 []]], (VObj (0, 0)).
  split; [|vm_compute; reflexivity]. intros i [<-|[]]. eexists. split; [right; left; reflexivity|]. split; [reflexivity|].
  constructor; [cbn; repeat constructor|]. intros i [<-|[]]. eexists. split.
  - split; [left; reflexivity|reflexivity].
  - constructor; [constructor|]. intros i [].
Qed.

(** ** C93: injected values *)

Theorem C93_injected : forall ps fuel r i v t, rep ps v t -> distinct t -> depth t < fuel ->
  sorted_reqs r -> within r i ->
  (forall x, view_injection ps fuel (r, i) v = VOk x <-> fills r i t x) /\
  (view_injection ps fuel (r, i) v = VCrash -> misfit r i t) /\
  view_injection ps fuel (r, i) v <> VFuel.
Proof.
  intros ps fuel r i v t R Ds D Sr W. unfold view_injection. rewrite (view_tview _ _ natural_inject ps fuel (r, i) v t R).
  exact (tree_inject_says fuel t r i Ds D Sr W).
Qed.

(** An input object with a default, a field of a nested object and the list. *)
Definition ex_inj : inj :=
  IObject [(200, IDefault (OInt 3)); (201, ISelect 20 (ISelect 30 IIdentity)); (202, ISelect 20 (IObject [(203, ISelect 30 IIdentity)]));
           (204, ISelect 21 IIdentity)].
Example C93_injected_ex :
  view_injection ex_ps 9 (ex_reqs, ex_inj) (VObj (0, 0)) =
  VOk (OObj [(200, OInt 3); (201, OStr "x"); (202, OObj [(203, OStr "x")]); (204, OList [OStr "a"; ONull])]) /\
  within ex_reqs ex_inj.
Proof.
  split; [vm_compute; reflexivity|].
  assert (W30 : within [Req 30 5 101 (EObj 7) []; Req 31 8 103 (ESet [3; 4]) []] (ISelect 30 IIdentity)).
  { eapply WiSelect; [left; reflexivity|reflexivity|constructor]. }
  constructor.
  - repeat (constructor; [intros f next k' f' next' E I; cbn in I; intuition; try discriminate;
      repeat match goal with H : _ = ISelect _ _ |- _ => injection H as <- <- end;
      repeat match goal with H : (_, _) = (_, _) |- _ => injection H; clear H; intros; subst end; lia|]).
    constructor.
  - cbn [map snd ex_inj]. constructor; [constructor|]. constructor; [|constructor; [|constructor; [|constructor]]].
    + eapply WiSelect; [left; reflexivity|reflexivity|exact W30].
    + eapply WiSelect; [left; reflexivity|reflexivity|]. constructor; [|constructor; [exact W30|constructor]].
      constructor; [|constructor]. intros f next k' f' next' _ [].
    + eapply WiSelect; [right; left; reflexivity|reflexivity|constructor].
Qed.

(** A selection that isn't required is left out of the object without an error if nothing
    required comes after it, and ends in a panic otherwise. *)
Theorem C93_uncovered_refuted :
  (exists ps fuel r k f v, sorted_reqs r /\ (forall q, In q r -> q_field q <> f) /\
     view_injection ps fuel (r, IObject [(k, ISelect f IIdentity)]) v = VOk (OObj [])) /\
  (exists ps fuel r k f v, sorted_reqs r /\ (forall q, In q r -> q_field q <> f) /\
     view_injection ps fuel (r, IObject [(k, ISelect f IIdentity)]) v = VCrash).
Proof.
  assert (Sr : sorted_reqs ex_reqs).
  { constructor; cbn; repeat (constructor; auto). }
  split.
  - exists ex_ps, 9, ex_reqs, 200, 22, (VObj (0, 0)). split; [exact Sr|]. split; [|vm_compute; reflexivity].
    intros q [<-|[<-|[]]]; discriminate.
  - exists ex_ps, 9, ex_reqs, 200, 19, (VObj (0, 0)). split; [exact Sr|]. split; [|vm_compute; reflexivity].
    intros q [<-|[<-|[]]]; discriminate.
Qed.

(** ** C94: authorization of the response *)

(** The extension hears, for each target with objects, what the response as it was before any
    of its decisions has for each of them.  What it refuses, or fails to decide, is null for the
    client, with an error each; all other data stays. *)
Theorem C94_refusals : forall D u ts s i t, in_range D ->
  s_root s = Some i -> rep (s_parts s) (VObj i) t -> tidy t -> distinct t ->
  (forall g, In g ts -> ready u (s_parts s) t g) ->
  exists fuel0 s' l vs b, refusals D t 0 ts l /\ places u l vs b /\
    (forall fuel, fuel0 <= fuel -> authorize D fuel u 0 ts s = Ok s' /\
       data fuel s' = Some (if b then ONull else shown vs t)) /\
    s_errs s' = s_errs s ++ map (fun d => error_of u (fst d) (snd d)) l.
Proof.
  intros D u ts s i t Dr Er R T Ds H.
  destruct (authorize_went D u (s_parts s) (VObj i) t R T Ds Dr ts 0 s []) as (F0 & s' & l & A & Rl & (M & E & Rt) & Ks).
  - apply moved_refl.
  - intros v [].
  - exact H.
  - destruct M as [_ M]. destruct (M t (VObj i) R T (okN_each _ _ Ks)) as (t' & R' & T' & _ & Sh & _).
    exists (Nat.max F0 (depth t')), s', l, (flat_map (spot u) l), (existsb (whole u) l).
    split; [exact Rl|]. split; [apply places_of|]. split; [|exact E].
    intros F HF. split; [apply A; lia|]. unfold data. rewrite Rt, Er. unfold root_after.
    destruct (existsb (whole u) l); [reflexivity|].
    rewrite (ser_show (s_parts s') t' (VObj i) F R' T') by lia.
    rewrite <- shown_nil, Sh, app_nil_r. reflexivity.
Qed.

(** Subgraphs and other extensions read the same after authorization. *)
Theorem C94_same_reads : forall D u ts s x t, in_range D ->
  rep (s_parts s) x t -> tidy t -> distinct t ->
  (forall g, In g ts -> ready u (s_parts s) t g) ->
  exists fuel0 s', forall fuel, fuel0 <= fuel -> authorize D fuel u 0 ts s = Ok s' /\
    (forall r, view_required (s_parts s') fuel r x = view_required (s_parts s) fuel r x) /\
    (forall w, view_set (s_parts s') fuel w x = view_set (s_parts s) fuel w x) /\
    (forall w, view_injection (s_parts s') fuel w x = view_injection (s_parts s) fuel w x).
Proof.
  intros D u ts s x t Dr R T Ds H.
  destruct (authorize_went D u (s_parts s) x t R T Ds Dr ts 0 s []) as (F0 & s' & l & A & Rl & (M & E & Rt) & Ks).
  - apply moved_refl.
  - intros v [].
  - exact H.
  - destruct M as [_ M]. destruct (M t x R T (okN_each _ _ Ks)) as (t' & R' & T' & S' & Sh & _).
    exists (Nat.max F0 (S (Nat.max (depth t) (depth t')))), s'. intros F HF. split; [apply A; lia|].
    assert (G : forall V (object : object_view V), natural object -> forall w,
      view V object (s_parts s') F w x = view V object (s_parts s) F w x).
    { intros V object Nt w. rewrite (view_tview V object Nt _ F w x t' R'), (view_tview V object Nt _ F w x t R).
      symmetry. apply (tview_sim V object Nt); [exact S'|lia|lia]. }
    split; [|split]; intros w.
    + exact (G _ _ natural_required w).
    + exact (G _ _ natural_set w).
    + exact (G _ _ natural_inject w).
Qed.

(** If the extension fails whatever it is asked, every object of every target is refused. *)
Theorem C94_fails_closed : forall D t n ts l, (forall n heard, exists e, D n heard = Failed e) ->
  refusals D t n ts l ->
  forall g os o, In g ts -> about g os -> In o os -> exists e, In (g, (o, e)) l.
Proof.
  intros D t n ts l HD H. induction H as [n|n g l ds A H IH|n g l os heard ds ds' A Ne Hh Hd H IH]; intros g' os' o Ig Ab Io.
  - destruct Ig.
  - destruct Ig as [<-|Ig]; [|exact (IH g' os' o Ig Ab Io)].
    apply about_objects in Ab. apply about_objects in A. subst os'. rewrite <- A in Io. destruct Io.
  - destruct Ig as [<-|Ig].
    + apply about_objects in Ab. apply about_objects in A. subst os os'.
      destruct (HD n heard) as (e & E). rewrite E in Hd. inversion Hd; subst. exists e.
      apply in_or_app. left. rewrite map_map. apply (in_map (fun o => (g, (o, e)))) in Io. exact Io.
    + destruct (IH g' os' o Ig Ab Io) as (e & I). exists e. apply in_or_app. right. exact I.
Qed.

(** A decision about an object that doesn't exist ends in a panic. *)
Theorem C94_out_of_range_refuted : exists D fuel u ts s, ~ in_range D /\ authorize D fuel u 0 ts s = Panic.
Proof.
  exists (fun _ _ => DenySome [(1, 0)] [5]), 3, OnField,
    [MkTarget (Some [MkRef (0, 1) [] 7]) None (1, 5) false [] []], (MkState (Some (0, 0)) ex_ps []).
  split; [|vm_compute; reflexivity]. intros H. specialize (H 0 [] _ _ eq_refl). inversion H as [|? ? [L _] _]; subst.
  cbn in L. lia.
Qed.

(** The root has a list of objects of types 7 and 8; the extension refuses the second of the
    objects of type 7, for a field that may be null and for one that may not. *)
Definition ex_auth : list part :=
  [ {| p_objs := [MkObj (Some 0) [((1, 1), VList (0, 0))];
                  MkObj (Some 7) [((1, 5), VStr "x"); ((2, 6), VInt 4)];
                  MkObj (Some 8) [((1, 5), VStr "y")];
                  MkObj (Some 7) [((1, 5), VStr "z"); ((2, 6), VInt 6)]];
       p_lists := [[VObj (0, 1); VObj (0, 2); VObj (0, 3)]];
       p_inacc := [] |} ].
Definition ex_path (n : nat) : list vid := [IIndex (0, 0) n true; IField (0, 0) (1, 1) false].
Definition ex_target (nonnull : bool) : target :=
  MkTarget (Some [MkRef (0, 1) (ex_path 0) 7; MkRef (0, 2) (ex_path 1) 8; MkRef (0, 3) (ex_path 2) 7])
    (Some (EObj 7)) (1, 5) nonnull [[Item 32 []]] [Req 32 6 104 (EObj 7) []].
Definition ex_D (n : nat) (heard : list (list (vres out))) : decision :=
  match heard with
  | [[VOk (OObj [(104, OInt 4)])]; [VOk (OObj [(104, OInt 6)])]] => DenySome [(1, 0)] [9]
  | _ => GrantAll
  end.
Example C94_refusals_ex :
  (exists s', authorize ex_D 5 OnField 0 [ex_target false] (MkState (Some (0, 0)) ex_auth []) = Ok s' /\
     data 5 s' = Some (OObj [(1, OList [OObj [(5, OStr "x"); (6, OInt 4)]; OObj [(5, OStr "y")]; OObj [(5, ONull); (6, OInt 6)]])]) /\
     s_errs s' = [(ex_path 2, Some 5, 9)]) /\
  (exists s', authorize ex_D 5 OnField 0 [ex_target true] (MkState (Some (0, 0)) ex_auth []) = Ok s' /\
     data 5 s' = Some (OObj [(1, OList [OObj [(5, OStr "x"); (6, OInt 4)]; OObj [(5, OStr "y")]; ONull])])).
Proof.
  split; eexists; (split; [vm_compute; reflexivity|]).
  - split; vm_compute; reflexivity.
  - vm_compute. reflexivity.
Qed.

Definition ex_auth_tree : tree :=
  TObj (0, 0) (Some 0) [((1, 1), TList (0, 0)
    [TObj (0, 1) (Some 7) [((1, 5), TLeaf (VStr "x")); ((2, 6), TLeaf (VInt 4))];
     TObj (0, 2) (Some 8) [((1, 5), TLeaf (VStr "y"))];
     TObj (0, 3) (Some 7) [((1, 5), TLeaf (VStr "z")); ((2, 6), TLeaf (VInt 6))]])].
Example C94_ready_ex :
  in_range ex_D /\ rep ex_auth (VObj (0, 0)) ex_auth_tree /\ tidy ex_auth_tree /\ distinct ex_auth_tree /\
  ready OnField ex_auth ex_auth_tree (ex_target false).
Proof.
  split.
  { intros n heard l errors E. unfold ex_D in E.
    repeat match type of E with
    | match ?x with _ => _ end = _ => destruct x eqn:?; try discriminate E
    end. injection E as <- <-. constructor; [cbn; lia|constructor]. }
  split.
  { eapply RObj; [reflexivity|reflexivity|]. constructor; [|constructor]. eapply RList; [reflexivity|].
    constructor; [|constructor; [|constructor; [|constructor]]];
      (eapply RObj; [reflexivity|reflexivity|]; repeat (constructor; [constructor; reflexivity|]); constructor). }
  split.
  { repeat (first [apply TdObj; [repeat constructor|] | apply TdList | apply TdLeaf | apply Forall_cons | apply Forall_nil]). }
  split.
  { repeat (first [apply DsObj; [cbn; repeat (constructor; [cbn; intuition discriminate|]); constructor|] | apply DsList | apply DsLeaf | apply Forall_cons | apply Forall_nil]). }
  split; [constructor; cbn; repeat constructor|]. split.
  { constructor; [|constructor]. constructor; [cbn; repeat constructor|]. intros i [<-|[]]. eexists.
    split; [split; [left; reflexivity|reflexivity]|]. constructor; [constructor|intros i []]. }
  intros os o Ab Io. apply about_objects in Ab. subst os. cbn in Io.
  assert (L : forall i d fs, In (TObj i d fs) [TObj (0, 1) (Some 7) [((1, 5), TLeaf (VStr "x")); ((2, 6), TLeaf (VInt 4))];
     TObj (0, 2) (Some 8) [((1, 5), TLeaf (VStr "y"))];
     TObj (0, 3) (Some 7) [((1, 5), TLeaf (VStr "z")); ((2, 6), TLeaf (VInt 6))]] -> object_in ex_auth_tree i d fs).
  { intros i d fs I. eapply OiField; [left; reflexivity|]. eapply OiList; [exact I|constructor]. }
  destruct Io as [<-|[<-|[]]]; (split; [eexists; eexists; apply L; cbn; auto|]);
    intros v P; apply place_unique in P; injection P as ->; cbn [r_id t_key ex_target]; (split; [eexists; reflexivity|]);
    repeat (first [apply OkObj; [intros k b I; cbn in I; intuition; injection H; intros; subst; cbn; auto; discriminate|] | apply OkList | apply OkLeaf | apply Forall_cons | apply Forall_nil]).
Qed.
