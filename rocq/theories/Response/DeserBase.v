(** Proofs about deserialisation: what a step of it does to the part. *)

From Coq Require Import List Arith ZArith String Bool Sorted Permutation Lia.
From Verif Require Import Response.Model Response.Deserialize Response.Spec Response.Conform.
From Verif Require Import Response.Merge Response.Nulls.
Import ListNotations.
Local Open Scope nat_scope.

(** ** Lists which grow *)

Definition lext {A} (l l' : list A) : Prop :=
  List.length l <= List.length l' /\ forall n, n < List.length l -> nth_error l' n = nth_error l n.

Definition lwin {A} (l l' L : list A) : Prop :=
  forall n, List.length l <= n < List.length l' -> nth_error L n = nth_error l' n.

Lemma lext_refl : forall A (l : list A), lext l l.
Proof. intros A l. split; auto. Qed.

Lemma lext_trans : forall A (l1 l2 l3 : list A), lext l1 l2 -> lext l2 l3 -> lext l1 l3.
Proof. intros A l1 l2 l3 [L1 E1] [L2 E2]. split; [lia|]. intros n Hn. rewrite E2, E1; auto. lia. Qed.

Lemma lext_app : forall A (l s : list A), lext l (l ++ s).
Proof.
  intros A l s. split; [rewrite app_length; lia|]. intros n Hn. rewrite nth_error_app1; auto.
Qed.

Lemma lext_set : forall A (l l' : list A) n x, lext l l' -> List.length l <= n -> lext l (set_nth n x l').
Proof.
  intros A l l' n x [L E] Hn. split; [rewrite length_set_nth; exact L|].
  intros m Hm. rewrite nth_set_nth. destruct (m =? n) eqn:Q; [apply Nat.eqb_eq in Q; lia|]. auto.
Qed.

Lemma lwin_in : forall A (l0 l1 l l3 L : list A),
  List.length l <= List.length l0 -> List.length l1 <= List.length l3 ->
  lwin l0 l1 l3 -> lwin l l3 L -> lwin l0 l1 L.
Proof. intros A l0 l1 l l3 L H0 H1 W W' n Hn. rewrite <- (W n Hn). apply W'. lia. Qed.

Lemma lext_win : forall A (l0 l1 l2 : list A), lext l1 l2 -> lwin l0 l1 l2.
Proof. intros A l0 l1 l2 [L E] n Hn. apply E. lia. Qed.

(** ** Parts which grow *)

Definition ext (p p' : part) : Prop :=
  lext (p_objs p) (p_objs p') /\ lext (p_lists p) (p_lists p') /\ lext (p_inacc p) (p_inacc p').
Definition win (p p' P : part) : Prop :=
  lwin (p_objs p) (p_objs p') (p_objs P) /\ lwin (p_lists p) (p_lists p') (p_lists P)
  /\ lwin (p_inacc p) (p_inacc p') (p_inacc P).
Definition shorter (p p' : part) : Prop :=
  List.length (p_objs p) <= List.length (p_objs p') /\ List.length (p_lists p) <= List.length (p_lists p')
  /\ List.length (p_inacc p) <= List.length (p_inacc p').

Lemma ext_refl : forall p, ext p p.
Proof. intros p. repeat split; auto. Qed.
Lemma ext_trans : forall p1 p2 p3, ext p1 p2 -> ext p2 p3 -> ext p1 p3.
Proof.
  intros p1 p2 p3 (A & B & C) (A' & B' & C').
  split; [|split]; eapply lext_trans; eassumption.
Qed.
Lemma ext_shorter : forall p p', ext p p' -> shorter p p'.
Proof. intros p p' ((A & _) & (B & _) & (C & _)). repeat split; assumption. Qed.
Lemma ext_win : forall p0 p1 p2, ext p1 p2 -> win p0 p1 p2.
Proof. intros p0 p1 p2 (A & B & C). split; [|split]; apply lext_win; assumption. Qed.
Lemma win_in : forall p0 p1 p p3 P, shorter p p0 -> shorter p1 p3 -> win p0 p1 p3 -> win p p3 P -> win p0 p1 P.
Proof.
  intros p0 p1 p p3 P (A & B & C) (A' & B' & C') (W1 & W2 & W3) (V1 & V2 & V3).
  split; [|split]; eapply lwin_in; eassumption.
Qed.
Lemma shorter_trans : forall p1 p2 p3, shorter p1 p2 -> shorter p2 p3 -> shorter p1 p3.
Proof. intros p1 p2 p3 (A & B & C) (A' & B' & C'). repeat split; lia. Qed.

Lemma ext_objs : forall p o, ext p (with_objs p (p_objs p ++ [o])).
Proof. intros p o. split; [apply lext_app|]. split; apply lext_refl. Qed.
Lemma ext_lists : forall p o, ext p (with_lists p (p_lists p ++ [o])).
Proof. intros p o. split; [apply lext_refl|]. split; [apply lext_app|apply lext_refl]. Qed.
Lemma ext_inacc : forall p o, ext p (with_inacc p (p_inacc p ++ [o])).
Proof. intros p o. split; [apply lext_refl|]. split; [apply lext_refl|apply lext_app]. Qed.

Section Paths.
  Variable pid : nat.
  Variable pp : list vid.

  Notation propagate := (propagate pp).
  Notation error_at := (error_at pp).

  (** ** Positions *)

  (** A position in what was added between two parts. *)
  Definition fresh (p p' : part) (u : vid) : Prop :=
    match u with
    | IField i _ _ => fst i = pid /\ List.length (p_objs p) <= snd i < List.length (p_objs p')
    | IIndex i _ _ => fst i = pid /\ List.length (p_lists p) <= snd i < List.length (p_lists p')
    | INum _ _ => False
    end.

  (** A position which is not in what is added later. *)
  Definition below (p : part) (u : vid) : Prop :=
    match u with
    | IField i _ _ => fst i = pid -> snd i < List.length (p_objs p)
    | IIndex i _ _ => fst i = pid -> snd i < List.length (p_lists p)
    | INum _ _ => True
    end.

  Lemma below_fresh : forall p p1 p2 u, shorter p p1 -> below p u -> ~ fresh p1 p2 u.
  Proof.
    intros p p1 p2 u (A & B & _) Hb F. destruct u; cbn [below fresh] in *; [| |exact F];
      destruct F as [E F]; specialize (Hb E); lia.
  Qed.

  Lemma below_mono : forall p p' u, shorter p p' -> below p u -> below p' u.
  Proof. intros p p' u (A & B & _) Hb. destruct u; cbn [below] in *; auto; intros E; specialize (Hb E); lia. Qed.

  Lemma fresh_below : forall p p' u, fresh p p' u -> below p' u.
  Proof. intros p p' u F. destruct u; cbn [below fresh] in *; tauto. Qed.

  Lemma fresh_widen : forall p0 p1 p p3 u, shorter p p0 -> shorter p1 p3 -> fresh p0 p1 u -> fresh p p3 u.
  Proof.
    intros p0 p1 p p3 u (A & B & _) (A' & B' & _) F. destruct u; cbn [fresh] in *; [| |exact F];
      destruct F as [E F]; split; [exact E|lia|exact E|lia].
  Qed.

  Lemma fresh_split : forall p p1 p2 u, fresh p p2 u -> fresh p p1 u \/ fresh p1 p2 u.
  Proof.
    intros p p1 p2 u F. destruct u as [[q n] k b|[q n] i b|q i]; cbn [fresh fst snd] in *; [| |contradiction].
    - destruct F as [E F]. destruct (le_lt_dec (List.length (p_objs p1)) n); [right|left]; split; auto; lia.
    - destruct F as [E F]. destruct (le_lt_dec (List.length (p_lists p1)) n); [right|left]; split; auto; lia.
  Qed.

  (** ** Builders *)

  (** Every null is at a position which is not in what is added later. *)
  Definition old (b : builder) : Prop := Forall (below (b_part b)) (b_nulls b).

  (** What a step adds: nulls at positions in [ok] or in what it added. *)
  Record grow (ok : vid -> Prop) (b b' : builder) : Prop := MkGrow {
    g_ext : ext (b_part b) (b_part b');
    g_nulls : exists new, b_nulls b' = b_nulls b ++ new /\
      Forall (fun u => vid_nullable u = true /\ (ok u \/ fresh (b_part b) (b_part b') u)) new;
    g_up : b_up b = true -> b_up b' = true;
    g_errs : exists new, b_errs b' = b_errs b ++ new;
    g_upd : b_updates b' = b_updates b;
    g_bub : b_bub b' = b_bub b
  }.

  Lemma grow_refl : forall ok b, grow ok b b.
  Proof.
    intros ok b. constructor; auto using ext_refl; exists []; rewrite app_nil_r; auto.
  Qed.

  Lemma grow_trans : forall ok b1 b2 b3, grow ok b1 b2 -> grow ok b2 b3 -> grow ok b1 b3.
  Proof.
    intros ok b1 b2 b3 [E1 (n1 & N1 & F1) U1 (e1 & R1) D1 B1] [E2 (n2 & N2 & F2) U2 (e2 & R2) D2 B2].
    constructor; [eapply ext_trans; eassumption| |auto| |congruence|congruence].
    - exists (n1 ++ n2). split; [rewrite N2, N1, app_assoc; reflexivity|].
      apply Forall_app. split; rewrite Forall_forall in *; intros u I.
      + destruct (F1 u I) as [H [O|F]]; split; auto. right.
        eapply fresh_widen; [| |exact F]; [split; auto|apply ext_shorter; exact E2].
      + destruct (F2 u I) as [H [O|F]]; split; auto. right.
        eapply fresh_widen; [| |exact F]; [apply ext_shorter; exact E1|split; auto].
    - exists (e1 ++ e2). rewrite R2, R1, app_assoc. reflexivity.
  Qed.

  Lemma grow_weaken : forall (ok ok' : vid -> Prop) b b',
    (forall u, ok u -> vid_nullable u = true -> ok' u \/ fresh (b_part b) (b_part b') u) -> grow ok b b' -> grow ok' b b'.
  Proof.
    intros ok ok' b b' H [E (n & N & F) U R D B]. constructor; auto. exists n. split; [exact N|].
    rewrite Forall_forall in *. intros u I. destruct (F u I) as [Hn [O|Fr]]; split; auto.
  Qed.

  Lemma grow_old : forall (ok : vid -> Prop) b b', (forall u, ok u -> below (b_part b) u) -> old b -> grow ok b b' -> old b'.
  Proof.
    intros ok b b' H O [E (n & N & F) U R D B]. unfold old in *. rewrite N. apply ext_shorter in E.
    rewrite Forall_forall in O, F.
    apply Forall_app. split; apply Forall_forall; intros u I.
    - eapply below_mono; [exact E|auto].
    - destruct (F u I) as [_ [Ok|Fr]].
      + eapply below_mono; [exact E|auto].
      + eapply fresh_below. exact Fr.
  Qed.

  (** Changing only the part. *)
  Lemma grow_part : forall ok b p, ext (b_part b) p -> grow ok b (with_part b p).
  Proof.
    intros ok b p E. constructor; cbn [with_part b_part b_nulls b_up b_errs b_updates b_bub]; auto;
      exists []; rewrite app_nil_r; auto.
  Qed.

  Lemma grow_error : forall ok lp k b, grow ok b (error_at lp k b).
  Proof.
    intros ok lp k b. constructor; auto using ext_refl.
    - exists []. rewrite app_nil_r. auto.
    - eexists. reflexivity.
  Qed.

  Lemma find_app' : forall A (g : A -> bool) l1 l2,
    find g (l1 ++ l2) = match find g l1 with Some x => Some x | None => find g l2 end.
  Proof. intros A g l1 l2. induction l1 as [|x l1 IH]; cbn; [reflexivity|]. destruct (g x); auto. Qed.

  (** A null was propagated from this path. *)
  Definition covered (lp : list vid) (b : builder) : Prop :=
    match find vid_nullable (lp ++ pp) with
    | Some u => In u (b_nulls b)
    | None => b_up b = true
    end.

  Lemma propagate_covered : forall lp b, covered lp (propagate lp b).
  Proof.
    intros lp b. unfold covered, Deserialize.propagate, propagate_null, propagate_parent. rewrite find_app'.
    destruct (find vid_nullable lp); [cbn; apply in_or_app; right; left; reflexivity|].
    destruct (find vid_nullable pp); [cbn; apply in_or_app; right; left; reflexivity|reflexivity].
  Qed.

  Definition onpath (lp : list vid) (u : vid) : Prop := In u (lp ++ pp).

  Lemma grow_propagate : forall lp b, grow (onpath lp) b (propagate lp b).
  Proof.
    intros lp b. unfold Deserialize.propagate, propagate_null, propagate_parent.
    destruct (find vid_nullable lp) as [u|] eqn:Ef.
    - apply find_some in Ef. destruct Ef as [I H].
      constructor; cbn; auto using ext_refl; [|exists []; rewrite app_nil_r; auto].
      exists [u]. split; [reflexivity|]. constructor; [|constructor]. split; [exact H|left].
      apply in_or_app. left. exact I.
    - destruct (find vid_nullable pp) as [u|] eqn:Eg.
      + apply find_some in Eg. destruct Eg as [I H].
        constructor; cbn; auto using ext_refl; [|exists []; rewrite app_nil_r; auto].
        exists [u]. split; [reflexivity|]. constructor; [|constructor]. split; [exact H|left].
        apply in_or_app. right. exact I.
      + constructor; cbn; auto using ext_refl; exists []; rewrite app_nil_r; auto.
  Qed.

  Lemma covered_grow : forall ok lp b b', grow ok b b' -> covered lp b -> covered lp b'.
  Proof.
    intros ok lp b b' [E (n & N & F) U R D B] C. unfold covered in *.
    destruct (find vid_nullable (lp ++ pp)); [rewrite N; apply in_or_app; left; exact C|auto].
  Qed.

  (** Paths longer by one element *)
  Lemma covered_cons : forall u lp b, vid_nullable u = false -> covered (u :: lp) b -> covered lp b.
  Proof. intros u lp b H C. unfold covered in *. cbn [app find] in C. rewrite H in C. exact C. Qed.

  Lemma covered_here : forall u lp b, vid_nullable u = true -> covered (u :: lp) b -> In u (b_nulls b).
  Proof. intros u lp b H C. unfold covered in *. cbn [app find] in C. rewrite H in C. exact C. Qed.

  (** ** What is said of a value *)

  (** A store which has what was added between two parts. *)
  Definition within (p p' : part) (ps : list part) : Prop :=
    exists P, nth_error ps pid = Some P /\ win p p' P.

  Lemma within_in : forall p0 p1 p p3 ps, shorter p p0 -> shorter p1 p3 -> win p0 p1 p3 ->
    within p p3 ps -> within p0 p1 ps.
  Proof.
    intros p0 p1 p p3 ps S1 S2 W (P & G & V). exists P. split; [exact G|].
    eapply win_in; eassumption.
  Qed.

  (** Nulls which are those of the builder for what was added. *)
  Definition agreeN (b b' : builder) (N : list vid) : Prop :=
    forall u, fresh (b_part b) (b_part b') u -> (In u N <-> In u (b_nulls b')).

  Definition allvalid (b b' : builder) : Prop :=
    forall ps, within (b_part b) (b_part b') ps ->
    forall u, In u (b_nulls b') -> fresh (b_part b) (b_part b') u -> valid ps u.

  (** Without an error no null was propagated. *)
  Definition quiet (b b' : builder) : Prop :=
    b_errs b' = b_errs b -> b_nulls b' = b_nulls b /\ b_up b' = b_up b.

  (** The range of a step inside the range of a longer one. *)
  Record carry (b0 b1 b b3 : builder) : Prop := MkCarry {
    c_start : shorter (b_part b) (b_part b0);
    c_end : shorter (b_part b1) (b_part b3);
    c_win : win (b_part b0) (b_part b1) (b_part b3);
    c_nulls : forall u, fresh (b_part b0) (b_part b1) u -> In u (b_nulls b3) -> In u (b_nulls b1);
    c_incl : incl (b_nulls b1) (b_nulls b3);
    c_up : b_up b1 = true -> b_up b3 = true;
    c_errs0 : exists e, b_errs b0 = b_errs b ++ e;
    c_errs1 : exists e, b_errs b1 = b_errs b0 ++ e;
    c_errs3 : exists e, b_errs b3 = b_errs b1 ++ e
  }.

  Lemma app_self : forall A (l a : list A), l ++ a = l -> a = [].
  Proof.
    intros A l a H. apply (f_equal (@List.length A)) in H. rewrite app_length in H.
    destruct a; [reflexivity|cbn in H; lia].
  Qed.

  Lemma carry_errs : forall b0 b1 b b3, carry b0 b1 b b3 -> b_errs b3 = b_errs b -> b_errs b1 = b_errs b0.
  Proof.
    intros b0 b1 b b3 C H. destruct (c_errs0 _ _ _ _ C) as (e0 & E0). destruct (c_errs1 _ _ _ _ C) as (e1 & E1).
    destruct (c_errs3 _ _ _ _ C) as (e3 & E3). rewrite E3, E1, E0, <- !app_assoc in H.
    apply app_self in H. apply app_eq_nil in H. destruct H as [-> H]. apply app_eq_nil in H. destruct H as [-> ->].
    rewrite E1, app_nil_r. reflexivity.
  Qed.

  Lemma carry_within : forall b0 b1 b b3 ps, carry b0 b1 b b3 ->
    within (b_part b) (b_part b3) ps -> within (b_part b0) (b_part b1) ps.
  Proof.
    intros b0 b1 b b3 ps C W. eapply within_in; [apply (c_start _ _ _ _ C)|apply (c_end _ _ _ _ C)|apply (c_win _ _ _ _ C)|exact W].
  Qed.

  Lemma carry_agree : forall b0 b1 b b3 N, carry b0 b1 b b3 -> agreeN b b3 N -> agreeN b0 b1 N.
  Proof.
    intros b0 b1 b b3 N C A u F.
    rewrite (A u (fresh_widen _ _ _ _ u (c_start _ _ _ _ C) (c_end _ _ _ _ C) F)).
    split; [apply (c_nulls _ _ _ _ C); exact F|apply (c_incl _ _ _ _ C)].
  Qed.

  Lemma carry_covered : forall b0 b1 b b3 lp, carry b0 b1 b b3 -> covered lp b1 -> covered lp b3.
  Proof.
    intros b0 b1 b b3 lp C H. unfold covered in *. destruct (find vid_nullable (lp ++ pp)).
    - apply (c_incl _ _ _ _ C). exact H.
    - apply (c_up _ _ _ _ C). exact H.
  Qed.

  (** A step followed by another one. *)
  Lemma carry_grow : forall (ok0 ok1 ok : vid -> Prop) b b0 b1 b3,
    grow ok0 b b0 -> grow ok1 b0 b1 -> grow ok b1 b3 ->
    (forall u, ok u -> below (b_part b0) u) -> carry b0 b1 b b3.
  Proof.
    intros ok0 ok1 ok b b0 b1 b3 G0 G1 G3 H. constructor.
    - apply ext_shorter. apply (g_ext _ _ _ G0).
    - apply ext_shorter. apply (g_ext _ _ _ G3).
    - apply ext_win. apply (g_ext _ _ _ G3).
    - intros u F I. destruct (g_nulls _ _ _ G3) as (n & N & Fn). rewrite N in I.
      apply in_app_iff in I. destruct I as [I|I]; [exact I|exfalso].
      rewrite Forall_forall in Fn. destruct (Fn u I) as [_ [O|F']].
      + eapply below_fresh; [|apply (H u O)|exact F]. split; auto.
      + apply fresh_below in F. eapply below_fresh; [|exact F|exact F']. split; auto.
    - destruct (g_nulls _ _ _ G3) as (n & N & _). rewrite N. apply incl_appl. apply incl_refl.
    - apply (g_up _ _ _ G3).
    - apply (g_errs _ _ _ G0).
    - apply (g_errs _ _ _ G1).
    - apply (g_errs _ _ _ G3).
  Qed.

  Lemma allvalid_trans : forall (ok0 ok : vid -> Prop) b b1 b2,
    grow ok0 b b1 -> grow ok b1 b2 -> (forall u, ok u -> below (b_part b) u) ->
    old b -> (forall u, ok0 u -> below (b_part b) u) ->
    allvalid b b1 -> allvalid b1 b2 -> allvalid b b2.
  Proof.
    intros ok0 ok b b1 b2 G1 G2 H O H0 V1 V2 ps W u I F.
    destruct (fresh_split _ (b_part b1) _ u F) as [F'|F'].
    - assert (C : carry b b1 b b2) 
        by (apply (carry_grow ok0 ok0 ok); [apply grow_refl|exact G1|exact G2|exact H]).
      apply (V1 ps); [eapply carry_within; eassumption| |exact F'].
      apply (c_nulls _ _ _ _ C); assumption.
    - apply (V2 ps); auto. apply (within_in (b_part b1) (b_part b2) (b_part b) (b_part b2)); [| | |exact W].
      + apply ext_shorter. apply (g_ext _ _ _ G1).
      + repeat split; auto.
      + split; [|split]; intros n _; reflexivity.
  Qed.

  Lemma quiet_refl : forall b, quiet b b.
  Proof. intros b _. auto. Qed.

  Lemma quiet_trans : forall ok ok' b1 b2 b3, grow ok b1 b2 -> grow ok' b2 b3 ->
    quiet b1 b2 -> quiet b2 b3 -> quiet b1 b3.
  Proof.
    intros ok ok' b1 b2 b3 G1 G2 Q1 Q2 E.
    destruct (g_errs _ _ _ G1) as (e1 & E1). destruct (g_errs _ _ _ G2) as (e2 & E2).
    assert (e1 = [] /\ e2 = []) as [-> ->].
    { rewrite E2, E1, <- app_assoc in E. apply app_self in E. apply app_eq_nil in E. exact E. }
    rewrite app_nil_r in *. destruct (Q2 E2) as [A B]. destruct (Q1 E1) as [A1 B1]. split; congruence.
  Qed.

  Lemma errs_split : forall ok ok' b1 b2 b3, grow ok b1 b2 -> grow ok' b2 b3 ->
    b_errs b3 = b_errs b1 -> b_errs b2 = b_errs b1 /\ b_errs b3 = b_errs b2.
  Proof.
    intros ok ok' b1 b2 b3 G1 G2 E.
    destruct (g_errs _ _ _ G1) as (e1 & E1). destruct (g_errs _ _ _ G2) as (e2 & E2).
    rewrite E2, E1, <- app_assoc in E. apply app_self in E. apply app_eq_nil in E. destruct E as [-> ->].
    rewrite app_nil_r in *. split; congruence.
  Qed.

  (** ** Leaves *)

  Lemma allvalid_none : forall b b', (forall u, ~ fresh (b_part b) (b_part b') u) -> allvalid b b'.
  Proof. intros b b' H ps W u I F. exfalso. exact (H u F). Qed.

  Lemma fresh_same : forall p u, ~ fresh p p u.
  Proof. intros p u F. destruct u; cbn [fresh] in F; [lia|lia|exact F]. Qed.

  Lemma fresh_inacc : forall p x u, ~ fresh p (with_inacc p x) u.
  Proof. intros p x u F. destruct u; cbn in F; [lia|lia|exact F]. Qed.

  Lemma error_grew : forall lp k b, b_errs (error_at lp k b) <> b_errs b.
  Proof. intros lp k b E. unfold Deserialize.error_at, push_err in E. cbn in E. apply app_self in E. discriminate. Qed.

  Lemma errs_propagate : forall lp b, b_errs (propagate lp b) = b_errs b.
  Proof.
    intros lp b. unfold Deserialize.propagate, propagate_null, propagate_parent.
    destruct (find vid_nullable lp); [reflexivity|]. destruct (find vid_nullable pp); reflexivity.
  Qed.

  Lemma part_propagate : forall lp b, b_part (propagate lp b) = b_part b.
  Proof.
    intros lp b. unfold Deserialize.propagate, propagate_null, propagate_parent.
    destruct (find vid_nullable lp); [reflexivity|]. destruct (find vid_nullable pp); reflexivity.
  Qed.

  (** ** Lists of numbers *)

  Lemma num_unexpected_spec : forall f i lp b,
    let b' := num_unexpected pp f (INum pid i :: lp) b in
    grow (onpath lp) b b' /\ b_part b' = b_part b /\ quiet b b' /\
    (reported f = true -> covered lp b' /\ b_errs b' <> b_errs b).
  Proof.
    intros f i lp b b'. unfold b', num_unexpected. destruct (reported f) eqn:R.
    - assert (G : grow (onpath lp) b (error_at (INum pid i :: lp) None (propagate (INum pid i :: lp) b))).
      { eapply grow_trans; [|apply grow_error].
        change (propagate (INum pid i :: lp) b) with (propagate lp b). apply grow_propagate. }
      split; [exact G|]. split; [cbn [Deserialize.error_at push_err b_part]; apply part_propagate|].
      assert (NE : b_errs (error_at (INum pid i :: lp) None (propagate (INum pid i :: lp) b)) <> b_errs b).
      { intros E. rewrite <- (errs_propagate (INum pid i :: lp) b) in E. exact (error_grew _ _ _ E). }
      split; [intros E; contradiction|]. intros _. split; [|exact NE].
      eapply covered_grow; [apply (grow_error (onpath lp))|].
      change (propagate (INum pid i :: lp) b) with (propagate lp b). apply propagate_covered.
    - split; [apply grow_refl|]. split; [reflexivity|]. split; [apply quiet_refl|]. discriminate.
  Qed.

  Lemma num_elems_spec : forall A (conv : json -> option A) f lp l ok i b b' xs bad,
    num_elems pid pp conv f lp l ok i b = (b', Some (xs, bad)) ->
    ok = true /\ grow (onpath lp) b b' /\ b_part b' = b_part b /\ quiet b b' /\
    (bad = true -> reported f = true -> covered lp b' /\ b_errs b' <> b_errs b) /\
    (bad = false -> Forall2 (fun j x => conv j = Some x) l xs).
  Proof.
    intros A conv f lp l ok. induction l as [|j l IH]; intros i b b' xs bad E; cbn [num_elems] in E.
    - destruct ok; inversion E; subst. split; [reflexivity|]. split; [apply grow_refl|]. split; [reflexivity|].
      split; [apply quiet_refl|]. split; [discriminate|]. constructor.
    - destruct (deser_num pp conv f j (INum pid i :: lp) b) as [b1 [x|]] eqn:D; [|discriminate].
      destruct (num_elems pid pp conv f lp l ok (S i) b1) as [b2 [[ys bad']|]] eqn:D2; [|discriminate].
      destruct (IH _ _ _ _ _ D2) as (Ok & G & P & Q & B & F). inversion E; subst b2; clear E.
      assert (N : (b1 = b /\ exists a, x = Some a /\ conv j = Some a) \/ (b1 = num_unexpected pp f (INum pid i :: lp) b /\ x = None)).
      { unfold deser_num in D.
        destruct j as [|y|z|y|s|m okm|m okm|]; try discriminate;
          try (match type of D with (match ?c with _ => _ end = _) => destruct c as [a|] eqn:C end;
               inversion D; subst; [left; eauto|right; auto]).
        - inversion D. right. split; [reflexivity|]. destruct m, okm; congruence.
        - inversion D. right. split; [reflexivity|]. destruct m, okm; congruence. }
      split; [exact Ok|]. destruct N as [(-> & a & -> & Ca)|(-> & ->)].
      + split; [exact G|]. split; [exact P|]. split; [exact Q|].
        assert (xs = a :: ys /\ bad' = bad) as [-> ->] by (split; congruence).
        split; [exact B|]. intros Bf. constructor; auto.
      + destruct (num_unexpected_spec f i lp b) as (G0 & P0 & Q0 & B0).
        assert (bad = true) as -> by congruence.
        split; [eapply grow_trans; eassumption|]. split; [congruence|].
        split; [eapply quiet_trans; eassumption|]. split; [|discriminate].
        intros _ R. destruct (B0 R) as [C NE]. split; [eapply covered_grow; eassumption|].
        intros E. destruct (errs_split _ _ _ _ _ G0 G E) as [E1 _]. contradiction.
  Qed.

End Paths.

Section Schema.
  Variable obj_name : nat -> string.
  Variable obj_by_name : string -> option nat.
  Variable obj_inaccessible : nat -> bool.
  Variable possible : nat -> list nat.
  Variable round_f64 : Z -> Z.
  Variable pid : nat.
  Variable pp : list vid.

  Notation conf := (conf obj_name obj_inaccessible possible).
  Notation shows := (shows obj_name obj_by_name possible round_f64).
  Notation propagate := (propagate pp).
  Notation error_at := (error_at pp).
  Notation grow := (grow pid).
  Notation onpath := (onpath pp).
  Notation covered := (covered pp).
  Notation within := (within pid).
  Notation agreeN := (agreeN pid).
  Notation allvalid := (allvalid pid).
  Notation carry := (carry pid).

  Definition calm (sh : shape) : Prop := (forall d, obj_inaccessible d = false) /\ accessible_shape sh.

  Record seen (f : field) (w : wtype) (j : json) (lp : list vid) (b b' : builder) (v : val) (t : tree) : Prop := MkSeen {
    s_rep : forall ps, within (b_part b) (b_part b') ps -> rep ps v t;
    s_tidy : tidy t;
    s_ok : forall N, agreeN b b' N -> okN N t;
    s_conf : reported f = true ->
      covered lp b' \/ forall N, agreeN b b' N -> conf w (f_shape f) (shown N t);
    s_shows : reported f = true -> calm (f_shape f) -> b_errs b' = b_errs b ->
      shows w (f_shape f) j (show t)
  }.

  Lemma seen_carry : forall f w j lp b0 b1 b b3 v t, carry b0 b1 b b3 ->
    seen f w j lp b0 b1 v t -> seen f w j lp b b3 v t.
  Proof.
    intros f w j lp b0 b1 b b3 v t C [R T K F S]. constructor; auto.
    - intros ps W. apply R. eapply carry_within; eassumption.
    - intros N A. apply K. eapply carry_agree; eassumption.
    - intros Rp. destruct (F Rp) as [Cv|Cf]; [left; eapply carry_covered; eassumption|right].
      intros N A. apply Cf. eapply carry_agree; eassumption.
    - intros Rp Cm E. apply S; auto. eapply carry_errs; eassumption.
  Qed.

  (** What is established of the deserialisation of a value. *)
  Definition fine (f : field) (w : wtype) (j : json) (lp : list vid) (b b' : builder) (v : val) : Prop :=
    grow (onpath lp) b b' /\ allvalid b b' /\ (calm (f_shape f) -> quiet b b') /\
    exists t, seen f w j lp b b' v t.

  Lemma leaf_seen : forall f w j lp b b' v, is_leaf v = true ->
    (reported f = true -> covered lp b' \/ conf w (f_shape f) (show (TLeaf v))) ->
    (reported f = true -> calm (f_shape f) -> b_errs b' = b_errs b -> shows w (f_shape f) j (show (TLeaf v))) ->
    seen f w j lp b b' v (TLeaf v).
  Proof.
    intros f w j lp b b' v L C S. constructor; auto.
    - intros ps _. constructor. exact L.
    - constructor.
    - intros N _. constructor.
    - intros R. destruct (C R) as [Cv|Cf]; [left; exact Cv|right]. intros N _. exact Cf.
  Qed.

  (** A value read in the builder without changing it. *)
  Lemma leaf_fine : forall f w j lp b v, is_leaf v = true ->
    (reported f = true -> conf w (f_shape f) (show (TLeaf v))) ->
    (reported f = true -> shows w (f_shape f) j (show (TLeaf v))) ->
    fine f w j lp b b v.
  Proof.
    intros f w j lp b v L C S. split; [apply grow_refl|]. split; [apply allvalid_none; apply fresh_same|].
    split; [intros _; apply quiet_refl|]. exists (TLeaf v). apply leaf_seen; auto.
  Qed.

  Lemma unexpected_fine : forall f w r j lp b b' v, wrequired w = r ->
    unexpected pp f r lp b = (b', Some v) -> fine f w j lp b b' v.
  Proof.
    intros f w r j lp b b' v Hr E. unfold unexpected in E. inversion E; subst b' v; clear E.
    destruct (reported f) eqn:R.
    - assert (G : grow (onpath lp) b (error_at lp None (if r then propagate lp b else b))).
      { eapply grow_trans; [|apply grow_error]. destruct r; [apply grow_propagate|apply grow_refl]. }
      split; [exact G|]. split; [|split].
      + apply allvalid_none. intros u. unfold Deserialize.error_at, push_err. cbn [b_part].
        destruct r; [rewrite part_propagate|]; apply fresh_same.
      + intros _ E. exfalso. destruct r; [|exact (error_grew _ _ _ _ E)].
        rewrite <- (errs_propagate pp lp b) in E. exact (error_grew _ _ _ _ E).
      + exists (TLeaf VUnexp). apply leaf_seen; [reflexivity| |].
        * intros _. destruct r.
          -- left. eapply covered_grow; [apply (grow_error pid pp (onpath lp))|apply propagate_covered].
          -- right. constructor. exact Hr.
        * intros _ _ E. exfalso. destruct r; [|exact (error_grew _ _ _ _ E)].
          rewrite <- (errs_propagate pp lp b) in E. exact (error_grew _ _ _ _ E).
    - apply leaf_fine; [reflexivity|congruence|congruence].
  Qed.

  Lemma null_fine : forall f w r lp b b' v, wrequired w = r ->
    null_or_unexpected pp f r lp b = (b', Some v) -> fine f w JNull lp b b' v.
  Proof.
    intros f w r lp b b' v Hr E. unfold null_or_unexpected in E. destruct r.
    - eapply unexpected_fine; eassumption.
    - inversion E; subst. apply leaf_fine; [reflexivity| |]; intros _; constructor; exact Hr.
  Qed.

  Lemma read_same : forall j o, read_any j = Some o -> same_json j o.
  Proof.
    fix IH 1. intros j o E. destruct j as [|x|z|x|s|l ok|l ok|]; cbn [read_any] in E.
    - inversion E; constructor.
    - inversion E; constructor.
    - inversion E; constructor.
    - inversion E; constructor.
    - inversion E; constructor.
    - destruct ok; [|discriminate]. destruct (all_some (map read_any l)) as [ol|] eqn:A; [|discriminate].
      inversion E; subst. clear E. constructor. revert ol A.
      induction l as [|x l IHl]; intros ol A; cbn [map all_some] in A; [inversion A; constructor|].
      destruct (read_any x) as [ox|] eqn:Ex; [|discriminate].
      destruct (all_some (map read_any l)) as [ol'|]; [|discriminate]. inversion A; subst.
      constructor; [apply IH; exact Ex|apply IHl; reflexivity].
    - destruct ok; [|discriminate].
      destruct (all_some (map (fun kv => option_map (pair (fst kv)) (read_any (snd kv))) l)) as [ol|] eqn:A; [|discriminate].
      inversion E; subst. clear E.
      assert (Q : map fst l = map fst ol /\ Forall2 same_json (map snd l) (map snd ol)).
      { revert ol A. induction l as [|[k x] l IHl]; intros ol A; cbn [map all_some fst snd] in A.
        - inversion A. split; [reflexivity|constructor].
        - destruct (read_any x) as [ox|] eqn:Ex; [|discriminate]. cbn [option_map] in A.
          destruct (all_some (map (fun kv => option_map (pair (fst kv)) (read_any (snd kv))) l)) as [ol'|]; [|discriminate].
          inversion A; subst. destruct (IHl ol' eq_refl) as [Q1 Q2]. cbn [map fst snd].
          split; [rewrite Q1; reflexivity|]. constructor; [apply IH; exact Ex|exact Q2]. }
      destruct Q. constructor; assumption.
    - discriminate.
  Qed.

  Lemma int_range : forall z, int_in_range z = true -> (-2147483648 <= z <= 2147483647)%Z.
  Proof. intros z H. unfold int_in_range in H. apply andb_true_iff in H. destruct H as [A B]. apply Z.leb_le in A, B. lia. Qed.

  Lemma float_int_reads : forall fv z, float_to_int fv = Some z ->
    (-2147483648 <= z <= 2147483647)%Z /\ reads round_f64 TInt (JFloat fv) (OInt z).
  Proof.
    intros [x|n] z E; cbn [float_to_int] in E; [|discriminate].
    destruct (x <? 2147483647)%Z eqn:L; [|discriminate]. apply Z.ltb_lt in L. inversion E; subst. clear E.
    split; [lia|]. destruct (Z_lt_le_dec x (-2147483648)).
    - rewrite Z.max_r by lia. constructor. assumption.
    - rewrite Z.max_l by lia. constructor. lia.
  Qed.

  Lemma scalar_fine : forall ty f r j lp b b' v, f_shape f = SScalar ty ->
    deser_scalar round_f64 pp ty f r j lp b = (b', Some v) -> fine f (WNamed r) j lp b b' v.
  Proof.
    intros ty f r j lp b b' v Sh E.
    assert (U : forall b1 v1, unexpected pp f r lp b = (b1, Some v1) -> fine f (WNamed r) j lp b b1 v1).
    { intros b1 v1 Eu. eapply unexpected_fine; [|exact Eu]. reflexivity. }
    assert (Lf : forall x o, is_leaf x = true -> show (TLeaf x) = o -> scalar_ok ty o -> reads round_f64 ty j o ->
               fine f (WNamed r) j lp b b x).
    { intros x o L So Ok Rd. apply leaf_fine; [exact L| |]; intros _; rewrite Sh, So; constructor; assumption. }
    unfold deser_scalar in E. destruct j as [|x|z|x|s|l ok|l ok|].
    - eapply null_fine; [|exact E]. reflexivity.
    - destruct ty; try (apply U; exact E); inversion E; subst;
        (eapply Lf; [reflexivity|reflexivity| |]); cbn [scalar_ok show]; eauto; try congruence;
        try (repeat constructor; congruence).
    - destruct ty.
      + apply U; exact E.
      + inversion E; subst. eapply Lf; [reflexivity|reflexivity| |]; cbn [scalar_ok show]; eauto; constructor.
      + destruct (int_in_range z) eqn:Rz; [|apply U; exact E]. inversion E; subst. apply int_range in Rz.
        eapply Lf; [reflexivity|reflexivity| |]; cbn [scalar_ok show]; eauto; constructor; exact Rz.
      + apply U; exact E.
      + inversion E; subst. eapply Lf; [reflexivity|reflexivity| |]; cbn [scalar_ok show]; [congruence|].
        constructor; [constructor|congruence].
    - destruct ty.
      + apply U; exact E.
      + inversion E; subst. eapply Lf; [reflexivity|reflexivity| |]; cbn [scalar_ok show]; eauto; constructor.
      + destruct (float_to_int x) as [z|] eqn:Ez; [|apply U; exact E]. inversion E; subst.
        destruct (float_int_reads _ _ Ez) as [Rz Rd].
        eapply Lf; [reflexivity|reflexivity| |]; cbn [scalar_ok show]; eauto.
      + apply U; exact E.
      + inversion E; subst. eapply Lf; [reflexivity|reflexivity| |]; cbn [scalar_ok show]; [congruence|].
        constructor; [constructor|congruence].
    - destruct ty; try (apply U; exact E); inversion E; subst;
        (eapply Lf; [reflexivity|reflexivity| |]); cbn [scalar_ok show]; eauto; try congruence;
        try (repeat constructor; congruence).
    - destruct (read_any (JList l ok)) as [o|] eqn:Ro; [|discriminate].
      destruct ty; try (apply U; exact E). inversion E; subst.
      assert (No : o <> ONull).
      { cbn [read_any] in Ro. destruct ok; [|discriminate]. destruct (all_some (map read_any l)); inversion Ro. discriminate. }
      eapply Lf; [reflexivity|reflexivity| |]; cbn [scalar_ok show]; [exact No|].
      constructor; [apply read_same; exact Ro|exact No].
    - destruct (read_any (JMap l ok)) as [o|] eqn:Ro; [|discriminate].
      destruct ty; try (apply U; exact E). inversion E; subst.
      assert (No : o <> ONull).
      { cbn [read_any] in Ro. destruct ok; [|discriminate].
        destruct (all_some (map (fun kv => option_map (pair (fst kv)) (read_any (snd kv))) l)); inversion Ro. discriminate. }
      eapply Lf; [reflexivity|reflexivity| |]; cbn [scalar_ok show]; [exact No|].
      constructor; [apply read_same; exact Ro|exact No].
    - discriminate.
  Qed.

  Lemma find_enum_in : forall s vs i, find_enum s vs = Some i -> In (s, i) vs.
  Proof.
    intros s vs i. induction vs as [|[n x] vs IH]; cbn [find_enum]; [discriminate|].
    destruct (String.eqb n s) eqn:E; [|intros H; right; auto].
    intros H. inversion H; subst. apply String.eqb_eq in E. subst. left. reflexivity.
  Qed.

  Lemma enum_fine : forall vs f r j lp b b' v, f_shape f = SEnum vs ->
    deser_enum pid pp vs f r j lp b = (b', Some v) -> fine f (WNamed r) j lp b b' v.
  Proof.
    intros vs f r j lp b b' v Sh E.
    assert (U : forall b1 v1, unexpected pp f r lp b = (b1, Some v1) -> fine f (WNamed r) j lp b b1 v1).
    { intros b1 v1 Eu. eapply unexpected_fine; [|exact Eu]. reflexivity. }
    unfold deser_enum in E. destruct j as [|x|z|x|s|l ok|l ok|]; try (apply U; exact E).
    - eapply null_fine; [|exact E]. reflexivity.
    - destruct (find_enum s vs) as [i|] eqn:Fe; [|apply U; exact E].
      apply find_enum_in in Fe. destruct (reported f && i) eqn:Ri.
      + apply andb_true_iff in Ri. destruct Ri as [Rp ->].
        assert (NC : calm (f_shape f) -> False).
        { intros [_ A]. rewrite Sh in A. inversion A as [|? H| |]; subst. specialize (H _ _ Fe). discriminate. }
        destruct r.
        * inversion E; subst. split; [apply grow_propagate|].
          split; [apply allvalid_none; rewrite part_propagate; apply fresh_same|].
          split; [intros C; contradiction|]. exists (TLeaf (VStr s)). apply leaf_seen; [reflexivity| |].
          -- intros _. left. apply propagate_covered.
          -- intros _ C. contradiction.
        * unfold push_inacc in E. inversion E; subst. split; [apply grow_part; apply ext_inacc|].
          split; [apply allvalid_none; apply fresh_inacc|]. split; [intros C; contradiction|].
          exists (TInacc (pid, List.length (p_inacc (b_part b))) (TLeaf (VStr s))). constructor.
          -- intros ps (P & G & _ & _ & W). econstructor; [|constructor; reflexivity].
             unfold get_inacc. cbn [fst snd]. rewrite G.
             cbn [with_part b_part with_inacc p_inacc] in W. rewrite W by (rewrite app_length; cbn; lia).
             rewrite nth_error_app2 by lia. rewrite Nat.sub_diag. reflexivity.
          -- repeat constructor.
          -- intros N _. repeat constructor.
          -- intros _. right. intros N _. cbn [shown]. constructor. reflexivity.
          -- intros _ C. contradiction.
      + inversion E; subst. apply leaf_fine; [reflexivity| |]; intros Rp; rewrite Sh;
          rewrite Rp in Ri; cbn [andb] in Ri; subst i; constructor; exact Fe.
    - destruct (readable (JList l ok)); [apply U; exact E|discriminate].
    - destruct (readable (JMap l ok)); [apply U; exact E|discriminate].
    - discriminate.
  Qed.

  Lemma list_other_fine : forall f w r j lp b b' v, wrequired w = r ->
    (forall l ok, j <> JList l ok) ->
    list_other pp f r j lp b = (b', Some v) -> fine f w j lp b b' v.
  Proof.
    intros f w r j lp b b' v Hr NL E. unfold list_other in E.
    destruct j as [|x|z|x|s|l ok|l ok|]; try (eapply unexpected_fine; eassumption).
    - eapply null_fine; eassumption.
    - destruct (readable (JMap l ok)); [eapply unexpected_fine; eassumption|discriminate].
    - discriminate.
  Qed.

  Lemma num_list_fine : forall A (conv : json -> option A) (wrap : list A -> val) (o1 : A -> out) f r inner j lp b b' v,
    (forall xs, is_leaf (wrap xs) = true /\ show (TLeaf (wrap xs)) = OList (map o1 xs)) ->
    (forall j x, conv j = Some x -> conf inner (f_shape f) (o1 x) /\ shows inner (f_shape f) j (o1 x)) ->
    num_list pid pp conv wrap f r j lp b = (b', Some v) -> fine f (WList r inner) j lp b b' v.
  Proof.
    intros A conv wrap o1 f r inner j lp b b' v HW HC E. unfold num_list in E.
    destruct j as [|x|z|x|s|l ok|l ok|];
      try (eapply list_other_fine; [|intros ? ? ?; discriminate|exact E]; reflexivity).
    destruct (num_elems pid pp conv f lp l ok 0 b) as [b1 [[xs bad]|]] eqn:D; [|discriminate].
    inversion E; subst b' v; clear E.
    destruct (num_elems_spec _ _ _ _ _ _ _ _ _ _ _ _ _ D) as (-> & G & P & Q & B & F).
    split; [exact G|]. split; [apply allvalid_none; rewrite P; apply fresh_same|]. split; [intros _; exact Q|].
    destruct bad.
    - exists (TLeaf VUnexp). apply leaf_seen; [reflexivity| |].
      + intros R. left. apply (B eq_refl R).
      + intros R _ E. exfalso. exact (proj2 (B eq_refl R) E).
    - destruct (HW xs) as [L S]. specialize (F eq_refl).
      exists (TLeaf (wrap xs)). apply leaf_seen; [exact L| |]; rewrite S.
      + intros _. right. constructor. clear - F HC. induction F; cbn [map]; constructor; auto.
        apply (HC x y H).
      + intros _ _ _. constructor. clear - F HC. induction F; cbn [map]; constructor; auto.
        apply (HC x y H).
  Qed.

End Schema.
