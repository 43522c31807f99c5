(** Proofs: what the decisions of an authorization extension do to the response. *)

From Coq Require Import List Arith ZArith String Bool Lia.
From Verif Require Import Response.Model Response.Spec Response.Merge Response.Nulls.
From Verif Require Import Views.Model Views.Spec Views.Trees Views.Reading.
Import ListNotations.
Local Open Scope nat_scope.

(** ** Places *)

Definition place_of (u : rule) (g : target) (o : oref) : option vid :=
  match u with
  | OnField => if t_nonnull g then find vid_nullable (r_path o) else Some (IField (r_id o) (t_key g) true)
  | OnOutput => find vid_nullable (r_path o)
  end.

Lemma innermost_find : forall l, innermost l (find vid_nullable l).
Proof.
  intros l. induction l as [|v l IH]; [constructor|]. cbn [find].
  destruct (vid_nullable v) eqn:E; constructor; assumption.
Qed.

Lemma innermost_unique : forall l x, innermost l x -> x = find vid_nullable l.
Proof.
  intros l x H. induction H as [|v l E|v l x E H IH]; cbn [find]; [reflexivity| |]; rewrite E; [reflexivity|exact IH].
Qed.

Lemma place_of_place : forall u g o, place u g o (place_of u g o).
Proof.
  intros u g o. unfold place_of. destruct u.
  - destruct (t_nonnull g) eqn:E.
    + apply PlaceUp; [right; exact E|apply innermost_find].
    + apply PlaceField; [reflexivity|exact E].
  - apply PlaceUp; [left; reflexivity|apply innermost_find].
Qed.

Lemma place_unique : forall u g o x, place u g o x -> x = place_of u g o.
Proof.
  intros u g o x H. unfold place_of. destruct H as [-> E|x [-> |E] H].
  - rewrite E. reflexivity.
  - apply innermost_unique. exact H.
  - rewrite E. destruct u; apply innermost_unique; exact H.
Qed.

(** ** The response changes only by what is hidden *)

Definition moved (ps ps' : list part) (vs : list vid) : Prop :=
  (forall v, valid ps v -> valid ps' v) /\
  forall t x, rep ps x t -> tidy t -> okN vs t ->
    exists t', rep ps' x t' /\ tidy t' /\ sim t t' /\
      (forall N, shown N t' = shown (vs ++ N) t) /\ (forall N, okN (vs ++ N) t -> okN N t').

Lemma moved_refl : forall ps, moved ps ps [].
Proof.
  intros ps. split; [auto|]. intros t x R T _. exists t. split; [exact R|]. split; [exact T|].
  split; [apply sim_refl|]. split; auto.
Qed.

Lemma moved_trans : forall a b c vs ws, moved a b vs -> moved b c ws -> moved a c (vs ++ ws).
Proof.
  intros a b c vs ws [V1 M1] [V2 M2]. split; [auto|]. intros t x R T K.
  destruct (M1 t x R T) as (t1 & R1 & T1 & S1 & N1 & K1).
  { apply (okN_incl vs (vs ++ ws)); [|exact K]. intros v Iv. apply in_or_app. left. exact Iv. }
  destruct (M2 t1 x R1 T1) as (t2 & R2 & T2 & S2 & N2 & K2); [apply K1; exact K|].
  exists t2. split; [exact R2|]. split; [exact T2|]. split; [exact (sim_trans t t1 t2 S1 S2)|]. split.
  - intros N. rewrite N2, N1, app_assoc. reflexivity.
  - intros N H. apply K2. apply K1. rewrite app_assoc. exact H.
Qed.

Lemma moved_null : forall ps v, valid ps v -> exists ps', null_at ps v = Ok ps' /\ moved ps ps' [v].
Proof.
  intros ps v H. destruct (rep_null_at ps v H) as (ps' & nid & E & V & R). exists ps'. split; [exact E|].
  split; [exact V|]. intros t x Rt T K. exists (mark v nid t). split; [apply R; assumption|].
  split; [apply tidy_mark; exact T|]. split; [apply sim_mark|]. split.
  - intros N. apply shown_mark.
  - intros N H'. apply okN_mark. exact H'.
Qed.

(** ** Denials *)

Definition spot (u : rule) (d : target * (oref * nat)) : list vid :=
  match place_of u (fst d) (fst (snd d)) with Some v => [v] | None => [] end.
Definition whole (u : rule) (d : target * (oref * nat)) : bool :=
  match place_of u (fst d) (fst (snd d)) with Some _ => false | None => true end.

Lemma places_of : forall u l, places u l (flat_map (spot u) l) (existsb (whole u) l).
Proof.
  intros u l. induction l as [|[g [o e]] l IH]; [constructor|]. cbn [flat_map existsb].
  unfold spot at 1, whole at 1. cbn [fst snd]. pose proof (place_of_place u g o) as P.
  destruct (place_of u g o) as [v|]; cbn [app orb].
  - apply PsAt; assumption.
  - eapply PsAll; eassumption.
Qed.

Definition root_after (b : bool) (r : option id) : option id := if b then None else r.

(** From one state to another by these refusals. *)
Definition went (u : rule) (l : list (target * (oref * nat))) (s s' : state) : Prop :=
  moved (s_parts s) (s_parts s') (flat_map (spot u) l) /\
  s_errs s' = s_errs s ++ map (fun d => error_of u (fst d) (snd d)) l /\
  s_root s' = root_after (existsb (whole u) l) (s_root s).

Lemma went_nil : forall u s, went u [] s s.
Proof. intros u s. split; [apply moved_refl|]. split; [symmetry; apply app_nil_r|reflexivity]. Qed.

Lemma went_app : forall u l l' a b c, went u l a b -> went u l' b c -> went u (l ++ l') a c.
Proof.
  intros u l l' a b c (M1 & E1 & R1) (M2 & E2 & R2). split; [|split].
  - rewrite flat_map_app. exact (moved_trans _ _ _ _ _ M1 M2).
  - rewrite E2, E1, map_app, app_assoc. reflexivity.
  - rewrite R2, R1, existsb_app. unfold root_after. destruct (existsb (whole u) l), (existsb (whole u) l'); reflexivity.
Qed.

Definition fine (u : rule) (ps : list part) (g : target) (o : oref) : Prop :=
  forall v, place u g o (Some v) -> valid ps v.

Lemma null_up_went : forall s path (x : option vid), x = find vid_nullable path ->
  (forall v, x = Some v -> valid (s_parts s) v) ->
  exists s', null_up path s = Ok s' /\ s_errs s' = s_errs s /\
    moved (s_parts s) (s_parts s') (match x with Some v => [v] | None => [] end) /\
    s_root s' = root_after (match x with Some _ => false | None => true end) (s_root s).
Proof.
  intros s path x -> H. unfold null_up. destruct (find vid_nullable path) as [v|].
  - destruct (moved_null (s_parts s) v (H v eq_refl)) as (ps' & E & M). rewrite E. cbn [bind].
    eexists. split; [reflexivity|]. split; [reflexivity|]. split; [exact M|reflexivity].
  - eexists. split; [reflexivity|]. split; [reflexivity|]. split; [apply moved_refl|reflexivity].
Qed.

Lemma deny_went : forall u g o e s, fine u (s_parts s) g o ->
  exists s', deny u g o e s = Ok s' /\ went u [(g, (o, e))] s s'.
Proof.
  intros u g o e s F. unfold fine in F.
  assert (F' : forall v, place_of u g o = Some v -> valid (s_parts s) v).
  { intros v E. apply F. rewrite <- E. apply place_of_place. }
  assert (G : forall s1 k, s_errs s1 = s_errs s ->
    moved (s_parts s) (s_parts s1) (match place_of u g o with Some v => [v] | None => [] end) ->
    s_root s1 = root_after (match place_of u g o with Some _ => false | None => true end) (s_root s) ->
    k = match u with OnField => Some (snd (t_key g)) | OnOutput => None end ->
    went u [(g, (o, e))] s (push_error (r_path o) k e s1)).
  { intros s1 k E M R ->. split; [|split].
    - cbn [flat_map push_error s_parts]. unfold spot. cbn [fst snd]. rewrite app_nil_r. exact M.
    - cbn [push_error s_errs map fst snd]. unfold error_of. cbn [fst snd]. rewrite E. reflexivity.
    - cbn [push_error s_root existsb]. unfold whole. cbn [fst snd]. rewrite orb_false_r. exact R. }
  unfold deny. unfold place_of in *. destruct u.
  - destruct (t_nonnull g).
    + destruct (null_up_went s (r_path o) _ eq_refl F') as (s1 & E & E1 & M1 & R1). rewrite E. cbn [bind].
      eexists. split; [reflexivity|]. apply G; auto.
    + unfold null_field. destruct (moved_null (s_parts s) _ (F' _ eq_refl)) as (ps' & E & M). rewrite E. cbn [bind].
      eexists. split; [reflexivity|]. apply G; auto.
  - destruct (null_up_went s (r_path o) _ eq_refl F') as (s1 & E & E1 & M1 & R1). rewrite E. cbn [bind].
    eexists. split; [reflexivity|]. apply G; auto.
Qed.

Lemma fine_moved : forall u ps ps' vs g o, moved ps ps' vs -> fine u ps g o -> fine u ps' g o.
Proof. intros u ps ps' vs g o [V _] F v P. apply V. apply F. exact P. Qed.

Lemma deny_each_went : forall u g l s, (forall d, In d l -> fine u (s_parts s) g (fst d)) ->
  exists s', deny_each u g l s = Ok s' /\ went u (map (pair g) l) s s'.
Proof.
  intros u g l. induction l as [|[o e] l IH]; intros s F; cbn [deny_each map].
  - exists s. split; [reflexivity|apply went_nil].
  - destruct (deny_went u g o e s (F (o, e) (or_introl eq_refl))) as (s1 & E1 & W1). rewrite E1. cbn [bind].
    destruct (IH s1) as (s2 & E2 & W2).
    { intros d Id. eapply fine_moved; [exact (proj1 W1)|]. apply F. right. exact Id. }
    exists s2. split; [exact E2|]. exact (went_app u [_] _ _ _ _ W1 W2).
Qed.

Lemma deny_some_went : forall u g os errors l ds s,
  Forall2 (fun ij d => nth_error os (fst ij) = Some (fst d) /\ nth_error errors (snd ij) = Some (snd d)) l ds ->
  (forall o, In o os -> fine u (s_parts s) g o) ->
  exists s', deny_some u g os errors l s = Ok s' /\ went u (map (pair g) ds) s s'.
Proof.
  intros u g os errors l ds s H. revert s.
  induction H as [|[i j] [o e] l ds [H1 H2] H IH]; intros s F; cbn [deny_some map].
  - exists s. split; [reflexivity|apply went_nil].
  - cbn [fst snd] in *. rewrite H1, H2.
    destruct (deny_went u g o e s (F o (nth_error_In _ _ H1))) as (s1 & E1 & W1). rewrite E1. cbn [bind].
    destruct (IH s1) as (s2 & E2 & W2).
    { intros o' Io. eapply fine_moved; [exact (proj1 W1)|]. apply F. exact Io. }
    exists s2. split; [exact E2|]. exact (went_app u [_] _ _ _ _ W1 W2).
Qed.

(** ** The objects of a target *)

Lemma is_a_type : forall e o, is_a (r_type o) e = true <-> of_type (Some e) o.
Proof.
  intros e o. destruct e as [d|l]; cbn [is_a of_type].
  - rewrite Nat.eqb_eq. split; congruence.
  - rewrite existsb_exists. split.
    + intros (x & I & E). apply Nat.eqb_eq in E. congruence.
    + intros I. exists (r_type o). split; [exact I|apply Nat.eqb_refl].
Qed.

Lemma objects_about : forall g, about g (objects_of g).
Proof.
  intros g. unfold about, objects_of. destruct (t_refs g) as [l|]; [|reflexivity].
  destruct (t_type g) as [e|].
  - induction l as [|o l IH]; cbn [filter]; [constructor|]. destruct (is_a (r_type o) e) eqn:E.
    + apply NwKeep; [apply is_a_type; exact E|exact IH].
    + apply NwDrop; [|exact IH]. intros H. apply is_a_type in H. congruence.
  - induction l as [|o l IH]; [constructor|]. apply NwKeep; [exact Logic.I|exact IH].
Qed.

Lemma about_objects : forall g os, about g os -> os = objects_of g.
Proof.
  intros g os. unfold about, objects_of. destruct (t_refs g) as [l|]; [|auto].
  intros H. destruct (t_type g) as [e|].
  - induction H as [|o l l' T H IH|o l l' T H IH]; cbn [filter]; [reflexivity| |].
    + rewrite (proj2 (is_a_type e o) T), IH. reflexivity.
    + destruct (is_a (r_type o) e) eqn:E; [|exact IH]. exfalso. apply T. apply is_a_type. exact E.
  - induction H as [|o l l' T H IH|o l l' T H IH]; [reflexivity| |]; [rewrite IH; reflexivity|].
    exfalso. apply T. exact Logic.I.
Qed.

(** ** Objects of the tree *)

Lemma forall2_in_r : forall A B (P : A -> B -> Prop) l l' b, Forall2 P l l' -> In b l' -> exists a, In a l /\ P a b.
Proof.
  intros A B P l l' b F. induction F as [|x y l l' H F IH]; [contradiction|]. intros [<-|I].
  - exists x. split; [left; reflexivity|exact H].
  - destruct (IH I) as (a & Ia & Ha). exists a. split; [right; exact Ia|exact Ha].
Qed.

Lemma object_in_rep : forall t i d fs, object_in t i d fs -> forall ps x, rep ps x t -> rep ps (VObj i) (TObj i d fs).
Proof.
  intros t i d fs H. induction H as [i d fs|i d fs k t j d' fs' I H IH|i l t j d' fs' I H IH|i t j d' fs' H IH]; intros ps x R.
  - inversion R; subst. exact R.
  - inversion R; subst.
    match goal with F : Forall2 _ _ (map snd fs) |- _ => destruct (forall2_in_r _ _ _ _ _ t F) as (a & _ & Ra) end.
    { apply (in_map snd) in I. exact I. }
    exact (IH ps a Ra).
  - inversion R; subst.
    match goal with F : Forall2 _ _ l |- _ => destruct (forall2_in_r _ _ _ _ _ t F I) as (a & _ & Ra) end.
    exact (IH ps a Ra).
  - inversion R; subst. eapply IH. eassumption.
Qed.

Lemma object_in_all : forall (P : tree -> Prop),
  (forall i l t, P (TList i l) -> In t l -> P t) ->
  (forall i d fs f, P (TObj i d fs) -> In f fs -> P (snd f)) ->
  (forall i t, P (TInacc i t) -> P t) ->
  forall t i d fs, object_in t i d fs -> P t -> P (TObj i d fs).
Proof.
  intros P H1 H2 H3 t i d fs H. induction H as [i d fs|i d fs k t j d' fs' I H IH|i l t j d' fs' I H IH|i t j d' fs' H IH]; intros Pt.
  - exact Pt.
  - apply IH. exact (H2 i d fs (k, t) Pt I).
  - apply IH. exact (H1 i l t Pt I).
  - apply IH. exact (H3 i t Pt).
Qed.

Lemma object_in_distinct : forall t i d fs, object_in t i d fs -> distinct t -> distinct (TObj i d fs).
Proof.
  apply (object_in_all distinct).
  - intros i l t H I. inversion H as [|? ? F| |]; subst. rewrite Forall_forall in F. exact (F t I).
  - intros i d fs f H I. inversion H as [| |? ? ? _ F|]; subst. rewrite Forall_forall in F. apply F. apply in_map. exact I.
  - intros i t H. inversion H. assumption.
Qed.

Lemma object_in_tidy : forall t i d fs, object_in t i d fs -> tidy t -> tidy (TObj i d fs).
Proof.
  apply (object_in_all tidy).
  - intros i l t H I. inversion H as [|? ? F| |]; subst. rewrite Forall_forall in F. exact (F t I).
  - intros i d fs f H I. inversion H as [| |? ? ? _ F|]; subst. rewrite Forall_forall in F. apply F. apply in_map. exact I.
  - intros i t H. inversion H. assumption.
Qed.

Lemma object_in_ok : forall N t i d fs, object_in t i d fs -> okN N t -> okN N (TObj i d fs).
Proof.
  intros N. apply (object_in_all (okN N)).
  - intros i l t H I. inversion H as [|? ? F| |]; subst. rewrite Forall_forall in F. exact (F t I).
  - intros i d fs f H I. inversion H as [| |? ? ? _ F|]; subst. rewrite Forall_forall in F. apply F. apply in_map. exact I.
  - intros i t H. inversion H. assumption.
Qed.

Lemma okN_each : forall N t, (forall v, In v N -> okN [v] t) -> okN N t.
Proof.
  intros N t. induction t as [x|i l IH|i d fs IH|i t IH] using tree_ind2; intros H.
  - constructor.
  - constructor. rewrite Forall_forall in *. intros t It. apply IH; [exact It|]. intros v Iv.
    specialize (H v Iv). inversion H as [|? ? F| |]; subst. rewrite Forall_forall in F. exact (F t It).
  - constructor.
    + intros k b I. specialize (H _ I). inversion H as [| |? ? ? Hk _|]; subst. apply (Hk k b). left. reflexivity.
    + rewrite Forall_forall in *. intros t It. apply IH; [exact It|]. intros v Iv.
      specialize (H v Iv). inversion H as [| |? ? ? _ F|]; subst. rewrite Forall_forall in F. exact (F t It).
  - constructor. apply IH. intros v Iv. specialize (H v Iv). inversion H. assumption.
Qed.

(** ** All targets *)

(** The response has the objects of the target and the places where refusals of them show, and
    the requirements of the field have what the directive asks for. *)
Definition ready (u : rule) (ps : list part) (t : tree) (g : target) : Prop :=
  sorted_reqs (t_reqs g) /\ Forall (has_set (t_reqs g)) (t_args g) /\
  forall os o, about g os -> In o os ->
    (exists d fs, object_in t (r_id o) d fs) /\
    forall v, place u g o (Some v) -> valid ps v /\ okN [v] t.

Lemma told_view : forall fuel ps g,
  told fuel ps g = map (fun o => map (fun s => view_set ps (S fuel) (t_reqs g, s) (VObj (r_id o))) (t_args g)) (objects_of g).
Proof. reflexivity. Qed.

Section Run.
  Variable D : nat -> list (list (vres out)) -> decision.
  Variable u : rule.
  Variables (ps0 : list part) (x0 : val) (t0 : tree).
  Hypothesis R0 : rep ps0 x0 t0.
  Hypothesis T0 : tidy t0.
  Hypothesis Ds0 : distinct t0.
  Hypothesis Dr : in_range D.

  Lemma heard_of : forall ps vs g, moved ps0 ps vs -> okN vs t0 -> ready u ps0 t0 g ->
    exists F0 heard, Forall2 (fun o row => Forall2 (hears t0 (t_reqs g) o) (t_args g) row) (objects_of g) heard /\
      forall F, F0 <= F -> told F ps g = heard.
  Proof.
    intros ps vs g [_ M] K (Sr & Hs & Ho).
    assert (Ho' : forall o, In o (objects_of g) -> exists d fs, object_in t0 (r_id o) d fs).
    { intros o Io. exact (proj1 (Ho (objects_of g) o (objects_about g) Io)). }
    enough (G : exists F0 heard, Forall2 (fun o row => Forall2 (hears t0 (t_reqs g) o) (t_args g) row) (objects_of g) heard /\
      forall F, F0 <= F -> map (fun o => map (fun s => view_set ps (S F) (t_reqs g, s) (VObj (r_id o))) (t_args g)) (objects_of g) = heard).
    { exact G. }
    clear Ho. induction (objects_of g) as [|o os IH].
    - exists 0, []. split; [constructor|reflexivity].
    - destruct IH as (F1 & heard & H1 & H2); [intros o' Io; apply Ho'; right; exact Io|].
      destruct (Ho' o (or_introl eq_refl)) as (d & fs & Oi).
      set (to := TObj (r_id o) d fs) in *.
      pose proof (object_in_rep _ _ _ _ Oi ps0 x0 R0) as Ro.
      pose proof (object_in_distinct _ _ _ _ Oi Ds0) as Do.
      destruct (M to (VObj (r_id o)) Ro (object_in_tidy _ _ _ _ Oi T0) (object_in_ok _ _ _ _ _ Oi K)) as (to' & Ro' & _ & S' & _ & _).
      exists (Nat.max F1 (Nat.max (depth to) (depth to'))).
      exists (map (fun s => tree_set (S (depth to)) (t_reqs g, s) to) (t_args g) :: heard). split.
      + constructor; [|exact H1]. clear H1 H2. revert Hs. generalize (t_args g). intros args Hs.
        induction Hs as [|s args Hs1 _ IHs]; cbn [map]; constructor; [|exact IHs].
        exists d, fs. split; [exact Oi|]. fold to.
        destruct (tree_set_ok (S (depth to)) to (t_reqs g) s Do (Nat.lt_succ_diag_r _) Sr Hs1) as [Q1 [Q2 Q3]].
        destruct (tree_set (S (depth to)) (t_reqs g, s) to) as [y| | |] eqn:E.
        * apply Q1. reflexivity.
        * intros y X. apply Q1 in X. discriminate.
        * contradiction.
        * contradiction.
      + intros F HF. cbn [map]. rewrite H2 by lia. f_equal. apply map_ext. intros s.
        unfold view_set. rewrite (view_tview _ _ natural_set ps (S F) (t_reqs g, s) _ to' Ro').
        unfold tree_set. symmetry. apply (tview_sim _ _ natural_set); [exact S'|lia|lia].
  Qed.

  Lemma refused_some : forall n heard os, List.length heard = List.length os -> exists ds, refused (D n heard) os ds.
  Proof.
    intros n heard os L. destruct (D n heard) as [|e|l errors|e] eqn:E; try solve [eexists; constructor].
    pose proof (Dr n heard l errors E) as F. clear E.
    enough (G : exists ds, Forall2 (fun ij d => nth_error os (fst ij) = Some (fst d) /\ nth_error errors (snd ij) = Some (snd d)) l ds).
    { destruct G as (ds & G). exists ds. constructor. exact G. }
    induction F as [|[i j] l [H1 H2] F IH]; [exists []; constructor|]. destruct IH as (ds & G). cbn [fst snd] in *.
    destruct (nth_error os i) as [o|] eqn:E1; [|apply nth_error_None in E1; lia].
    destruct (nth_error errors j) as [e|] eqn:E2; [|apply nth_error_None in E2; lia].
    exists ((o, e) :: ds). constructor; [split; assumption|exact G].
  Qed.

  Lemma refused_in : forall d os ds p, refused d os ds -> In p ds -> In (fst p) os.
  Proof.
    intros d os ds p H I. inversion H as [| | |? ? ? ? F]; subst.
    - destruct I.
    - apply in_map_iff in I. destruct I as (o & <- & Io). exact Io.
    - apply in_map_iff in I. destruct I as (o & <- & Io). exact Io.
    - destruct (forall2_in_r _ _ _ _ _ p F I) as (ij & _ & [E _]). exact (nth_error_In _ _ E).
  Qed.

  Lemma spots_ok : forall g ds, ready u ps0 t0 g -> (forall p, In p ds -> In (fst p) (objects_of g)) ->
    forall v, In v (flat_map (spot u) (map (pair g) ds)) -> okN [v] t0.
  Proof.
    intros g ds (_ & _ & Ho) H v Iv. apply in_flat_map in Iv. destruct Iv as (p & Ip & Iv).
    apply in_map_iff in Ip. destruct Ip as (q & <- & Iq). unfold spot in Iv. cbn [fst snd] in Iv.
    pose proof (place_of_place u g (fst q)) as P. destruct (place_of u g (fst q)) as [w|]; [|destruct Iv].
    destruct Iv as [->|[]]. exact (proj2 (proj2 (Ho _ _ (objects_about g) (H q Iq)) v P)).
  Qed.

  Lemma authorize_went : forall ts n s vs, moved ps0 (s_parts s) vs -> (forall v, In v vs -> okN [v] t0) ->
    (forall g, In g ts -> ready u ps0 t0 g) ->
    exists F0 s' l, (forall F, F0 <= F -> authorize D F u n ts s = Ok s') /\ refusals D t0 n ts l /\ went u l s s' /\
      (forall v, In v (flat_map (spot u) l) -> okN [v] t0).
  Proof.
    induction ts as [|g ts IH]; intros n s vs M K H.
    - exists 0, s, []. split; [reflexivity|]. split; [constructor|]. split; [apply went_nil|]. intros v [].
    - pose proof (H g (or_introl eq_refl)) as Hg.
      assert (H' : forall g, In g ts -> ready u ps0 t0 g) by (intros g' Ig; apply H; right; exact Ig).
      destruct (objects_of g) as [|o0 os] eqn:Eo.
      + destruct (IH (S n) s vs M K H') as (F0 & s' & l & A & Rl & W & Ks). exists F0, s', l.
        split; [|split; [|split; [exact W|exact Ks]]].
        * intros F HF. cbn [authorize]. rewrite Eo. cbn [bind]. apply A. exact HF.
        * apply RlSkip; [rewrite <- Eo; apply objects_about|exact Rl].
      + destruct (heard_of (s_parts s) vs g M (okN_each vs t0 K) Hg) as (F1 & heard & Hh & Ht).
        destruct (refused_some n heard (objects_of g)) as (ds & Hd).
        { clear - Hh. induction Hh; cbn [List.length]; congruence. }
        assert (Fi : forall o, In o (objects_of g) -> fine u (s_parts s) g o).
        { intros o Io v P. apply (proj1 M). exact (proj1 (proj2 (proj2 (proj2 Hg) _ _ (objects_about g) Io) v P)). }
        assert (St : exists s1, went u (map (pair g) ds) s s1 /\
          match D n heard with
          | GrantAll => Ok s
          | DenySome ds errors => deny_some u g (objects_of g) errors ds s
          | DenyAll e | Failed e => deny_each u g (map (fun o => (o, e)) (objects_of g)) s
          end = Ok s1).
        { assert (Each : forall e, exists s1, went u (map (pair g) (map (fun o => (o, e)) (objects_of g))) s s1 /\
            deny_each u g (map (fun o => (o, e)) (objects_of g)) s = Ok s1).
          { intros e. destruct (deny_each_went u g (map (fun o => (o, e)) (objects_of g)) s) as (s1 & E1 & W1).
            - intros d Id. apply in_map_iff in Id. destruct Id as (o & <- & Io). exact (Fi o Io).
            - exists s1. split; assumption. }
          inversion Hd; subst.
          - exists s. split; [apply went_nil|reflexivity].
          - apply Each.
          - apply Each.
          - destruct (deny_some_went u g (objects_of g) errors l ds s) as (s1 & E1 & W1); [assumption|exact Fi|].
            exists s1. split; assumption. }
        destruct St as (s1 & W1 & E1).
        destruct (IH (S n) s1 (vs ++ flat_map (spot u) (map (pair g) ds))) as (F2 & s' & l & A & Rl & W & Ks).
        { exact (moved_trans _ _ _ _ _ M (proj1 W1)). }
        { intros v Iv. apply in_app_or in Iv. destruct Iv as [Iv|Iv]; [exact (K v Iv)|].
          apply (spots_ok g ds Hg); [|exact Iv]. intros p Ip. exact (refused_in _ _ _ p Hd Ip). }
        { exact H'. }
        exists (Nat.max F1 F2), s', (map (pair g) ds ++ l). split; [|split; [|split]].
        * intros F HF. cbn [authorize]. rewrite Ht by lia. rewrite Eo in E1 |- *. rewrite E1. cbn [bind]. apply A. lia.
        * eapply RlAsk; [apply objects_about|rewrite Eo; discriminate|exact Hh|exact Hd|exact Rl].
        * exact (went_app _ _ _ _ _ _ W1 W).
        * intros v Iv. rewrite flat_map_app in Iv. apply in_app_or in Iv. destruct Iv as [Iv|Iv]; [|exact (Ks v Iv)].
          apply (spots_ok g ds Hg); [|exact Iv]. intros p Ip. exact (refused_in _ _ _ p Hd Ip).
  Qed.
End Run.
