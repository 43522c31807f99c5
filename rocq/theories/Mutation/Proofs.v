From Coq Require Import List Arith Bool Lia Sorting.Permutation.
From Verif.Scheduler Require Import Model Spec Proofs.
From Verif.Mutation Require Import Model Spec.
Import ListNotations.

Lemma last_error_snoc : forall (A : Type) (l : list A) x, last_error (l ++ [x]) = Some x.
Proof. intros A l x. unfold last_error. rewrite rev_app_distr. reflexivity. Qed.
Lemma last_error_some : forall (A : Type) (l : list A) x, last_error l = Some x -> exists l', l = l' ++ [x].
Proof.
  intros A l x H. destruct l as [|y l] using rev_ind; [discriminate H|]. rewrite last_error_snoc in H. injection H as ->. eauto.
Qed.
Lemma last_with_some : forall r l p, last_with r l = Some p -> exists l', l = l' ++ [(p, r)].
Proof.
  intros r l p H. unfold last_with in H. destruct (last_error l) as [[q s]|] eqn:E; [|discriminate H]. destruct (s =? r) eqn:Es; [|discriminate H].
  apply Nat.eqb_eq in Es. injection H as ->. subst. apply last_error_some. exact E.
Qed.
Lemma used_spec : forall p l, used p l = true <-> In p (map fst l).
Proof.
  intros p l. unfold used. rewrite existsb_exists, in_map_iff. split; intros (x & A & B); exists x; rewrite Nat.eqb_eq in *; auto.
Qed.
Lemma pair_eqb_eq : forall a b, pair_eqb a b = true <-> a = b.
Proof.
  intros [a b] [c e]. unfold pair_eqb. cbn [fst snd]. rewrite andb_true_iff, !Nat.eqb_eq. split; [intros [-> ->]; reflexivity|intros H; injection H as -> ->; auto].
Qed.
Lemma remove_edge_other : forall e l x, x <> e -> In x (remove_edge e l) <-> In x l.
Proof.
  intros e l x N. induction l as [|y l IH]; [reflexivity|]. cbn [remove_edge]. destruct (pair_eqb y e) eqn:E.
  - apply pair_eqb_eq in E. subst y. cbn [In]. split; [auto|]. intros [->|I]; [contradiction|exact I].
  - cbn [In]. rewrite IH. reflexivity.
Qed.
Lemma remove_edge_filter : forall (h : nat * nat -> bool) e l, h e = false -> filter h (remove_edge e l) = filter h l.
Proof.
  intros h e l N. induction l as [|y l IH]; [reflexivity|]. cbn [remove_edge filter]. destruct (pair_eqb y e) eqn:E.
  - apply pair_eqb_eq in E. subst y. rewrite N. reflexivity.
  - cbn [filter]. rewrite IH. reflexivity.
Qed.
(** Removing a field's edge within the edges of that field. *)
Lemma remove_edge_within : forall e l, filter (fun x => snd x =? snd e) (remove_edge e l) = remove_edge e (filter (fun x => snd x =? snd e) l).
Proof.
  intros e l. induction l as [|y l IH]; [reflexivity|]. cbn [remove_edge filter]. destruct (pair_eqb y e) eqn:E.
  - apply pair_eqb_eq in E. subst y. rewrite Nat.eqb_refl. cbn [remove_edge]. rewrite (proj2 (pair_eqb_eq e e) eq_refl). reflexivity.
  - cbn [filter]. destruct (snd y =? snd e); [cbn [remove_edge]; rewrite E, IH; reflexivity|exact IH].
Qed.

(** The partitions a field is sent in. *)
Definition edges_of (m : plan) (f : field) : list (nat * nat) := filter (fun e => snd e =? f_id f) (p_edges m).
Lemma sends_edges_of : forall m p f, sends m p f <-> In (p, f_id f) (edges_of m f).
Proof. intros m p f. unfold sends, edges_of. rewrite filter_In. cbn [snd]. rewrite Nat.eqb_refl. tauto. Qed.
Lemma edges_of_snd : forall m f e, In e (edges_of m f) -> snd e = f_id f.
Proof. intros m f e H. apply filter_In in H. apply Nat.eqb_eq. apply H. Qed.

(** What one iteration does to the edges of the field itself and of the others. *)
Lemma place_other : forall m f g, f_id g <> f_id f -> edges_of (place m f) g = edges_of m g.
Proof.
  intros m f g N. unfold place, edges_of. destruct (used _ _); cbn [p_edges]; [|reflexivity]. rewrite filter_app'. cbn [filter snd].
  assert (E : f_id f =? f_id g = false) by (apply Nat.eqb_neq; congruence). rewrite E, app_nil_r. apply remove_edge_filter. exact E.
Qed.
Lemma step_other : forall m f g, f_id g <> f_id f -> edges_of (step m f) g = edges_of m g.
Proof.
  intros m f g N. unfold step. destruct (last_with _ _) as [p|]; [|apply place_other; exact N]. destruct (f_partition f =? p); [reflexivity|].
  rewrite place_other by exact N. unfold edges_of, move. cbn [p_edges]. rewrite filter_app'. cbn [filter snd].
  assert (E : f_id f =? f_id g = false) by (apply Nat.eqb_neq; congruence). rewrite E, app_nil_r. apply remove_edge_filter. exact E.
Qed.
Definition moved (f : field) (p : nat) (l : list (nat * nat)) : list (nat * nat) := remove_edge (f_partition f, f_id f) l ++ [(p, f_id f)].
Lemma place_own : forall m f, edges_of (place m f) f = if used (f_partition f) (p_partitions m) then moved f (p_next m) (edges_of m f) else edges_of m f.
Proof.
  intros m f. unfold place, edges_of. destruct (used _ _); [|reflexivity]. cbn [p_edges]. unfold moved. rewrite filter_app'. cbn [filter snd]. rewrite Nat.eqb_refl. f_equal.
  apply (remove_edge_within (f_partition f, f_id f)).
Qed.
Lemma move_own : forall m f p, edges_of {| p_partitions := p_partitions m; p_edges := move f p (p_edges m); p_next := p_next m |} f = moved f p (edges_of m f).
Proof.
  intros m f p. unfold edges_of, move, moved. cbn [p_edges]. rewrite filter_app'. cbn [filter snd]. rewrite Nat.eqb_refl. f_equal.
  apply (remove_edge_within (f_partition f, f_id f)).
Qed.
Lemma moved_single : forall f p, moved f p [(f_partition f, f_id f)] = [(p, f_id f)].
Proof. intros f p. unfold moved. cbn [remove_edge]. rewrite (proj2 (pair_eqb_eq _ _) eq_refl). reflexivity. Qed.
Lemma moved_away : forall f p q, q <> f_partition f -> moved f p [(q, f_id f)] = [(q, f_id f); (p, f_id f)].
Proof.
  intros f p q N. unfold moved. cbn [remove_edge]. destruct (pair_eqb (q, f_id f) (f_partition f, f_id f)) eqn:E; [|reflexivity].
  apply pair_eqb_eq in E. congruence.
Qed.

(** The three outcomes of an iteration for a field still in its original partition. *)
Inductive outcome (m : plan) (f : field) : plan -> Prop :=
| O_stays : forall l m', p_partitions m = l ++ [(f_partition f, f_resolver f)] -> m' = m -> outcome m f m'
| O_pushed : forall m' (late : bool), ~ In (f_partition f) (map fst (p_partitions m)) ->
    p_partitions m' = p_partitions m ++ [(f_partition f, f_resolver f)] -> p_next m' = p_next m ->
    ((late = false /\ edges_of m' f = [(f_partition f, f_id f)] /\ last_with (f_resolver f) (p_partitions m) = None) \/
     (late = true /\ exists l p, p_partitions m = l ++ [(p, f_resolver f)] /\ p <> f_partition f /\ edges_of m' f = [(p, f_id f)])) ->
    outcome m f m'
| O_new : forall m', In (f_partition f) (map fst (p_partitions m)) ->
    p_partitions m' = p_partitions m ++ [(p_next m, f_resolver f)] -> p_next m' = p_next m + 1 ->
    ((edges_of m' f = [(p_next m, f_id f)] /\ last_with (f_resolver f) (p_partitions m) = None) \/
     (exists l p, p_partitions m = l ++ [(p, f_resolver f)] /\ p <> f_partition f /\ edges_of m' f = [(p, f_id f); (p_next m, f_id f)])) ->
    outcome m f m'.
Lemma step_outcome : forall m f, edges_of m f = [(f_partition f, f_id f)] -> outcome m f (step m f).
Proof.
  intros m f E. unfold step. destruct (last_with (f_resolver f) (p_partitions m)) as [p|] eqn:L.
  - destruct (last_with_some _ _ _ L) as (l & El). destruct (f_partition f =? p) eqn:Ep.
    + apply Nat.eqb_eq in Ep. subst p. eapply O_stays; [exact El|reflexivity].
    + apply Nat.eqb_neq in Ep. set (m1 := {| p_partitions := p_partitions m; p_edges := move f p (p_edges m); p_next := p_next m |}).
      assert (E1 : edges_of m1 f = [(p, f_id f)]) by (unfold m1; rewrite move_own, E; apply moved_single).
      assert (Eo : edges_of (place m1 f) f = if used (f_partition f) (p_partitions m) then [(p, f_id f); (p_next m, f_id f)] else [(p, f_id f)]).
      { rewrite place_own, E1. change (p_partitions m1) with (p_partitions m). change (p_next m1) with (p_next m).
        destruct (used _ _); [|reflexivity]. apply moved_away. congruence. }
      destruct (used (f_partition f) (p_partitions m)) eqn:U.
      * apply O_new; [apply used_spec; exact U| | |right; exists l, p; split; [exact El|split; [congruence|exact Eo]]]; unfold place; change (p_partitions m1) with (p_partitions m); rewrite U; reflexivity.
      * apply (O_pushed _ _ _ true); [intros I; apply used_spec in I; congruence| | |right; split; [reflexivity|exists l, p; split; [exact El|split; [congruence|exact Eo]]]];
          unfold place; change (p_partitions m1) with (p_partitions m); rewrite U; reflexivity.
  - assert (Eo : edges_of (place m f) f = if used (f_partition f) (p_partitions m) then [(p_next m, f_id f)] else [(f_partition f, f_id f)]).
    { rewrite place_own, E. destruct (used _ _); [apply moved_single|reflexivity]. }
    destruct (used (f_partition f) (p_partitions m)) eqn:U.
    + apply O_new; [apply used_spec; exact U| | |left; split; [exact Eo|exact L]]; unfold place; rewrite U; reflexivity.
    + apply (O_pushed _ _ _ false); [intros I; apply used_spec in I; congruence| | |left; split; [reflexivity|split; [exact Eo|exact L]]]; unfold place; rewrite U; reflexivity.
Qed.

(** Every field is sent, to its resolver, and in order. *)
Record inv (done todo : list field) (m : plan) : Prop :=
  { v_nodup : NoDup (map fst (p_partitions m));
    v_bound : forall p, In p (map fst (p_partitions m)) -> p < p_next m;
    v_orig : forall f, In f (done ++ todo) -> f_partition f < p_next m;
    v_todo : forall f, In f todo -> edges_of m f = [(f_partition f, f_id f)];
    v_known : forall f p, In f done -> sends m p f -> In (p, f_resolver f) (p_partitions m);
    v_sent : forall f, In f done -> edges_of m f <> [];
    v_order : in_order done m }.
Lemma precedes_snoc : forall l x f g, precedes (l ++ [x]) f g -> (In f l /\ g = x) \/ precedes l f g.
Proof.
  intros l x f g (a & b & c & H). rewrite app_comm_cons, app_assoc in H. apply snoc_split in H. destruct H as [(-> & H & ->)|(c' & -> & H)].
  - left. split; [|reflexivity]. rewrite <- H. apply in_or_app. right. left. reflexivity.
  - right. exists a, b, c'. rewrite <- app_assoc in H. exact H.
Qed.
Lemma precedes_in : forall l f g, precedes l f g -> In f l /\ In g l.
Proof.
  intros l f g (a & b & c & ->). split; apply in_or_app; right; [left; reflexivity|]. right. apply in_or_app. right. left. reflexivity.
Qed.
Lemma nth_error_last : forall (A : Type) (l : list A) x i, NoDup (l ++ [x]) -> nth_error (l ++ [x]) i = Some x -> i = length l.
Proof.
  intros A l x i N H. rewrite NoDup_nth_error in N. apply N.
  - apply nth_error_Some. rewrite H. discriminate.
  - rewrite H. rewrite nth_error_app2 by lia. rewrite Nat.sub_diag. reflexivity.
Qed.
Lemma snoc_eq_nil : forall (A : Type) (l : list A) x, l ++ [x] <> [].
Proof. intros A l x H. destruct l; discriminate H. Qed.

Lemma step_inv : forall done f todo m, NoDup (map f_id (done ++ f :: todo)) -> inv done (f :: todo) m -> inv (done ++ [f]) todo (step m f).
Proof.
  intros done f todo m Ni [V1 V2 V3 V4 V5 V6 V7].
  assert (Nf : forall g, In g (done ++ todo) -> f_id g <> f_id f).
  { intros g I H. rewrite map_app in Ni. cbn [map] in Ni. apply NoDup_remove_2 in Ni. apply Ni. rewrite <- map_app, <- H. apply in_map. exact I. }
  assert (Nd : forall g, In g done -> edges_of (step m f) g = edges_of m g) by (intros g I; apply step_other; apply Nf; apply in_or_app; auto).
  assert (Nt : forall g, In g todo -> edges_of (step m f) g = [(f_partition g, f_id g)]).
  { intros g I. rewrite step_other by (apply Nf; apply in_or_app; auto). apply V4. right. exact I. }
  pose proof (step_outcome m f (V4 f (or_introl eq_refl))) as Out.
  (* where the new field may be sent *)
  set (m' := step m f) in *.
  assert (G : exists ext, p_partitions m' = p_partitions m ++ ext /\ length ext <= 1 /\ p_next m <= p_next m' /\
    NoDup (map fst (p_partitions m')) /\ (forall p, In p (map fst (p_partitions m')) -> p < p_next m') /\ edges_of m' f <> [] /\
    (forall p, sends m' p f -> In (p, f_resolver f) (p_partitions m') /\ forall i, nth_error (map fst (p_partitions m')) i = Some p -> length (p_partitions m) <= i + 1)).
  { assert (Nx : forall p, ~ In p (map fst (p_partitions m)) -> NoDup (map fst (p_partitions m) ++ [p])).
    { intros p N. apply (Permutation_NoDup (l := p :: map fst (p_partitions m))); [apply Permutation_cons_append|]. constructor; assumption. }
    assert (Lo : forall l p ext i, p_partitions m = l ++ [(p, f_resolver f)] -> NoDup (map fst (p_partitions m ++ ext)) ->
      nth_error (map fst (p_partitions m ++ ext)) i = Some p -> length (p_partitions m) <= i + 1).
    { intros l p ext i El N H. rewrite El in *. rewrite app_length. cbn [length].
      assert (i = length (map fst l)).
      { rewrite NoDup_nth_error in N. apply N; [apply nth_error_Some; rewrite H; discriminate|]. rewrite H. rewrite !map_app. cbn [map fst].
        rewrite <- app_assoc. rewrite nth_error_app2 by lia. rewrite Nat.sub_diag. reflexivity. }
      rewrite map_length in *. lia. }
    assert (Lx : forall p i, NoDup (map fst (p_partitions m) ++ [p]) -> nth_error (map fst (p_partitions m) ++ [p]) i = Some p -> length (p_partitions m) <= i + 1).
    { intros p i N H. apply nth_error_last in H; [|exact N]. rewrite map_length in H. lia. }
    destruct Out as [l m'' El ->|m'' late Nin Ep En Ed|m'' Iin Ep En Ed].
    - exists []. rewrite app_nil_r. split; [reflexivity|]. split; [cbn; lia|]. split; [lia|]. split; [exact V1|]. split; [exact V2|].
      rewrite V4 by (left; reflexivity). split; [discriminate|]. intros p S. apply sends_edges_of in S. rewrite V4 in S by (left; reflexivity).
      destruct S as [S|[]]. injection S as <-. split; [rewrite El; apply in_or_app; right; left; reflexivity|].
      intros i H. apply (Lo l (f_partition f) [] i El); rewrite app_nil_r; assumption.
    - exists [(f_partition f, f_resolver f)]. split; [exact Ep|]. split; [cbn; lia|]. split; [lia|].
      assert (N' : NoDup (map fst (p_partitions m''))) by (rewrite Ep, map_app; apply Nx; exact Nin).
      split; [exact N'|]. split.
      { intros p I. rewrite Ep, map_app in I. apply in_app_or in I. rewrite En. destruct I as [I|[<-|[]]]; [apply V2; exact I|apply V3; apply in_or_app; right; left; reflexivity]. }
      destruct Ed as [(_ & Ed & _)|(_ & l & p0 & El & Np & Ed)]; rewrite Ed; (split; [discriminate|]); intros p S; apply sends_edges_of in S; rewrite Ed in S; destruct S as [S|[]]; injection S as <-.
      + rewrite Ep. split; [apply in_or_app; right; left; reflexivity|]. intros i H. rewrite map_app in H. apply (Lx (f_partition f) i); [apply Nx; exact Nin|exact H].
      + rewrite Ep in *. split; [apply in_or_app; left; rewrite El; apply in_or_app; right; left; reflexivity|]. intros i H. eapply Lo; [exact El|exact N'|exact H].
    - exists [(p_next m, f_resolver f)]. split; [exact Ep|]. split; [cbn; lia|]. split; [lia|].
      assert (Nn : ~ In (p_next m) (map fst (p_partitions m))) by (intros I; apply V2 in I; lia).
      assert (N' : NoDup (map fst (p_partitions m''))) by (rewrite Ep, map_app; apply Nx; exact Nn).
      split; [exact N'|]. split.
      { intros p I. rewrite Ep, map_app in I. apply in_app_or in I. rewrite En. destruct I as [I|[<-|[]]]; [apply V2 in I; lia|cbn; lia]. }
      assert (Q1 : forall p, p = p_next m -> In (p, f_resolver f) (p_partitions m'') /\ forall i, nth_error (map fst (p_partitions m'')) i = Some p -> length (p_partitions m) <= i + 1).
      { intros p ->. rewrite Ep. split; [apply in_or_app; right; left; reflexivity|]. intros i H. rewrite map_app in H. apply (Lx (p_next m) i); [apply Nx; exact Nn|exact H]. }
      destruct Ed as [(Ed & _)|(l & p0 & El & Np & Ed)]; rewrite Ed; (split; [discriminate|]); intros p S; apply sends_edges_of in S; rewrite Ed in S.
      + destruct S as [S|[]]. injection S as <-. apply Q1. reflexivity.
      + destruct S as [S|[S|[]]]; injection S as <-; [|apply Q1; reflexivity]. rewrite Ep in *.
        split; [apply in_or_app; left; rewrite El; apply in_or_app; right; left; reflexivity|]. intros i H. eapply Lo; [exact El|exact N'|exact H]. }
  destruct G as (ext & Ep & Le & Ln & G1 & G2 & G3 & G4).
  assert (Sd : forall g p, In g done -> sends m' p g -> sends m p g).
  { intros g p I S. apply sends_edges_of in S. rewrite Nd in S by exact I. apply sends_edges_of. exact S. }
  constructor.
  - exact G1.
  - exact G2.
  - intros g I. rewrite <- app_assoc in I. apply V3 in I. lia.
  - exact Nt.
  - intros g p I S. apply in_app_or in I. destruct I as [I|[<-|[]]]; [|apply G4; exact S].
    rewrite Ep. apply in_or_app. left. apply V5; [exact I|apply Sd; assumption].
  - intros g I. apply in_app_or in I. destruct I as [I|[<-|[]]]; [rewrite Nd by exact I; apply V6; exact I|exact G3].
  - intros g h p q i j Pr Sg Sh Hi Hj.
    assert (Old : forall g p i, In g done -> sends m' p g -> nth_error (map fst (p_partitions m')) i = Some p -> i < length (p_partitions m) /\ nth_error (map fst (p_partitions m)) i = Some p).
    { clear g h p q i j Pr Sg Sh Hi Hj. intros g p i I S H. apply Sd in S; [|exact I]. apply (V5 g p I) in S. apply (in_map fst) in S. cbn [fst] in S. apply In_nth_error in S. destruct S as (k & K).
      assert (Lk : k < length (map fst (p_partitions m))) by (apply nth_error_Some; rewrite K; discriminate).
      assert (i = k).
      { rewrite NoDup_nth_error in G1. apply G1; [apply nth_error_Some; rewrite H; discriminate|]. rewrite H. rewrite Ep, map_app, nth_error_app1 by exact Lk. symmetry; exact K. }
      subst i. rewrite map_length in Lk. split; [exact Lk|exact K]. }
    apply precedes_snoc in Pr. destruct Pr as [[Ig ->]|Pr].
    + destruct (Old g p i Ig Sg Hi) as [Li _]. destruct (G4 q Sh) as [_ Lj]. specialize (Lj j Hj). lia.
    + destruct (precedes_in _ _ _ Pr) as [Ig Ih]. destruct (Old g p i Ig Sg Hi) as [_ Ki]. destruct (Old h q j Ih Sh Hj) as [_ Kj].
      eapply V7; [exact Pr|apply Sd; eassumption|apply Sd; eassumption|exact Ki|exact Kj].
Qed.
Lemma initial_inv : forall fields next, consistent fields next -> inv [] fields (initial fields next).
Proof.
  intros fields next (C1 & C2 & C3). constructor; cbn [initial p_partitions p_next map app].
  - constructor.
  - intros p [].
  - exact C3.
  - intros f I. unfold edges_of. cbn [p_edges initial]. clear C2 C3. induction fields as [|g l IH]; [destruct I|]. cbn [map] in C1. inversion C1 as [|? ? Ng Nl]; subst.
    cbn [map filter snd]. destruct I as [->|I].
    + rewrite Nat.eqb_refl. f_equal. clear IH C1 Nl.
      induction l as [|h l IHl]; [reflexivity|]. cbn [map filter snd]. destruct (f_id h =? f_id f) eqn:E; [apply Nat.eqb_eq in E; exfalso; apply Ng; left; exact E|].
      apply IHl. intros K. apply Ng. right. exact K.
    + assert (E : f_id g =? f_id f = false) by (apply Nat.eqb_neq; intros E; apply Ng; rewrite E; apply in_map; exact I). rewrite E. apply IH; assumption.
  - intros f p [].
  - intros f [].
  - intros f g p q i j (a & b & c & H). destruct a; discriminate H.
Qed.
Lemma fold_inv : forall todo done m, NoDup (map f_id (done ++ todo)) -> inv done todo m -> inv (done ++ todo) [] (fold_left step todo m).
Proof.
  intros todo. induction todo as [|f todo IH]; intros done m N V; [rewrite app_nil_r; exact V|]. cbn [fold_left].
  replace (done ++ f :: todo) with ((done ++ [f]) ++ todo) by (rewrite <- app_assoc; reflexivity). apply IH; [rewrite <- app_assoc; exact N|].
  apply step_inv; assumption.
Qed.
Lemma ensure_inv : forall fields next, consistent fields next -> inv fields [] (ensure_order fields next).
Proof.
  intros fields next C. apply (fold_inv fields []); [apply C|]. apply initial_inv. exact C.
Qed.

(** * How many times a field is sent *)
Record shape (next0 : nat) (done : list field) (m : plan) : Prop :=
  { h_next : next0 <= p_next m;
    h_used : forall g, In g done -> In (f_partition g) (map fst (p_partitions m));
    h_from : forall p, In p (map fst (p_partitions m)) -> next0 <= p \/ exists g, In g done /\ f_partition g = p;
    h_nil : done = [] -> p_partitions m = [];
    h_last : forall d e, done = d ++ [e] -> exists l p, p_partitions m = l ++ [(p, f_resolver e)] /\ (p = f_partition e <-> ~ interrupted (f_resolver e) done);
    h_count : forall a f b, done = a ++ f :: b -> (resent a f -> times_sent m f = 2) /\ (~ resent a f -> times_sent m f = 1) }.
Lemma interrupted_snoc_same : forall r l x, f_resolver x = r -> interrupted r (l ++ [x]) <-> interrupted r l.
Proof.
  intros r l x Hx. split.
  - intros (u & v & Pr & Hu & Hv). apply precedes_snoc in Pr. destruct Pr as [[_ ->]|Pr]; [contradiction|]. exists u, v. auto.
  - intros (u & v & (a & b & c & ->) & Hu & Hv). exists u, v. split; [|auto]. exists a, b, (c ++ [x]). rewrite <- !app_assoc. cbn [app]. rewrite <- !app_assoc. reflexivity.
Qed.
Lemma interrupted_used : forall r d e, f_resolver e <> r -> (exists g, In g d /\ f_resolver g = r) -> interrupted r (d ++ [e]).
Proof.
  intros r d e N (g & I & Hg). apply in_split in I. destruct I as (a & b & ->). exists g, e. split; [|auto]. exists a, b, []. rewrite <- app_assoc. reflexivity.
Qed.
Lemma not_interrupted_first : forall r d, (forall g, In g d -> f_resolver g <> r) -> ~ interrupted r d.
Proof. intros r d H (x & y & Pr & Hx & _). apply precedes_in in Pr. apply (H x); [apply Pr|exact Hx]. Qed.

Lemma step_shape : forall fields next0 done f todo m, consistent fields next0 -> one_partition_per_resolver fields -> fields = done ++ f :: todo ->
  inv done (f :: todo) m -> shape next0 done m -> shape next0 (done ++ [f]) (step m f).
Proof.
  intros fields next0 done f todo m (C1 & C2 & C3) O Ef V [H1 H2 H3 H4 H5 H6].
  assert (If : In f fields) by (rewrite Ef; apply in_or_app; right; left; reflexivity).
  assert (Id : forall g, In g done -> In g fields) by (intros g I; rewrite Ef; apply in_or_app; auto).
  assert (Nf : forall g, In g done -> f_id g <> f_id f).
  { intros g I H. rewrite Ef, map_app in C1. cbn [map] in C1. apply NoDup_remove_2 in C1. apply C1. apply in_or_app. left. rewrite <- H. apply in_map. exact I. }
  assert (Nd : forall g, In g done -> times_sent (step m f) g = times_sent m g).
  { intros g I. unfold times_sent. fold (edges_of m g). fold (edges_of (step m f) g). rewrite step_other by (apply Nf; exact I). reflexivity. }
  assert (Uiff : In (f_partition f) (map fst (p_partitions m)) <-> exists g, In g done /\ f_resolver g = f_resolver f).
  { split.
    - intros I. apply H3 in I. destruct I as [I|(g & I & Hg)]; [specialize (C3 f If); lia|]. exists g. split; [exact I|]. apply C2; auto.
    - intros (g & I & Hg). rewrite <- (O g f); auto. }
  pose proof (step_outcome m f (v_todo _ _ _ V f (or_introl eq_refl))) as Out.
  assert (Lst : forall l p, p_partitions m = l ++ [(p, f_resolver f)] -> exists d e, done = d ++ [e] /\ f_resolver e = f_resolver f /\ (p = f_partition f <-> ~ interrupted (f_resolver f) done)).
  { intros l p El. destruct done as [|e d _] using rev_ind; [rewrite (H4 eq_refl) in El; symmetry in El; destruct (snoc_eq_nil _ _ _ El)|].
    destruct (H5 d e eq_refl) as (l' & q & El' & Hq). rewrite El' in El. apply app_inj_tail in El. destruct El as [_ El]. injection El as -> Er. exists d, e.
    split; [reflexivity|]. split; [exact Er|]. rewrite <- Er, <- Hq. rewrite (O e f); [reflexivity|apply Id; apply in_or_app; right; left; reflexivity|exact If|exact Er]. }
  assert (Nlst : last_with (f_resolver f) (p_partitions m) = None -> forall d e, done = d ++ [e] -> f_resolver e <> f_resolver f).
  { intros L d e Ed Er. destruct (H5 d e Ed) as (l' & q & El' & _). unfold last_with in L. rewrite El', last_error_snoc, Er, Nat.eqb_refl in L. discriminate L. }
  assert (Cnt : forall n, times_sent (step m f) f = n -> (resent done f -> n = 2) -> (~ resent done f -> n = 1) ->
    forall a g b, done ++ [f] = a ++ g :: b -> (resent a g -> times_sent (step m f) g = 2) /\ (~ resent a g -> times_sent (step m f) g = 1)).
  { intros n En R2 R1 a g b Eq. apply snoc_split in Eq. destruct Eq as [(_ & -> & ->)|(b' & _ & Eq)]; [rewrite En; auto|].
    rewrite Nd by (rewrite Eq; apply in_or_app; right; left; reflexivity). apply (H6 a g b' Eq). }
  assert (Sx : forall m', step m f = m' -> exists ext, p_partitions m' = p_partitions m ++ ext /\ p_next m <= p_next m').
  { intros m' <-. destruct Out as [l m'' El ->|m'' late Nin Ep En Ed|m'' Iin Ep En Ed]; [exists []; rewrite app_nil_r; auto|eexists; split; [exact Ep|lia]|eexists; split; [exact Ep|lia]]. }
  destruct (Sx _ eq_refl) as (ext & Ext & Enext).
  constructor.
  - lia.
  - intros g I. apply in_app_or in I. destruct I as [I|[<-|[]]]; [rewrite Ext, map_app; apply in_or_app; left; apply H2; exact I|].
    clear Ext Cnt. destruct Out as [l m'' El ->|m'' late Nin Ep En Ed|m'' Iin Ep En Ed].
    + rewrite El, map_app. apply in_or_app. right; left; reflexivity.
    + rewrite Ep, map_app. apply in_or_app. right; left; reflexivity.
    + rewrite Ep, map_app. apply in_or_app. left; exact Iin.
  - intros p I. assert (Kept : In p (map fst (p_partitions m)) -> next0 <= p \/ exists g, In g (done ++ [f]) /\ f_partition g = p).
    { intros J. apply H3 in J. destruct J as [J|(g & J & K)]; [auto|]. right. exists g. split; [apply in_or_app; auto|exact K]. }
    clear Ext Cnt. destruct Out as [l m'' El ->|m'' late Nin Ep En Ed|m'' Iin Ep En Ed].
    + apply Kept. exact I.
    + rewrite Ep, map_app in I. apply in_app_or in I. destruct I as [I|[<-|[]]]; [apply Kept; exact I|]. right. exists f. split; [apply in_or_app; right; left; reflexivity|reflexivity].
    + rewrite Ep, map_app in I. apply in_app_or in I. destruct I as [I|[<-|[]]]; [apply Kept; exact I|]. left. cbn. exact H1.
  - intros K. destruct (snoc_eq_nil _ _ _ K).
  - intros d e Ed. apply app_inj_tail in Ed. destruct Ed as [<- <-]. clear Ext Cnt. destruct Out as [l m'' El ->|m'' late Nin Ep En Ed|m'' Iin Ep En Ed].
    + exists l, (f_partition f). split; [exact El|]. rewrite interrupted_snoc_same by reflexivity. destruct (Lst l _ El) as (_ & _ & _ & _ & Q). exact Q.
    + eexists _, _. split; [exact Ep|]. split; [|reflexivity]. intros _. rewrite interrupted_snoc_same by reflexivity. apply not_interrupted_first.
      intros g I Hg. apply Nin. apply Uiff. exists g. auto.
    + eexists _, _. split; [exact Ep|]. rewrite interrupted_snoc_same by reflexivity. split; [intros Q; specialize (C3 f If); lia|]. intros Q. exfalso. apply Q.
      destruct Ed as [(_ & L)|(l & p & El & Np & _)].
      * destruct done as [|e d _] using rev_ind; [apply Uiff in Iin; destruct Iin as (g & [] & _)|]. pose proof (Nlst L d e eq_refl) as Ne.
        apply interrupted_used; [exact Ne|]. apply Uiff in Iin. destruct Iin as (g & I & Hg). apply in_app_or in I. destruct I as [I|[<-|[]]]; [exists g; auto|contradiction].
      * destruct (Lst l p El) as (_ & _ & _ & _ & Qp). destruct (Nat.eq_dec p (f_partition f)); [contradiction|]. exfalso. apply n. apply Qp. exact Q.
  - clear Ext. pose proof (v_todo _ _ _ V f (or_introl eq_refl)) as Vt.
    destruct Out as [l m'' El ->|m'' late Nin Ep En Ed|m'' Iin Ep En Ed].
    + apply (Cnt 1).
      * unfold times_sent. fold (edges_of m f). rewrite Vt. reflexivity.
      * intros (d & e & Ed & Er & Hi). exfalso. destruct (Lst l _ El) as (_ & _ & _ & _ & Q). apply (proj1 Q eq_refl). exact Hi.
      * reflexivity.
    + assert (E1 : edges_of m'' f = [(f_partition f, f_id f)]).
      { destruct Ed as [(_ & Ed & _)|(_ & l & p & El & Np & _)]; [exact Ed|]. exfalso. destruct (Lst l p El) as (d & e & -> & Er & _).
        apply Nin. apply Uiff. exists e. split; [apply in_or_app; right; left; reflexivity|exact Er]. }
      apply (Cnt 1).
      * unfold times_sent. fold (edges_of m'' f). rewrite E1. reflexivity.
      * intros (d & e & -> & Er & Hi). exfalso. apply Nin. apply Uiff. exists e. split; [apply in_or_app; right; left; reflexivity|exact Er].
      * reflexivity.
    + destruct Ed as [(Ed & L)|(l & p & El & Np & Ed)].
      * apply (Cnt 1); [unfold times_sent; fold (edges_of m'' f); rewrite Ed; reflexivity| |reflexivity].
        intros (d & e & Ee & Er & Hi). exfalso. exact (Nlst L d e Ee Er).
      * apply (Cnt 2); [unfold times_sent; fold (edges_of m'' f); rewrite Ed; reflexivity|reflexivity|].
        intros Nr. exfalso. apply Np. destruct (Lst l p El) as (d & e & Ee & Er & Q). apply Q. intros Hi. apply Nr. exists d, e. auto.
Qed.
Lemma fold_shape : forall fields next0 todo done m, consistent fields next0 -> one_partition_per_resolver fields -> fields = done ++ todo ->
  inv done todo m -> shape next0 done m -> shape next0 fields (fold_left step todo m).
Proof.
  intros fields next0 todo. induction todo as [|f todo IH]; intros done m C O Ef V H; [rewrite app_nil_r in Ef; rewrite Ef; exact H|]. cbn [fold_left].
  apply (IH (done ++ [f])); [exact C|exact O|rewrite <- app_assoc; exact Ef| |].
  - apply step_inv; [rewrite <- Ef; apply C|exact V].
  - eapply step_shape; eassumption.
Qed.
Lemma ensure_shape : forall fields next, consistent fields next -> one_partition_per_resolver fields -> shape next fields (ensure_order fields next).
Proof.
  intros fields next C O. apply (fold_shape fields next fields []); [exact C|exact O|reflexivity|apply initial_inv; exact C|].
  constructor; cbn [initial p_partitions p_next map].
  - lia.
  - intros g [].
  - intros p [].
  - reflexivity.
  - intros d e H. symmetry in H. destruct (snoc_eq_nil _ _ _ H).
  - intros a f b H. destruct a; discriminate H.
Qed.

(** * The chain of partitions *)
Lemma windows_in : forall l a b, In (a, b) (windows l) <-> exists u v, l = u ++ a :: b :: v.
Proof.
  intros l a b. induction l as [|x l IH]; [split; [intros []|intros (u & v & E); destruct u; discriminate E]|].
  destruct l as [|y l].
  - split; [intros []|]. intros (u & v & E). destruct u as [|? [|? u]]; discriminate E.
  - change (windows (x :: y :: l)) with ((x, y) :: windows (y :: l)). cbn [In]. rewrite IH. split.
    + intros [E|(u & v & E)]; [injection E as -> ->; exists [], l; reflexivity|]. exists (x :: u), v. rewrite E. reflexivity.
    + intros (u & v & E). destruct u as [|z u]; [left; cbn [app] in E; congruence|]. right. cbn [app] in E. injection E as -> E. eauto.
Qed.
Lemma nodup_split : forall (A : Type) (u v u' v' : list A) x, NoDup (u ++ x :: v) -> u ++ x :: v = u' ++ x :: v' -> u = u' /\ v = v'.
Proof.
  intros A u. induction u as [|y u IH]; intros v u' v' x N E.
  - destruct u' as [|z u']; [cbn [app] in E; split; [reflexivity|congruence]|]. cbn [app] in *. injection E as -> E. inversion N as [|? ? Nx _]; subst. exfalso. apply Nx.
    apply in_or_app. right; left; reflexivity.
  - destruct u' as [|z u'].
    + cbn [app] in *. injection E as -> E. inversion N as [|? ? Nx _]; subst. exfalso. apply Nx. apply in_or_app. right; left; reflexivity.
    + cbn [app] in *. injection E as -> E. inversion N; subst. destruct (IH v u' v' x) as [-> ->]; [assumption|exact E|]. auto.
Qed.
Lemma windows_next : forall l a b c, NoDup l -> In (a, b) (windows l) -> In (a, c) (windows l) -> b = c.
Proof.
  intros l a b c N H H'. apply windows_in in H. apply windows_in in H'. destruct H as (u & v & ->). destruct H' as (u' & v' & E).
  destruct (nodup_split _ _ _ _ _ _ N E) as [_ K]. congruence.
Qed.
Lemma windows_prev : forall l a b c, NoDup l -> In (a, c) (windows l) -> In (b, c) (windows l) -> a = b.
Proof.
  intros l a b c N H H'. apply windows_in in H. apply windows_in in H'. destruct H as (u & v & E1). destruct H' as (u' & v' & E2).
  rewrite E1 in N. assert (E : (u ++ [a]) ++ c :: v = (u' ++ [b]) ++ c :: v') by (rewrite <- !app_assoc; cbn [app]; congruence).
  replace (u ++ a :: c :: v) with ((u ++ [a]) ++ c :: v) in N by (rewrite <- app_assoc; reflexivity).
  destruct (nodup_split _ _ _ _ _ _ N E) as [K _]. apply app_inj_tail in K. apply K.
Qed.
Lemma before_spec : forall l p q, NoDup l -> before (windows l) p = Some q <-> In (q, p) (windows l).
Proof.
  intros l p q N. unfold before. destruct (find (fun e => snd e =? p) (windows l)) as [[a b]|] eqn:E.
  - apply find_some in E. destruct E as [I E]. cbn [snd] in E. apply Nat.eqb_eq in E. subst b. cbn [fst]. split; [intros H; injection H as <-; exact I|].
    intros J. f_equal. eapply windows_prev; eassumption.
  - split; [discriminate|]. intros J. exfalso. pose proof (find_none _ _ E _ J) as K. cbn [snd] in K. rewrite Nat.eqb_refl in K. discriminate K.
Qed.
Lemma before_none : forall l p x, NoDup (x :: l) -> In p (x :: l) -> before (windows (x :: l)) p = None <-> p = x.
Proof.
  intros l p x N I. split.
  - intros H. destruct I as [I|I]; [congruence|]. exfalso. apply in_split in I. destruct I as (u & v & E).
    assert (exists q, In (q, p) (windows (x :: l))) as (q & J).
    { destruct u as [|y u _] using rev_ind; [exists x; apply windows_in; exists [], v; rewrite E; reflexivity|].
      exists y. apply windows_in. exists (x :: u), v. rewrite E, <- app_assoc. reflexivity. }
    apply (before_spec _ _ _ N) in J. congruence.
  - intros ->. destruct (before (windows (x :: l)) x) as [q|] eqn:E; [|reflexivity]. apply (before_spec _ _ _ N) in E. apply windows_in in E. destruct E as (u & v & E).
    exfalso. destruct u as [|y u]; cbn [app] in E; injection E as -> E.
    + rewrite E in N. inversion N as [|? ? Nx _]. apply Nx. left; reflexivity.
    + rewrite E in N. inversion N as [|? ? Nx _]. apply Nx. apply in_or_app. right. right. left. reflexivity.
Qed.
Lemma collect_spec : forall l x roots pairs init, NoDup (x :: l) -> (forall p, In p roots -> In p (x :: l)) ->
  let '(pairs', init') := collect (windows (x :: l)) roots pairs init in
  (forall e, In e pairs' <-> In e pairs \/ (In (snd e) roots /\ In e (windows (x :: l)))) /\
  (init' = if in_dec Nat.eq_dec x roots then Some x else init).
Proof.
  intros l x roots. induction roots as [|p roots IH]; intros pairs init N H.
  - cbn [collect]. split; [intros e; split; [auto|intros [K|[[] _]]; exact K]|reflexivity].
  - cbn [collect]. assert (Hp : In p (x :: l)) by (apply H; left; reflexivity). assert (Hr : forall q, In q roots -> In q (x :: l)) by (intros q J; apply H; right; exact J).
    destruct (before (windows (x :: l)) p) as [q|] eqn:B.
    + apply (before_spec _ _ _ N) in B. specialize (IH (pairs ++ [(q, p)]) init N Hr). destruct (collect _ _ _ _) as [pairs' init']. destruct IH as [I1 I2]. split.
      * intros e. rewrite I1, in_app_iff. cbn [In]. split.
        -- intros [[K|[<-|[]]]|[K1 K2]]; [auto|right; split; [left; reflexivity|exact B]|right; split; [right; exact K1|exact K2]].
        -- intros [K|[[K1|K1] K2]]; [auto| |right; auto]. left. right. left. destruct e as [a b]. cbn [snd] in K1. subst b. f_equal. eapply windows_prev; eassumption.
      * rewrite I2. destruct (in_dec Nat.eq_dec x roots) as [J|J], (in_dec Nat.eq_dec x (p :: roots)) as [K|K]; try reflexivity.
        -- exfalso. apply K. right; exact J.
        -- exfalso. destruct K as [->|K]; [|contradiction]. apply (before_spec _ _ _ N) in B. rewrite (proj2 (before_none l x x N Hp) eq_refl) in B. discriminate B.
    + assert (p = x) as -> by (apply (before_none l p x N Hp); exact B). specialize (IH pairs (Some x) N Hr). destruct (collect _ _ _ _) as [pairs' init']. destruct IH as [I1 I2]. split.
      * intros e. rewrite I1. split.
        -- intros [K|[K1 K2]]; [auto|]. right. split; [right; exact K1|exact K2].
        -- intros [K|[[K1|K1] K2]]; [auto| |auto]. exfalso. destruct e as [a b]. cbn [snd] in K1. subst b. apply (before_spec _ _ _ N) in K2. congruence.
      * rewrite I2. destruct (in_dec Nat.eq_dec x roots), (in_dec Nat.eq_dec x (x :: roots)) as [K|K]; try reflexivity; exfalso; apply K; left; reflexivity.
Qed.
Lemma insert_pair_in : forall p l x, In x (insert_pair p l) <-> x = p \/ In x l.
Proof.
  intros p l x. induction l as [|y l IH]; [cbn; split; [intros [H|[]]; auto|intros [H|[]]; auto]|]. cbn [insert_pair]. destruct (pair_leb p y); cbn [In]; [|rewrite IH]; intuition congruence.
Qed.
Lemma sort_pairs_in : forall l x, In x (sort_pairs l) <-> In x l.
Proof.
  intros l x. induction l as [|y l IH]; [reflexivity|]. cbn [sort_pairs fold_right]. rewrite insert_pair_in. unfold sort_pairs in IH. rewrite IH. cbn [In]. intuition congruence.
Qed.
Lemma follow_spec : forall l pairs u x v fuel, NoDup l -> (forall e, In e pairs <-> In e (windows l)) -> l = u ++ x :: v -> length v <= fuel -> follow fuel pairs x = Some v.
Proof.
  intros l pairs u x v. revert u x. induction v as [|y v IH]; intros u x fuel N H E L.
  - assert (F : find (fun e => fst e =? x) pairs = None).
    { destruct (find _ pairs) as [[a b]|] eqn:F; [|reflexivity]. exfalso. apply find_some in F. destruct F as [F1 F2]. cbn [fst] in F2. apply Nat.eqb_eq in F2. subst a.
      apply H in F1. apply windows_in in F1. destruct F1 as (u' & v' & E'). rewrite E in N, E'. destruct (nodup_split _ _ _ _ _ _ N E') as [_ K]. discriminate K. }
    destruct fuel; cbn [follow]; rewrite F; reflexivity.
  - assert (W : In (x, y) (windows l)) by (apply windows_in; eauto).
    assert (F : find (fun e => fst e =? x) pairs = Some (x, y)).
    { destruct (find _ pairs) as [[a b]|] eqn:F.
      - apply find_some in F. destruct F as [F1 F2]. cbn [fst] in F2. apply Nat.eqb_eq in F2. subst a. f_equal. f_equal. apply H in F1. eapply windows_next; eassumption.
      - exfalso. pose proof (find_none _ _ F _ (proj2 (H _) W)) as K. cbn [fst] in K. rewrite Nat.eqb_refl in K. discriminate K. }
    cbn [length] in L. destruct fuel as [|fuel]; [lia|]. cbn [follow]. rewrite F. cbn [snd]. rewrite (IH (u ++ [x]) y fuel); [reflexivity|exact N|exact H|rewrite <- app_assoc; exact E|lia].
Qed.
Lemma windows_length : forall l x, length (windows (x :: l)) = length l.
Proof.
  intros l. induction l as [|y l IH]; intros x; [reflexivity|]. change (windows (x :: y :: l)) with ((x, y) :: windows (y :: l)). cbn [length]. rewrite IH. reflexivity.
Qed.
Lemma windows_nodup : forall l, NoDup l -> NoDup (windows l).
Proof.
  intros l N. induction l as [|x l IH]; [constructor|]. destruct l as [|y l]; [constructor|]. change (windows (x :: y :: l)) with ((x, y) :: windows (y :: l)).
  inversion N as [|? ? Nx Nl]; subst. constructor; [|apply IH; exact Nl]. intros I. apply windows_in in I. destruct I as (u & v & E). apply Nx. rewrite E. apply in_or_app. right; left; reflexivity.
Qed.
Lemma partition_order_spec : forall l roots, NoDup l -> l <> [] -> Permutation roots l -> partition_order (windows l) roots = Some l.
Proof.
  intros l roots N Ne Pm. destruct l as [|x l]; [congruence|]. unfold partition_order.
  pose proof (collect_spec l x roots [] None N (fun p I => Permutation_in _ Pm I)) as C. destruct (collect (windows (x :: l)) roots [] None) as [pairs init]. destruct C as [C1 C2].
  destruct (in_dec Nat.eq_dec x roots) as [I|I]; [|exfalso; apply I; apply (Permutation_in _ (Permutation_sym Pm)); left; reflexivity]. rewrite C2.
  assert (Cp : forall e, In e pairs <-> In e (windows (x :: l))).
  { intros e. rewrite C1. split; [intros [[]|[_ K]]; exact K|]. intros K. right. split; [|exact K]. apply (Permutation_in _ (Permutation_sym Pm)). destruct e as [a b].
    apply windows_in in K. destruct K as (u & v & ->). apply in_or_app. right. right. left. reflexivity. }
  assert (Le : length l <= length pairs).
  { rewrite <- (windows_length l x). apply NoDup_incl_length; [apply windows_nodup; exact N|]. intros e K. apply Cp. exact K. }
  rewrite (follow_spec (x :: l) (sort_pairs pairs) [] x l); [reflexivity|exact N| |reflexivity|exact Le].
  intros e. rewrite sort_pairs_in. apply Cp.
Qed.

(** * Requests *)
Lemma chain_succeeded : forall d inputs ops s u a v b w, well_formed d -> d_mutation_order d = u ++ a :: v ++ b :: w -> run d inputs ops = Some s ->
  forall pre e post, s_log s = pre ++ e :: post -> turn (P b) e -> In (Succeeded a) pre.
Proof.
  intros d inputs ops s u a v b w Wf Eo R. destruct (run_good d inputs ops Wf) as (s' & R' & G). rewrite R in R'. injection R' as <-.
  pose proof (i_deps _ _ _ _ _ (proj1 G)) as Dep.
  assert (Ast : forall p b e a, s_log s = b ++ e :: a -> e = Succeeded p \/ e = Failed p -> In (Started p) b).
  { intros p b' e a' H K. destruct (f_log _ _ _ _ (proj2 G) p b' e a' H K) as [J|J]; [exact J|discriminate J]. }
  assert (Dir : forall u a b w, d_mutation_order d = u ++ a :: b :: w -> forall pre e post, s_log s = pre ++ e :: post -> turn (P b) e -> In (Succeeded a) pre).
  { intros u0 a0 b0 w0 E0 pre e post El T. destruct (Dep (P b0) (P a0) pre e post El T (D_order _ _ _ _ _ E0)) as (e' & I & F).
    destruct e'; cbn [finishes] in F; try contradiction. subst. exact I. }
  revert b w Eo. induction v as [|c v IH] using rev_ind; intros b w Eo pre e post El T; [eapply Dir; eassumption|].
  assert (Eo' : d_mutation_order d = (u ++ a :: v) ++ c :: b :: w) by (rewrite Eo, <- !app_assoc; cbn [app]; rewrite <- ?app_assoc; reflexivity).
  pose proof (Dir _ _ _ _ Eo' pre e post El T) as Sc. apply in_split in Sc. destruct Sc as (x & y & Ex).
  assert (St : In (Started c) x) by (apply (Ast c x (Succeeded c) (y ++ e :: post)); [rewrite El, Ex, <- app_assoc; reflexivity|left; reflexivity]).
  apply in_split in St. destruct St as (x1 & x2 & Ex1).
  assert (K : In (Succeeded a) x1).
  { apply (IH c (b :: w)) with (e := Started c) (post := x2 ++ Succeeded c :: y ++ e :: post); [rewrite Eo, <- app_assoc; reflexivity| |reflexivity].
    rewrite El, Ex, Ex1, <- !app_assoc. reflexivity. }
  rewrite Ex, Ex1. apply in_or_app. left. apply in_or_app. left. exact K.
Qed.

(** The partitions pushed are the original ones and the new ones. *)
Definition complete (next0 : nat) (done : list field) (m : plan) : Prop :=
  next0 <= p_next m /\
  forall p, In p (map fst (p_partitions m)) <-> (exists g, In g done /\ f_partition g = p) \/ next0 <= p < p_next m.
Lemma step_complete : forall next0 done f todo m, inv done (f :: todo) m -> complete next0 done m -> complete next0 (done ++ [f]) (step m f).
Proof.
  intros next0 done f todo m V [L C]. pose proof (step_outcome m f (v_todo _ _ _ V f (or_introl eq_refl))) as Out.
  assert (Ex : forall p, (exists g, In g (done ++ [f]) /\ f_partition g = p) <-> (exists g, In g done /\ f_partition g = p) \/ f_partition f = p).
  { intros p. split.
    - intros (g & I & H). apply in_app_or in I. destruct I as [I|[<-|[]]]; [left; exists g; auto|auto].
    - intros [(g & I & H)|H]; [exists g; split; [apply in_or_app; auto|exact H]|exists f; split; [apply in_or_app; right; left; reflexivity|exact H]]. }
  destruct Out as [l m' El ->|m' late Nin Ep En Ed|m' Iin Ep En Ed].
  - split; [exact L|]. intros p. rewrite Ex, C. split; [tauto|]. intros [[K|K]|K]; [auto| |auto]. apply C. rewrite <- K, El, map_app. apply in_or_app. right; left; reflexivity.
  - split; [lia|]. intros p. rewrite Ex, Ep, map_app, in_app_iff, C, En. cbn [map fst In]. tauto.
  - split; [lia|]. intros p. rewrite Ex, Ep, map_app, in_app_iff, C, En. cbn [map fst In]. apply C in Iin. split.
    + intros [[K|K]|[K|[]]]; [auto|right; lia|right; lia].
    + intros [[K|K]|K]; [auto|rewrite <- K; left; destruct Iin as [I|I]; [left; exact I|right; exact I]|].
      destruct (Nat.eq_dec p (p_next m)) as [->|N]; [right; left; reflexivity|left; right; lia].
Qed.
Lemma fold_complete : forall next0 todo done m, NoDup (map f_id (done ++ todo)) -> inv done todo m -> complete next0 done m -> complete next0 (done ++ todo) (fold_left step todo m).
Proof.
  intros next0 todo. induction todo as [|f todo IH]; intros done m N V C; [rewrite app_nil_r; exact C|]. cbn [fold_left].
  replace (done ++ f :: todo) with ((done ++ [f]) ++ todo) by (rewrite <- app_assoc; reflexivity). apply IH; [rewrite <- app_assoc; exact N|apply step_inv; assumption|].
  eapply step_complete; eassumption.
Qed.
Lemma ensure_complete : forall fields next, consistent fields next -> complete next fields (ensure_order fields next).
Proof.
  intros fields next C. apply (fold_complete next fields []); [apply C|apply initial_inv; exact C|]. split; [cbn; lia|]. intros p. cbn. split; [intros []|].
  intros [(g & [] & _)|K]. lia.
Qed.
Lemma nth_split2 : forall (A : Type) (l : list A) i j x y, i < j -> nth_error l i = Some x -> nth_error l j = Some y -> exists u v w, l = u ++ x :: v ++ y :: w.
Proof.
  intros A l i j x y L Hi Hj. apply nth_error_split in Hj. destruct Hj as (l1 & l2 & -> & Lj). rewrite nth_error_app1 in Hi by lia.
  apply nth_error_split in Hi. destruct Hi as (u & v & -> & _). exists u, v, l2. rewrite <- app_assoc. reflexivity.
Qed.
