(** Proofs: a view of the store is a view of the tree it holds, and does not depend on which
    values are hidden from the client. *)

From Coq Require Import List Arith ZArith String Bool Lia.
From Verif Require Import Response.Model Response.Spec Response.Merge Response.Nulls Views.Model Views.Spec.
Import ListNotations.
Local Open Scope nat_scope.

(** ** Objects with aligned fields *)

Definition aligned {A B} (R : A -> B -> Prop) (fs : list (rkey * A)) (fs' : list (rkey * B)) : Prop :=
  Forall2 (fun f g => fst f = fst g /\ R (snd f) (snd g)) fs fs'.

Lemma find_value_aligned : forall A B (R : A -> B -> Prop) fs fs' k, aligned R fs fs' ->
  match find_value k fs, find_value k fs' with
  | Some a, Some b => R a b
  | None, None => True
  | _, _ => False
  end.
Proof.
  intros A B R fs fs' k H. unfold find_value. induction H as [|f g fs fs' [E R1] H IH]; [exact Logic.I|].
  cbn [find]. rewrite E. destruct (Nat.eqb (snd (fst g)) k); [exact R1|exact IH].
Qed.

Lemma forall2_impl : forall A B (P Q : A -> B -> Prop) l l',
  (forall a b, P a b -> Q a b) -> Forall2 P l l' -> Forall2 Q l l'.
Proof. intros A B P Q l l' H F. induction F; constructor; auto. Qed.

Lemma map_forall2 : forall A B C (f : A -> C) (g : B -> C) l l',
  Forall2 (fun a b => f a = g b) l l' -> map f l = map g l'.
Proof. intros A B C f g l l' F. induction F as [|a b l l' E F IH]; [reflexivity|]. cbn [map]. rewrite E, IH. reflexivity. Qed.

Definition object_view (V : Type) := forall A, (V -> A -> vres out) -> option nat -> list (rkey * A) -> V -> vres out.

Definition natural {V} (object : object_view V) : Prop :=
  forall A B (R : A -> B -> Prop) vv vv' d fs fs' w, aligned R fs fs' ->
    (forall w a b, R a b -> vv w a = vv' w b) -> object A vv d fs w = object B vv' d fs' w.

Lemma natural_required_fields : forall A B (R : A -> B -> Prop) vv vv' d fs fs', aligned R fs fs' ->
  (forall w a b, R a b -> vv w a = vv' w b) ->
  forall r, required_fields vv d fs r = required_fields vv' d fs' r.
Proof.
  intros A B R vv vv' d fs fs' Al Hv r. induction r as [|q r IH]; [reflexivity|].
  cbn [required_fields]. pose proof (find_value_aligned A B R fs fs' (q_key q) Al) as F.
  destruct (find_value (q_key q) fs), (find_value (q_key q) fs'); try contradiction.
  - rewrite (Hv _ _ _ F), IH. reflexivity.
  - rewrite IH. reflexivity.
Qed.

Lemma natural_required : natural (@required_object).
Proof.
  intros A B R vv vv' d fs fs' r Al Hv. unfold required_object.
  rewrite (natural_required_fields A B R vv vv' d fs fs' Al Hv). reflexivity.
Qed.

Lemma natural_exact : forall A B (R : A -> B -> Prop) vv vv' fs fs', aligned R fs fs' ->
  (forall w a b, R a b -> vv w a = vv' w b) ->
  forall r, exact_fields vv fs r = exact_fields vv' fs' r.
Proof.
  intros A B R vv vv' fs fs' Al Hv r. induction r as [|q r IH]; [reflexivity|].
  cbn [exact_fields]. pose proof (find_value_aligned A B R fs fs' (q_key q) Al) as F.
  destruct (find_value (q_key q) fs), (find_value (q_key q) fs'); try contradiction; [|reflexivity].
  rewrite (Hv _ _ _ F), IH. reflexivity.
Qed.

Lemma natural_set : natural (@set_object).
Proof.
  intros A B R vv vv' d fs fs' [r s] Al Hv. unfold set_object. cbn [fst snd]. f_equal.
  revert r. induction s as [|i s IH]; intros r; [reflexivity|]. cbn [set_fields_of].
  destruct (seek (i_field i) r) as [| |q rest]; try reflexivity.
  pose proof (find_value_aligned A B R fs fs' (q_key q) Al) as F.
  destruct (find_value (q_key q) fs), (find_value (q_key q) fs'); try contradiction.
  - rewrite (Hv _ _ _ F), IH. reflexivity.
  - rewrite IH. reflexivity.
Qed.

Section InjInd.
  Variable P : inj -> Prop.
  Hypothesis HS : forall f next, P next -> P (ISelect f next).
  Hypothesis HO : forall l, Forall (fun p => P (snd p)) l -> P (IObject l).
  Hypothesis HD : forall x, P (IDefault x).
  Hypothesis HI : P IIdentity.
  Fixpoint inj_ind2 (i : inj) : P i :=
    match i with
    | ISelect f next => HS f next (inj_ind2 next)
    | IObject l =>
        HO l ((fix go (l : list (nat * inj)) : Forall (fun p => P (snd p)) l :=
                 match l with
                 | [] => Forall_nil _
                 | p :: r => Forall_cons p (inj_ind2 (snd p)) (go r)
                 end) l)
    | IDefault x => HD x
    | IIdentity => HI
    end.
End InjInd.

Lemma natural_inject : natural (@inject_object).
Proof.
  intros A B R vv vv' d fs fs' [r i] Al Hv. unfold inject_object. cbn [fst snd].
  induction i as [f next IH|l IH|x|] using inj_ind2; try reflexivity.
  - cbn [inject]. destruct (find (fun q => Nat.eqb (q_field q) f) r) as [q|]; [|reflexivity].
    pose proof (find_value_aligned A B R fs fs' (q_key q) Al) as F.
    destruct (find_value (q_key q) fs), (find_value (q_key q) fs'); try contradiction; [|reflexivity].
    apply Hv. exact F.
  - cbn [inject]. f_equal. generalize r at 2 4. induction IH as [|[k i] l Hi _ IHl]; intros r'; [reflexivity|].
    cbn [snd] in Hi. destruct i as [f next|l'|x|]; cbn [entries].
    + destruct (seek f r') as [| |q rest]; [reflexivity|apply IHl|].
      pose proof (find_value_aligned A B R fs fs' (q_key q) Al) as F.
      destruct (find_value (q_key q) fs), (find_value (q_key q) fs'); try contradiction.
      * rewrite (Hv _ _ _ F), IHl. reflexivity.
      * rewrite IHl. reflexivity.
    + rewrite Hi, IHl. reflexivity.
    + rewrite IHl. reflexivity.
    + reflexivity.
Qed.

(** ** Trees *)

Section Trees.
  Variable V : Type.
  Variable object : object_view V.
  Hypothesis Nat_ : natural object.

  Fixpoint tview (fuel : nat) (w : V) (t : tree) : vres out :=
    match fuel with
    | O => VFuel
    | S n =>
        match t with
        | TLeaf v => leaf v
        | TList _ l => vbind (vall (map (tview n w) l)) (fun l => VOk (OList l))
        | TObj _ d fs => object tree (tview n) d fs w
        | TInacc _ t => tview n w t
        end
    end.

  Lemma freps_aligned : forall (R : val -> tree -> Prop) (fs : fields) ts, map fst fs = map fst ts ->
    Forall2 R (map snd fs) (map snd ts) -> aligned R fs ts.
  Proof.
    intros R fs. induction fs as [|f fs IH]; intros [|t ts] E F; try discriminate; [constructor|].
    cbn [map] in *. inversion F; subst. injection E as E1 E2. constructor; [split; assumption|].
    apply IH; assumption.
  Qed.

  Lemma view_tview : forall ps n w v t, rep ps v t -> view V object ps n w v = tview n w t.
  Proof.
    intros ps n. induction n as [|n IH]; intros w v t R; [reflexivity|].
    inversion R as [v' L|i vs ts G F|i d fs ts G E F|i v' t' G R']; subst; cbn [view tview].
    - destruct v; try discriminate L; reflexivity.
    - rewrite G. f_equal. f_equal. clear G R. induction F as [|a b vs ts Rab F IHF]; [reflexivity|].
      cbn [map]. rewrite (IH w a b Rab), IHF. reflexivity.
    - rewrite G. cbn [o_def o_fields]. apply (Nat_ _ _ (rep ps)).
      + apply freps_aligned; assumption.
      + intros w' a b Rab. apply IH. exact Rab.
    - rewrite G. apply IH. exact R'.
  Qed.

  (** The same but for what is hidden. *)
  Inductive sim : tree -> tree -> Prop :=
  | SimLeaf v : sim (TLeaf v) (TLeaf v)
  | SimList i l l' : Forall2 sim l l' -> sim (TList i l) (TList i l')
  | SimObj i d fs fs' :
      Forall2 (fun f g => fst f = fst g /\ sim (snd f) (snd g)) fs fs' -> sim (TObj i d fs) (TObj i d fs')
  | SimLeft i t t' : sim t t' -> sim (TInacc i t) t'
  | SimRight i t t' : sim t t' -> sim t (TInacc i t').

  Lemma depth_list_lt : forall i l t n, In t l -> depth (TList i l) < S n -> depth t < n.
  Proof. intros i l t n I D. cbn [depth] in D. pose proof (depth_in_list t l I). lia. Qed.
  Lemma depth_obj_lt : forall i d fs f n, In f fs -> depth (TObj i d fs) < S n -> depth (snd f) < n.
  Proof.
    intros i d fs f n I D. cbn [depth] in D.
    assert (H : depth (snd f) <= fold_right (fun f n => Nat.max (depth (snd f)) n) 0 fs).
    { clear D. induction fs as [|g fs IH]; [destruct I|]. cbn [fold_right].
      destruct I as [->|I]; [lia|]. specialize (IH I). lia. }
    lia.
  Qed.

  Lemma sim_list_in : forall l l', Forall2 sim l l' -> Forall2 (fun a b => sim a b /\ In a l /\ In b l') l l'.
  Proof.
    intros l l' F. induction F as [|a b l l' S F IH]; constructor.
    - split; [exact S|]. split; left; reflexivity.
    - eapply forall2_impl; [|exact IH]. cbn. intros x y (H1 & H2 & H3). auto.
  Qed.

  Lemma tview_sim_k : forall k n m w t t', n + m <= k -> sim t t' -> depth t < n -> depth t' < m ->
    tview n w t = tview m w t'.
  Proof.
    induction k as [|k IH]; intros n m w t t' K S Dn Dm; [lia|].
    destruct n as [|n]; [lia|]. destruct m as [|m]; [lia|].
    inversion S as [v|i l l' F|i d fs fs' F|i t0 t0' S0|i t0 t0' S0]; subst.
    - reflexivity.
    - cbn [tview]. f_equal. f_equal.
      assert (G : forall a b, sim a b -> In a l -> In b l' -> tview n w a = tview m w b).
      { intros a b Sab Ia Ib. apply IH; [lia|exact Sab| |].
        - exact (depth_list_lt i l a n Ia Dn).
        - exact (depth_list_lt i l' b m Ib Dm). }
      apply map_forall2. eapply forall2_impl; [|exact (sim_list_in l l' F)].
      intros a b (Sab & Ia & Ib). exact (G a b Sab Ia Ib).
    - cbn [tview].
      apply (Nat_ _ _ (fun a b => sim a b /\ depth a < n /\ depth b < m)).
      + assert (G : forall f g, In f fs -> In g fs' -> depth (snd f) < n /\ depth (snd g) < m).
        { intros f g If Ig. split.
          - exact (depth_obj_lt i d fs f n If Dn).
          - exact (depth_obj_lt i d fs' g m Ig Dm). }
        clear - F G. unfold aligned. induction F as [|f g fs fs' [E Sfg] F IHF]; constructor.
        * split; [exact E|]. split; [exact Sfg|]. apply G; left; reflexivity.
        * apply IHF. intros f' g' If Ig. apply G; right; assumption.
      + intros w' a b (Sab & Da & Db). apply IH; [lia|exact Sab|exact Da|exact Db].
    - change (tview (Datatypes.S n) w (TInacc i t0)) with (tview n w t0).
      cbn [depth] in Dn. apply IH; [lia|exact S0|lia|exact Dm].
    - change (tview (Datatypes.S m) w (TInacc i t0')) with (tview m w t0').
      cbn [depth] in Dm. apply IH; [lia|exact S0|exact Dn|lia].
  Qed.

  Lemma tview_sim : forall n m w t t', sim t t' -> depth t < n -> depth t' < m -> tview n w t = tview m w t'.
  Proof. intros n m w t t'. apply (tview_sim_k (n + m)). lia. Qed.
End Trees.

Lemma sim_refl : forall t, sim t t.
Proof.
  intros t. induction t as [v|i l IH|i d fs IH|i t IH] using tree_ind2.
  - constructor.
  - constructor. induction IH; constructor; assumption.
  - constructor. induction fs as [|f fs IHf]; constructor.
    + cbn [map] in IH. inversion IH; subst. split; [reflexivity|assumption].
    + apply IHf. cbn [map] in IH. inversion IH; subst. assumption.
  - apply SimLeft. apply SimRight. exact IH.
Qed.

Lemma sim_mark : forall v nid t, sim t (mark v nid t).
Proof.
  intros v nid t. induction t as [x|i l IH|i d fs IH|i t IH] using tree_ind2.
  - constructor.
  - rewrite mark_list_eq. constructor. generalize 0 as n.
    induction IH as [|x l Hx _ IHl]; intros n; [constructor|]. cbn [mark_list]. constructor; [|apply IHl].
    destruct (hiti [v] i n); [apply SimRight|]; exact Hx.
  - change (mark v nid (TObj i d fs)) with (TObj i d (mark_fields v nid i fs)). constructor.
    induction fs as [|f fs IHf]; [constructor|].
    cbn [map] in IH. inversion IH; subst. cbn [mark_fields map]. constructor; [|apply IHf; assumption].
    cbn [fst snd]. split; [reflexivity|].
    destruct (hitf [v] i (fst f)); [apply SimRight|]; assumption.
  - cbn [mark]. apply SimLeft. apply SimRight. exact IH.
Qed.

Lemma sim_trans : forall a b c, sim a b -> sim b c -> sim a c.
Proof.
  assert (G : forall k a b c, depth a + depth b + depth c < k -> sim a b -> sim b c -> sim a c).
  { induction k as [|k IH]; intros a b c K S1 S2; [lia|].
    inversion S1 as [v|i l l' F|i d fs fs' F|i t0 t0' S0|i t0 t0' S0]; subst.
    - exact S2.
    - inversion S2 as [|i' l2 l2' F2| | |i' t2 t2' S2']; subst.
      + constructor.
        assert (Q : forall x y z, In x l -> In y l' -> In z l2' -> sim x y -> sim y z -> sim x z).
        { intros x y z Ix Iy Iz. apply IH. cbn [depth] in K.
          pose proof (depth_in_list x l Ix). pose proof (depth_in_list y l' Iy). pose proof (depth_in_list z l2' Iz). lia. }
        clear - F F2 Q. revert l2' F2 Q. induction F as [|x y l l' Sxy F IHF]; intros l2 F2 Q; inversion F2; subst; constructor.
        * eapply Q; [left; reflexivity|left; reflexivity|left; reflexivity|eassumption|eassumption].
        * apply IHF; [assumption|]. intros x' y' z' Hx Hy Hz. apply Q; right; assumption.
      + apply SimRight. apply (IH _ (TList i l')); [cbn [depth] in *; lia|constructor; assumption|assumption].
    - inversion S2 as [| |i' d' fs2 fs2' F2| |i' t2 t2' S2']; subst.
      + constructor.
        assert (DF : forall f (gs : list (rkey * tree)), In f gs -> depth (snd f) < depth (TObj i d gs)).
        { intros f gs If. apply (depth_obj_lt i d gs f _ If). lia. }
        assert (Q : forall x y z, In x fs -> In y fs' -> In z fs2' -> sim (snd x) (snd y) -> sim (snd y) (snd z) -> sim (snd x) (snd z)).
        { intros x y z Ix Iy Iz. apply IH. pose proof (DF x fs Ix). pose proof (DF y fs' Iy). pose proof (DF z fs2' Iz). lia. }
        clear - F F2 Q. revert fs2' F2 Q. induction F as [|x y l l' [Exy Sxy] F IHF]; intros l2 F2 Q; inversion F2 as [|? z ? ? [Eyz Syz] F2']; subst; constructor.
        * split; [congruence|]. apply (Q x y z); try (left; reflexivity); assumption.
        * apply IHF; [assumption|]. intros x' y' z' Hx Hy Hz. apply Q; right; assumption.
      + apply SimRight. apply (IH _ (TObj i d fs')); [cbn [depth] in *; lia|constructor; assumption|assumption].
    - apply SimLeft. apply (IH _ b); [cbn [depth] in K; lia|assumption|exact S2].
    - inversion S2 as [| | |i' t2 t2' S2'|i' t2 t2' S2']; subst.
      + apply (IH _ t0'); [cbn [depth] in K; lia|assumption|assumption].
      + apply SimRight. apply (IH _ (TInacc i t0')); [cbn [depth] in *; lia|constructor; assumption|assumption]. }
  intros a b c. apply (G (S (depth a + depth b + depth c))). lia.
Qed.
