From Coq Require Import List Arith Bool Lia.
From Verif.Requires Require Import Model Spec.
Import ListNotations.

(** * Nested induction over requirement trees *)
Fixpoint req_size (r : req) : nat := match r with Item _ sub => S (list_sum (map req_size sub)) end.
Definition set_size (s : list req) : nat := list_sum (map req_size s).
Lemma in_size : forall it s, In it s -> req_size it <= set_size s.
Proof.
  unfold set_size. intros it s. induction s as [|x s IH]; intros I; [destruct I|]. change (map req_size (x :: s)) with (req_size x :: map req_size s).
  change (list_sum (req_size x :: map req_size s)) with (req_size x + list_sum (map req_size s)).
  destruct I as [->|I]; [lia|]. specialize (IH I). lia.
Qed.

Lemma occurs_nil : forall f, ~ occurs f [].
Proof. intros f H. inversion H as [sub s I|g sub s I]; destruct I. Qed.
Lemma occurs_cons : forall f it s, occurs f (it :: s) <-> occurs f [it] \/ occurs f s.
Proof.
  intros f it s. split.
  - intros H. inversion H as [sub s' I|g sub s' I O]; subst; destruct I as [->|I].
    + left. eapply Here. left; reflexivity.
    + right. eapply Here; exact I.
    + left. eapply Below; [left; reflexivity|exact O].
    + right. eapply Below; [exact I|exact O].
  - intros [H|H]; inversion H as [sub s' I|g sub s' I O]; subst.
    + destruct I as [->|[]]. eapply Here. left; reflexivity.
    + destruct I as [->|[]]. eapply Below; [left; reflexivity|exact O].
    + eapply Here. right; exact I.
    + eapply Below; [right; exact I|exact O].
Qed.
Lemma occurs_one : forall f g sub, occurs f [Item g sub] <-> f = g \/ occurs f sub.
Proof.
  intros f g sub. split.
  - intros H. inversion H as [sub' s' I|g' sub' s' I O]; subst; destruct I as [E|[]]; injection E as -> ->; auto.
  - intros [->|O]; [eapply Here|eapply Below; [|exact O]]; left; reflexivity.
Qed.

(** * Termination *)
(** How one popped record changes the stack. *)
Definition grow1 (o : operation) (rs : list (list req)) (it : req) : list (list req) :=
  match it with Item f sub => push_set (df_requires (field o f)) (sub :: rs) end.
Definition grow (o : operation) (s : list req) (rs : list (list req)) : list (list req) := fold_left (grow1 o) s rs.
Lemma push_set_app : forall s a b, push_set s (a ++ b) = push_set s a ++ b.
Proof. intros [|]; reflexivity. Qed.
Lemma grow_app : forall o s a b, grow o s (a ++ b) = grow o s a ++ b.
Proof.
  intros o s. unfold grow. induction s as [|[f sub] s IH]; intros a b; [reflexivity|]. cbn [fold_left grow1].
  rewrite <- IH. rewrite <- push_set_app. reflexivity.
Qed.

Inductive halts (o : operation) : list (list req) -> Prop :=
| Done : halts o []
| Pop : forall s rest, halts o (grow o s rest) -> halts o (s :: rest).
Lemma halts_app : forall o a b, halts o a -> halts o b -> halts o (a ++ b).
Proof.
  intros o a b H. induction H as [|s rest H IH]; intros Hb; [exact Hb|]. cbn [app]. apply Pop. rewrite grow_app. auto.
Qed.
Lemma halts_push : forall o s rs, halts o [s] -> halts o rs -> halts o (push_set s rs).
Proof. intros o [|x s] rs A B; [exact B|]. apply (halts_app o [x :: s] rs); assumption. Qed.
Lemma halts_grow : forall o s rs, (forall f sub, In (Item f sub) s -> halts o [sub] /\ halts o [df_requires (field o f)]) ->
  halts o rs -> halts o (grow o s rs).
Proof.
  intros o s. unfold grow. induction s as [|[f sub] s IH]; intros rs H Hr; [exact Hr|]. cbn [fold_left grow1].
  destruct (H f sub (or_introl eq_refl)) as [A B]. apply IH.
  - intros g u I. apply (H g u). right; exact I.
  - apply halts_push; [exact B|]. apply (halts_app o [sub] rs); assumption.
Qed.
Lemma acyclic_halts : forall o, acyclic o -> forall s, halts o [s].
Proof.
  intros o (rank & R).
  assert (K : forall k n s, (forall f, occurs f s -> rank f < k) -> set_size s <= n -> halts o [s]).
  { induction k as [|k IHk].
    - intros n s H Z. destruct s as [|[f sub] s]; [apply Pop; apply Done|].
      exfalso. specialize (H f). assert (occurs f (Item f sub :: s)) as O by (eapply Here; left; reflexivity). specialize (H O). lia.
    - intros n. induction n as [|n IHn]; intros s H Z.
      + destruct s as [|[f sub] s]; [apply Pop; apply Done|]. exfalso.
        pose proof (in_size (Item f sub) (Item f sub :: s) (or_introl eq_refl)) as L. cbn [req_size] in L. lia.
      + apply Pop. apply halts_grow; [|apply Done]. intros f sub I. split.
        * apply IHn.
          -- intros g O. apply H. eapply Below; [exact I|exact O].
          -- pose proof (in_size _ _ I) as L. cbn [req_size] in L. unfold set_size in *. lia.
        * apply (IHk (set_size (df_requires (field o f)))); [|lia]. intros g O. apply R in O.
          assert (occurs f s) as Of by (eapply Here; exact I). apply H in Of. lia. }
  intros s. apply (K (S (list_max (map rank (flat_map (fix all r := match r with Item f sub => f :: flat_map all sub end) s)))) (set_size s)); [|lia].
  intros f O. apply Nat.lt_succ_r. set (all := fix all r := match r with Item f sub => f :: flat_map all sub end).
  assert (I : In f (flat_map all s)).
  { induction O as [sub s I|g sub s I O IH].
    - apply in_flat_map. exists (Item f sub). split; [exact I|left; reflexivity].
    - apply in_flat_map. exists (Item g sub). split; [exact I|right; exact IH]. }
  pose proof (proj1 (list_max_le (map rank (flat_map all s)) _) (le_n _)) as F. rewrite Forall_forall in F. apply F. apply in_map. exact I.
Qed.
Lemma halts_all : forall o, acyclic o -> forall rs, halts o rs.
Proof.
  intros o A rs. induction rs as [|s rs IH]; [apply Done|]. apply (halts_app o [s] rs); [apply acyclic_halts; exact A|exact IH].
Qed.

Lemma fold_item_stack : forall o s b rs ds, snd (fst (fold_left (item o) s (b, rs, ds))) = grow o s rs.
Proof.
  intros o s. induction s as [|[f sub] s IH]; intros b rs ds; [reflexivity|]. cbn [fold_left item]. rewrite IH. reflexivity.
Qed.
Lemma pop_loop_halts : forall o rs, halts o rs -> exists n, forall fuel b ds, n <= fuel -> exists r, pop_loop fuel o b rs ds = Some r.
Proof.
  intros o rs H. induction H as [|s rest H (n & IH)].
  - exists 0. intros fuel b ds _. exists (b, ds). destruct fuel; reflexivity.
  - exists (S n). intros [|fuel] b ds L; [lia|]. cbn [pop_loop].
    pose proof (fold_item_stack o s b rest ds) as E. destruct (fold_left (item o) s (b, rest, ds)) as [[b' rs'] ds'] eqn:Ef.
    cbn [fst snd] in E. subst rs'. apply IH. lia.
Qed.
Lemma pop_loop_more : forall o n b rs ds r m, pop_loop n o b rs ds = Some r -> n <= m -> pop_loop m o b rs ds = Some r.
Proof.
  intros o n. induction n as [|n IH]; intros b rs ds r m H L.
  - destruct rs; [destruct m; exact H|discriminate H].
  - destruct rs as [|s rest]; [destruct m; exact H|]. destruct m as [|m]; [lia|]. cbn [pop_loop] in *.
    destruct (fold_left (item o) s (b, rest, ds)) as [[b' rs'] ds']. apply IH; [exact H|lia].
Qed.
Lemma loop_more : forall o inc n b rs ds r m, loop n o inc b rs ds = Some r -> n <= m -> loop m o inc b rs ds = Some r.
Proof.
  intros o inc n. induction n as [|n IH]; intros b rs ds r m H L.
  - destruct rs, ds; try discriminate H. destruct m; exact H.
  - destruct m as [|m]; [lia|]. cbn [loop] in *.
    assert (G : forall B R, match pop_loop n o B R [] with None => None | Some (b', ds') => loop n o inc b' [] ds' end = Some r ->
                match pop_loop m o B R [] with None => None | Some (b', ds') => loop m o inc b' [] ds' end = Some r).
    { intros B R G. destruct (pop_loop n o B R []) as [[b' ds']|] eqn:E; [|discriminate G].
      rewrite (pop_loop_more _ _ _ _ _ _ m E) by lia. apply IH; [exact G|lia]. }
    destruct rs as [|s rest]; [destruct ds as [|d ds]; [exact H|]|]; apply G; exact H.
Qed.

(** Number of fields not yet requested. *)
Definition unset (o : operation) (b : bits) : nat := length (filter (fun i => negb (b i)) (seq 0 (length (op_fields o)))).
Lemma filter_le : forall (A : Type) (p q : A -> bool) l, (forall x, p x = true -> q x = true) -> length (filter p l) <= length (filter q l).
Proof.
  intros A p q l H. induction l as [|x l IH]; [cbn; lia|]. cbn [filter]. specialize (H x). destruct (p x); [rewrite H by reflexivity; cbn; lia|].
  destruct (q x); cbn [length]; lia.
Qed.
Lemma filter_lt : forall (A : Type) (p q : A -> bool) l y, (forall x, p x = true -> q x = true) -> In y l -> p y = false -> q y = true ->
  length (filter p l) < length (filter q l).
Proof.
  intros A p q l y H. induction l as [|x l IH]; intros I P Q; [destruct I|]. cbn [filter]. pose proof (filter_le A p q l H).
  destruct I as [->|I].
  - rewrite P, Q. cbn [length]. lia.
  - specialize (IH I P Q). specialize (H x). destruct (p x); [rewrite H by reflexivity; cbn [length]; lia|].
    destruct (q x); cbn [length]; lia.
Qed.
Definition le_bits (b b' : bits) : Prop := forall i, b i = true -> b' i = true.
Lemma set_le : forall b i, le_bits b (set b i true).
Proof. intros b i j H. unfold set. destruct (j =? i); [reflexivity|exact H]. Qed.
Lemma le_trans_bits : forall a b c, le_bits a b -> le_bits b c -> le_bits a c.
Proof. unfold le_bits. auto. Qed.
Lemma unset_le : forall o b b', le_bits b b' -> unset o b' <= unset o b.
Proof.
  intros o b b' H. apply filter_le. intros x E. apply negb_true_iff in E. apply negb_true_iff. destruct (b x) eqn:Bx; [|reflexivity].
  apply H in Bx. congruence.
Qed.
Lemma unset_set : forall o b d, d < length (op_fields o) -> b d = false -> unset o (set b d true) < unset o b.
Proof.
  intros o b d L B. apply (filter_lt _ _ _ _ d).
  - intros x E. apply negb_true_iff in E. apply negb_true_iff. destruct (b x) eqn:Bx; [|reflexivity]. pose proof (set_le b d x Bx). congruence.
  - apply in_seq. lia.
  - unfold set. rewrite Nat.eqb_refl. reflexivity.
  - rewrite B. reflexivity.
Qed.

Lemma drain_fold : forall o inc l b rs, (forall d, In d l -> d < length (op_fields o)) ->
  let st := fold_left (drain1 o inc) l (b, rs) in
  le_bits b (fst st) /\ (st = (b, rs) \/ unset o (fst st) < unset o b).
Proof.
  intros o inc l. induction l as [|d l IH]; intros b rs R; cbn [fold_left].
  - split; [intros i; auto|left; reflexivity].
  - unfold drain1 at 2 4 6. cbn [fst snd]. destruct (b d) eqn:Bd.
    + apply IH. intros x I. apply R. right; exact I.
    + match goal with |- context[fold_left _ l (?B, ?R)] => destruct (IH B R) as [A C] end.
      * intros x I. apply R. right; exact I.
      * cbv zeta. split; [eapply le_trans_bits; [apply set_le|exact A]|]. right.
        assert (unset o (set b d true) < unset o b) by (apply unset_set; [apply R; left; reflexivity|exact Bd]).
        destruct C as [C|C]; [rewrite C; cbn [fst]; exact H|lia].
Qed.
Lemma item_fold : forall o, well_formed o -> forall s b rs ds, (forall f, occurs f s -> f < length (op_fields o)) ->
  (forall d, In d ds -> d < length (op_fields o)) -> (forall u f, In u rs -> occurs f u -> f < length (op_fields o)) ->
  let st := fold_left (item o) s (b, rs, ds) in
  le_bits b (fst (fst st)) /\ (forall d, In d (snd st) -> d < length (op_fields o)) /\
  (forall u f, In u (snd (fst st)) -> occurs f u -> f < length (op_fields o)).
Proof.
  intros o (WP & WF) s. induction s as [|[f sub] s IH]; intros b rs ds Hs Hd Hr; cbn [fold_left].
  - split; [intros i; auto|]. split; assumption.
  - cbn [item]. match goal with |- context[fold_left _ s (?B, ?R, ?D)] => destruct (IH B R D) as (A & C & E) end.
    + intros g O. apply Hs. apply occurs_cons. right; exact O.
    + intros d I. destruct (df_derive (field o f)) as [e|] eqn:De; cbn [push_derive] in I; [|auto].
      destruct I as [<-|I]; [|auto]. apply (WF f). auto.
    + intros u g I O.
      assert (P : In u (df_requires (field o f) :: sub :: rs)).
      { destruct (df_requires (field o f)); [right; exact I|exact I]. }
      destruct P as [<-|[<-|P]].
      * apply (WF f). auto.
      * apply Hs. eapply Below; [left; reflexivity|exact O].
      * eapply Hr; eassumption.
    + cbv zeta. split; [eapply le_trans_bits; [apply set_le|exact A]|]. split; assumption.
Qed.
Lemma pop_loop_in_range : forall o, well_formed o -> forall fuel b rs ds r, (forall d, In d ds -> d < length (op_fields o)) ->
  (forall u f, In u rs -> occurs f u -> f < length (op_fields o)) -> pop_loop fuel o b rs ds = Some r ->
  le_bits b (fst r) /\ (forall d, In d (snd r) -> d < length (op_fields o)).
Proof.
  intros o W fuel. induction fuel as [|fuel IH]; intros b rs ds r Hd Hr H.
  - destruct rs; [|discriminate H]. injection H as <-. cbn [fst snd]. split; [intros i; auto|exact Hd].
  - destruct rs as [|s rest]; [injection H as <-; cbn [fst snd]; split; [intros i; auto|exact Hd]|]. cbn [pop_loop] in H.
    destruct (item_fold o W s b rest ds) as (A & C & E).
    + intros f O. apply (Hr s f); [left; reflexivity|exact O].
    + exact Hd.
    + intros u f I. apply (Hr u f). right; exact I.
    + destruct (fold_left (item o) s (b, rest, ds)) as [[b' rs'] ds']. cbn [fst snd] in *. apply IH in H; [|assumption|assumption].
      destruct H as [H1 H2]. split; [eapply le_trans_bits; eassumption|exact H2].
Qed.
Lemma drain_in_range : forall o inc, well_formed o -> forall l b rs, (forall u f, In u rs -> occurs f u -> f < length (op_fields o)) ->
  forall u f, In u (snd (fold_left (drain1 o inc) l (b, rs))) -> occurs f u -> f < length (op_fields o).
Proof.
  intros o inc (WP & WF) l. induction l as [|d l IH]; intros b rs Hr; [exact Hr|]. cbn [fold_left]. unfold drain1 at 2. cbn [fst snd].
  destruct (b d); [apply IH; exact Hr|]. apply IH. intros u f I O. destruct (negb (inc d)); [|eapply Hr; eassumption].
  assert (P : In u (df_requires (field o d) :: rs)) by (destruct (df_requires (field o d)); [right; exact I|exact I]).
  destruct P as [<-|P]; [apply (WF d); auto|eapply Hr; eassumption].
Qed.

Lemma no_derive : forall m (d : nat), In d [] -> d < m.
Proof. intros m d []. Qed.
Lemma no_stack : forall m (u : list req) f, In u [] -> occurs f u -> f < m.
Proof. intros m u f []. Qed.
Lemma loop_halts_derive : forall o inc, well_formed o -> acyclic o -> forall m b ds, unset o b <= m -> (forall d, In d ds -> d < length (op_fields o)) ->
  exists fuel r, loop fuel o inc b [] ds = Some r.
Proof.
  intros o inc W A m. induction m as [|m IH]; intros b ds L R.
  - destruct ds as [|d ds]; [exists 0, b; reflexivity|].
    destruct (drain_fold o inc (rev (d :: ds)) b []) as [Le [E|E]]; [intros x I; apply R, in_rev; exact I| |lia].
    exists 1, b. cbn [loop]. unfold drain. rewrite E. cbn [fst snd pop_loop]. reflexivity.
  - destruct ds as [|d ds]; [exists 0, b; reflexivity|].
    destruct (drain_fold o inc (rev (d :: ds)) b []) as [Le [E|E]]; [intros x I; apply R, in_rev; exact I| |].
    + exists 1, b. cbn [loop]. unfold drain. rewrite E. cbn [fst snd pop_loop]. reflexivity.
    + set (st := fold_left (drain1 o inc) (rev (d :: ds)) (b, [])) in *.
      destruct (pop_loop_halts o (snd st) (halts_all o A _)) as (n & Hn).
      destruct (Hn n (fst st) [] (le_n _)) as ([b' ds'] & Hp).
      destruct (pop_loop_in_range o W _ _ _ _ _ (no_derive _)
        (drain_in_range o inc W (rev (d :: ds)) b [] (no_stack _)) Hp) as [Le' Rd']. cbn [fst snd] in *.
      pose proof (unset_le o _ _ Le').
      destruct (IH b' ds') as (fuel & r & Hl); [lia|exact Rd'|].
      exists (S (n + fuel)), r. cbn [loop]. unfold drain. fold st. rewrite (pop_loop_more _ _ _ _ _ _ (n + fuel) Hp) by lia.
      apply (loop_more _ _ _ _ _ _ _ _ Hl). lia.
Qed.
Lemma loop_halts : forall o inc, well_formed o -> acyclic o -> forall b rs ds, (forall d, In d ds -> d < length (op_fields o)) ->
  (forall u f, In u rs -> occurs f u -> f < length (op_fields o)) ->
  exists fuel r, loop fuel o inc b rs ds = Some r.
Proof.
  intros o inc W A b rs ds Rd Rr. destruct rs as [|s rs]; [apply (loop_halts_derive o inc W A (unset o b)); [lia|exact Rd]|].
  set (st := fold_left (drain1 o inc) (rev ds) (b, s :: rs)).
  destruct (pop_loop_halts o (snd st) (halts_all o A _)) as (n & Hn).
  destruct (Hn n (fst st) [] (le_n _)) as ([b' ds'] & Hp).
  destruct (pop_loop_in_range o W _ _ _ _ _ (no_derive _)
    (drain_in_range o inc W (rev ds) b (s :: rs) Rr) Hp) as [Le' Rd']. cbn [fst snd] in *.
  destruct (loop_halts_derive o inc W A (unset o b') b' ds' (le_n _) Rd') as (fuel & r & Hl).
  exists (S (n + fuel)), r. cbn [loop]. unfold drain. fold st. rewrite (pop_loop_more _ _ _ _ _ _ (n + fuel) Hp) by lia.
  apply (loop_more _ _ _ _ _ _ _ _ Hl). lia.
Qed.

(** * Correctness of the result *)
Section Correct.
Variable o : operation.
Variable inc : bits.
Hypothesis W : well_formed o.
Hypothesis DF : derived_from_fetched o.
Notation n := (length (op_fields o)).
Notation included f := (f < n /\ inc f = true).

(** Everything in a set is requested already or pending on the stack. *)
Definition covered (b : bits) (rs : list (list req)) (s : list req) : Prop :=
  forall f, occurs f s -> b f = true \/ exists u, In u rs /\ occurs f u.
Definition covered_derive (b : bits) (ds : list nat) (d : option nat) : Prop :=
  forall f, d = Some f -> b f = true \/ In f ds.
Record complete (b : bits) (rs : list (list req)) (ds : list nat) : Prop :=
  { k_partitions : forall s, In s (op_partitions o) -> covered b rs s;
    k_super : forall f, included f -> covered b rs (df_super (field o f));
    k_requires : forall f, included f \/ b f = true -> covered b rs (df_requires (field o f));
    k_derive : forall f, included f \/ b f = true -> covered_derive b ds (df_derive (field o f)) }.
Record sound (b0 b : bits) (rs : list (list req)) (ds : list nat) : Prop :=
  { s_bits : forall f, b f = true -> b0 f = true \/ needed o inc f;
    s_keep : forall f, b0 f = true -> b f = true;
    s_stack : forall u f, In u rs -> occurs f u -> needed o inc f;
    s_derive : forall f, In f ds -> needed o inc f }.

Lemma covered_mono : forall b rs b' rs' s, le_bits b b' ->
  (forall u f, In u rs -> occurs f u -> b' f = true \/ exists u', In u' rs' /\ occurs f u') -> covered b rs s -> covered b' rs' s.
Proof.
  intros b rs b' rs' s L P C f O. destruct (C f O) as [E|(u & I & Ou)]; [left; apply L; exact E|eauto].
Qed.
Lemma in_push : forall u s rs, In u rs -> In u (push_set s rs).
Proof. intros u [|x s] rs I; [exact I|right; exact I]. Qed.
Lemma covered_push : forall b s rs, covered b (push_set s rs) s.
Proof. intros b s rs f O. destruct s as [|x s]; [destruct (occurs_nil f O)|]. right. exists (x :: s). split; [left; reflexivity|exact O]. Qed.
Lemma in_push_derive : forall d f ds, In f ds -> In f (push_derive d ds).
Proof. intros [e|] f ds I; [right; exact I|exact I]. Qed.

(** One item of a popped record. *)
Lemma complete_item : forall b rs ds g sub s, complete b ((Item g sub :: s) :: rs) ds ->
  complete (set b g true) (s :: push_set (df_requires (field o g)) (sub :: rs)) (push_derive (df_derive (field o g)) ds).
Proof.
  intros b rs ds g sub s K.
  assert (M : forall x, covered b ((Item g sub :: s) :: rs) x -> covered (set b g true) (s :: push_set (df_requires (field o g)) (sub :: rs)) x).
  { intros x. apply covered_mono; [apply set_le|]. intros u f [<-|I] O.
    - apply occurs_cons in O. destruct O as [O|O].
      + apply occurs_one in O. destruct O as [->|O]; [left; unfold set; rewrite Nat.eqb_refl; reflexivity|].
        right. exists sub. split; [right; apply in_push; left; reflexivity|exact O].
      + right. exists s. split; [left; reflexivity|exact O].
    - right. exists u. split; [right; apply in_push; right; exact I|exact O]. }
  assert (Cases : forall f, included f \/ set b g true f = true -> f = g \/ included f \/ b f = true).
  { intros f [I|E]; [auto|]. unfold set in E. destruct (f =? g) eqn:Eq; [apply Nat.eqb_eq in Eq; auto|auto]. }
  constructor.
  - intros x I. apply M. apply (k_partitions _ _ _ K x I).
  - intros f I. apply M. apply (k_super _ _ _ K f I).
  - intros f H. destruct (Cases f H) as [->|H']; [|apply M; apply (k_requires _ _ _ K f H')].
    intros h O. destruct (covered_push (set b g true) (df_requires (field o g)) (sub :: rs) h O) as [E|(u & I & Ou)]; [auto|].
    right. exists u. split; [right; exact I|exact Ou].
  - intros f H h E. destruct (Cases f H) as [->|H'].
    + right. rewrite E. left; reflexivity.
    + destruct (k_derive _ _ _ K f H' h E) as [B|I]; [left; apply set_le; exact B|right; apply in_push_derive; exact I].
Qed.
Lemma complete_fold : forall s b rs ds, complete b (s :: rs) ds ->
  let st := fold_left (item o) s (b, rs, ds) in complete (fst (fst st)) (snd (fst st)) (snd st).
Proof.
  intros s. induction s as [|[g sub] s IH]; intros b rs ds K; cbn [fold_left].
  - cbv zeta. cbn [fst snd].
    assert (M : forall x, covered b ([] :: rs) x -> covered b rs x).
    { intros x. apply covered_mono; [intros i; auto|]. intros u f [<-|I] O; [destruct (occurs_nil f O)|]. right; eauto. }
    destruct K as [K1 K2 K3 K4]. constructor; auto.
  - cbn [item]. apply IH. apply complete_item. exact K.
Qed.
Lemma complete_pop : forall fuel b rs ds b' ds', complete b rs ds -> pop_loop fuel o b rs ds = Some (b', ds') -> complete b' [] ds'.
Proof.
  intros fuel. induction fuel as [|fuel IH]; intros b rs ds b' ds' K H; destruct rs as [|s rest]; try discriminate H.
  - injection H as <- <-. exact K.
  - injection H as <- <-. exact K.
  - cbn [pop_loop] in H. pose proof (complete_fold s b rest ds K) as K'. destruct (fold_left (item o) s (b, rest, ds)) as [[b1 rs1] ds1].
    cbn [fst snd] in K'. eapply IH; eassumption.
Qed.
(** One drained derive id. *)
Lemma complete_drain1 : forall b rs ds d, complete b rs (d :: ds) -> (forall e, In e (d :: ds) -> e < n /\ df_derive (field o e) = None) ->
  let st := drain1 o inc (b, rs) d in complete (fst st) (snd st) ds.
Proof.
  intros b rs ds d K R. unfold drain1. cbn [fst snd]. destruct (R d (or_introl eq_refl)) as [Ld Nd]. destruct (b d) eqn:Bd.
  - cbv zeta. cbn [fst snd]. destruct K as [K1 K2 K3 K4]. constructor; auto. intros f H h E.
    destruct (K4 f H h E) as [B|[<-|I]]; auto.
  - cbv zeta. cbn [fst snd]. set (rs' := if negb (inc d) then push_set (df_requires (field o d)) rs else rs).
    assert (M : forall x, covered b rs x -> covered (set b d true) rs' x).
    { intros x. apply covered_mono; [apply set_le|]. intros u f I O. right. exists u. split; [|exact O].
      unfold rs'. destruct (negb (inc d)); [apply in_push|]; exact I. }
    assert (Cases : forall f, included f \/ set b d true f = true -> (f = d /\ inc d = false) \/ included f \/ b f = true).
    { intros f [I|E]; [auto|]. unfold set in E. destruct (f =? d) eqn:Eq; [apply Nat.eqb_eq in Eq; subst f|auto].
      destruct (inc d) eqn:Id; auto. }
    constructor.
    + intros x I. apply M. apply (k_partitions _ _ _ K x I).
    + intros f I. apply M. apply (k_super _ _ _ K f I).
    + intros f H. destruct (Cases f H) as [[-> Id]|H']; [|apply M; apply (k_requires _ _ _ K f H')].
      unfold rs'. rewrite Id. apply covered_push.
    + intros f H h E. destruct (Cases f H) as [[-> Id]|H']; [congruence|].
      destruct (k_derive _ _ _ K f H' h E) as [B|[<-|I]]; [left; apply set_le; exact B| |right; exact I].
      left. unfold set. rewrite Nat.eqb_refl. reflexivity.
Qed.
Lemma complete_drain : forall l b rs, complete b rs l -> (forall e, In e l -> e < n /\ df_derive (field o e) = None) ->
  let st := fold_left (drain1 o inc) l (b, rs) in complete (fst st) (snd st) [].
Proof.
  intros l. induction l as [|d l IH]; intros b rs K R; [exact K|]. cbn [fold_left].
  pose proof (complete_drain1 b rs l d K R) as K'. destruct (drain1 o inc (b, rs) d) as [b' rs']. cbn [fst snd] in K'.
  apply IH; [exact K'|]. intros e I. apply R. right; exact I.
Qed.

(** Pending derive ids are targets of some derive. *)
Definition targets (ds : list nat) : Prop := forall e, In e ds -> exists g, df_derive (field o g) = Some e.
Lemma targets_ok : forall ds, targets ds -> forall e, In e ds -> e < n /\ df_derive (field o e) = None.
Proof. intros ds T e I. destruct (T e I) as (g & E). split; [apply (proj2 W g); auto|apply (DF g); exact E]. Qed.
Lemma targets_push : forall g ds, targets ds -> targets (push_derive (df_derive (field o g)) ds).
Proof.
  intros g ds T e I. destruct (df_derive (field o g)) as [d|] eqn:E; cbn [push_derive] in I; [|auto].
  destruct I as [<-|I]; [eauto|auto].
Qed.
Lemma targets_fold : forall s b rs ds, targets ds -> targets (snd (fold_left (item o) s (b, rs, ds))).
Proof. intros s. induction s as [|[g sub] s IH]; intros b rs ds T; [exact T|]. cbn [fold_left item]. apply IH. apply targets_push; exact T. Qed.
Lemma targets_pop : forall fuel b rs ds b' ds', targets ds -> pop_loop fuel o b rs ds = Some (b', ds') -> targets ds'.
Proof.
  intros fuel. induction fuel as [|fuel IH]; intros b rs ds b' ds' T H; destruct rs as [|s rest]; try discriminate H.
  - injection H as <- <-. exact T.
  - injection H as <- <-. exact T.
  - cbn [pop_loop] in H. pose proof (targets_fold s b rest ds T) as T'. destruct (fold_left (item o) s (b, rest, ds)) as [[b1 rs1] ds1].
    cbn [snd] in T'. eapply IH; eassumption.
Qed.
Lemma complete_rev : forall b rs ds, complete b rs ds -> complete b rs (rev ds).
Proof.
  intros b rs ds [K1 K2 K3 K4]. constructor; auto. intros f H h E. destruct (K4 f H h E) as [B|I]; [auto|right; apply in_rev; rewrite rev_involutive; exact I].
Qed.
Lemma complete_loop : forall fuel b rs ds r, complete b rs ds -> targets ds -> loop fuel o inc b rs ds = Some r -> complete r [] [].
Proof.
  intros fuel. induction fuel as [|fuel IH]; intros b rs ds r K T H.
  - destruct rs, ds; try discriminate H. injection H as <-. exact K.
  - cbn [loop] in H.
    assert (G : match pop_loop fuel o (fst (drain o inc b rs ds)) (snd (drain o inc b rs ds)) [] with
                | None => None | Some (b', ds') => loop fuel o inc b' [] ds' end = Some r -> complete r [] []).
    { clear H. intros H. destruct (pop_loop fuel o _ _ []) as [[b' ds']|] eqn:E; [|discriminate H].
      apply (IH b' [] ds'); [|eapply targets_pop; [|exact E]; intros e []|exact H].
      eapply complete_pop; [|exact E]. unfold drain. apply complete_drain; [apply complete_rev; exact K|].
      intros e I. apply (targets_ok ds T). apply in_rev; exact I. }
    destruct rs as [|s rest]; [destruct ds as [|d ds]; [injection H as <-; exact K|]|]; exact (G H).
Qed.

(** Soundness *)
Lemma occurs_push : forall u s rs, In u (push_set s rs) -> u = s \/ In u rs.
Proof. intros u [|x s] rs I; [auto|]. destruct I; auto. Qed.
Lemma sound_item : forall b0 b rs ds g sub s, sound b0 b ((Item g sub :: s) :: rs) ds ->
  sound b0 (set b g true) (s :: push_set (df_requires (field o g)) (sub :: rs)) (push_derive (df_derive (field o g)) ds).
Proof.
  intros b0 b rs ds g sub s [S1 S0 S2 S3].
  assert (Ng : needed o inc g).
  { apply (S2 (Item g sub :: s)); [left; reflexivity|]. eapply Here. left; reflexivity. }
  constructor.
  - intros f E. unfold set in E. destruct (f =? g) eqn:Eq; [apply Nat.eqb_eq in Eq; subst; auto|auto].
  - intros f E. apply set_le. auto.
  - intros u f [<-|I] O.
    + apply (S2 (Item g sub :: s)); [left; reflexivity|]. apply occurs_cons. auto.
    + apply occurs_push in I. destruct I as [->|[<-|I]].
      * apply (By_needed o inc g); auto.
      * apply (S2 (Item g sub :: s)); [left; reflexivity|]. eapply Below; [left; reflexivity|exact O].
      * apply (S2 u); [right; exact I|exact O].
  - intros f I. destruct (df_derive (field o g)) as [d|] eqn:E; cbn [push_derive] in I; [|auto].
    destruct I as [<-|I]; [|auto]. apply (By_needed o inc g); auto.
Qed.
Lemma sound_fold : forall b0 s b rs ds, sound b0 b (s :: rs) ds ->
  let st := fold_left (item o) s (b, rs, ds) in sound b0 (fst (fst st)) (snd (fst st)) (snd st).
Proof.
  intros b0 s. induction s as [|[g sub] s IH]; intros b rs ds K; cbn [fold_left].
  - cbv zeta. cbn [fst snd]. destruct K as [S1 S0 S2 S3]. constructor; auto. intros u f I. apply S2. right; exact I.
  - cbn [item]. apply IH. apply sound_item. exact K.
Qed.
Lemma sound_pop : forall b0 fuel b rs ds b' ds', sound b0 b rs ds -> pop_loop fuel o b rs ds = Some (b', ds') -> sound b0 b' [] ds'.
Proof.
  intros b0 fuel. induction fuel as [|fuel IH]; intros b rs ds b' ds' K H; destruct rs as [|s rest]; try discriminate H.
  - injection H as <- <-. exact K.
  - injection H as <- <-. exact K.
  - cbn [pop_loop] in H. pose proof (sound_fold b0 s b rest ds K) as K'. destruct (fold_left (item o) s (b, rest, ds)) as [[b1 rs1] ds1].
    cbn [fst snd] in K'. eapply IH; eassumption.
Qed.
Lemma sound_drain : forall b0 l b rs, sound b0 b rs l ->
  let st := fold_left (drain1 o inc) l (b, rs) in sound b0 (fst st) (snd st) [].
Proof.
  intros b0 l. induction l as [|d l IH]; intros b rs K; [exact K|]. cbn [fold_left].
  assert (K' : let st := drain1 o inc (b, rs) d in sound b0 (fst st) (snd st) l).
  { destruct K as [S1 S0 S2 S3]. unfold drain1. cbn [fst snd]. destruct (b d) eqn:Bd; cbv zeta; cbn [fst snd].
    - constructor; auto. intros f I. apply S3. right; exact I.
    - assert (Nd : needed o inc d) by (apply S3; left; reflexivity). constructor.
      + intros f E. unfold set in E. destruct (f =? d) eqn:Eq; [apply Nat.eqb_eq in Eq; subst; auto|auto].
      + intros f E. apply set_le. auto.
      + intros u f I O. destruct (negb (inc d)); [|eapply S2; eassumption]. apply occurs_push in I. destruct I as [->|I]; [|eapply S2; eassumption].
        apply (By_needed o inc d); auto.
      + intros f I. apply S3. right; exact I. }
  destruct (drain1 o inc (b, rs) d) as [b' rs']. apply IH. exact K'.
Qed.
Lemma sound_loop : forall b0 fuel b rs ds r, sound b0 b rs ds -> loop fuel o inc b rs ds = Some r -> sound b0 r [] [].
Proof.
  intros b0 fuel. induction fuel as [|fuel IH]; intros b rs ds r K H.
  - destruct rs, ds; try discriminate H. injection H as <-. exact K.
  - cbn [loop] in H.
    assert (G : match pop_loop fuel o (fst (drain o inc b rs ds)) (snd (drain o inc b rs ds)) [] with
                | None => None | Some (b', ds') => loop fuel o inc b' [] ds' end = Some r -> sound b0 r [] []).
    { clear H. intros H. destruct (pop_loop fuel o _ _ []) as [[b' ds']|] eqn:E; [|discriminate H].
      apply (IH b' [] ds'); [|exact H]. eapply sound_pop; [|exact E]. unfold drain. apply sound_drain.
      destruct K as [S1 S0 S2 S3]. constructor; auto. intros f I. apply S3. apply in_rev; exact I. }
    destruct rs as [|s rest]; [destruct ds as [|d ds]; [injection H as <-; exact K|]|]; exact (G H).
Qed.

(** The initial stacks. *)
Lemma init_fold : forall l st,
  (forall u, In u (fst (fold_left (init_field o) l st)) <->
     In u (fst st) \/ exists f, In f l /\ u <> [] /\ (u = df_requires (field o f) \/ u = df_super (field o f))) /\
  (forall d, In d (snd (fold_left (init_field o) l st)) <-> In d (snd st) \/ exists f, In f l /\ df_derive (field o f) = Some d).
Proof.
  assert (P : forall u s rs, In u (push_set s rs) <-> In u rs \/ (u = s /\ s <> [])).
  { intros u [|x s] rs; cbn [push_set].
    - split; [auto|]. intros [I|[_ N]]; [exact I|congruence].
    - split; [intros [<-|I]; [right; split; [reflexivity|discriminate]|auto]|intros [I|[-> _]]; [right; exact I|left; reflexivity]]. }
  intros l. induction l as [|g l IH]; intros st; cbn [fold_left].
  - split; intros x; split; [auto|intros [I|(f & [] & _)]; exact I|auto|intros [I|(f & [] & _)]; exact I].
  - destruct (IH (init_field o st g)) as [A B]. split.
    + intros u. rewrite A. unfold init_field. cbn [fst]. rewrite !P. split.
      * intros [[[I|[-> N]]|[-> N]]|(f & I & N & E)]; [auto|right; exists g; split; [left; reflexivity|auto]|right; exists g; split; [left; reflexivity|auto]|].
        right. exists f. split; [right; exact I|auto].
      * intros [I|(f & [<-|I] & N & [->| ->])]; [auto|left; left; right; auto|left; right; auto|right; eauto|right; eauto].
    + intros d. rewrite B. unfold init_field. cbn [snd]. split.
      * intros [I|(f & I & E)]; [|right; exists f; split; [right; exact I|exact E]].
        destruct (df_derive (field o g)) as [e|] eqn:De; cbn [push_derive] in I; [|auto].
        destruct I as [<-|I]; [right; exists g; split; [left; reflexivity|exact De]|auto].
      * intros [I|(f & [<-|I] & E)]; [left; apply in_push_derive; exact I|left; rewrite E; left; reflexivity|right; eauto].
Qed.
Lemma in_ones : forall f, In f (ones o inc) <-> included f.
Proof.
  intros f. unfold ones. rewrite filter_In, in_seq. split; [intros [[_ L] E]; split; [exact L|exact E]|intros [L E]; split; [split; [apply Nat.le_0_l|exact L]|exact E]].
Qed.
Lemma in_partitions : forall ps rs (u : list req), In u (fold_left (fun rs s => s :: rs) ps rs) <-> In u ps \/ In u rs.
Proof.
  intros ps. induction ps as [|p ps IH]; intros rs u; cbn [fold_left]; [cbn [In]; tauto|]. rewrite IH. cbn [In]. tauto.
Qed.
Lemma initial_stack : forall u, In u (fst (initial o inc)) <->
  In u (op_partitions o) \/ exists f, included f /\ u <> [] /\ (u = df_requires (field o f) \/ u = df_super (field o f)).
Proof.
  intros u. unfold initial. cbn [fst]. rewrite in_partitions. destruct (init_fold (ones o inc) ([], [])) as [A _]. rewrite A. cbn [fst In].
  split; [intros [I|[[]|(f & I & R)]]; [auto|right; exists f; split; [apply in_ones; exact I|exact R]]|].
  intros [I|(f & I & R)]; [auto|right; right; exists f; split; [apply in_ones; exact I|exact R]].
Qed.
Lemma initial_derive : forall d, In d (snd (initial o inc)) <-> exists f, included f /\ df_derive (field o f) = Some d.
Proof.
  intros d. unfold initial. cbn [snd]. destruct (init_fold (ones o inc) ([], [])) as [_ B]. rewrite B. cbn [snd In].
  split; [intros [[]|(f & I & R)]; exists f; split; [apply in_ones; exact I|exact R]|].
  intros (f & I & R). right; exists f; split; [apply in_ones; exact I|exact R].
Qed.
Lemma start_bits_spec : forall denied b f, fold_left (fun b f => set b f false) denied b f = true <-> b f = true /\ ~ In f denied.
Proof.
  intros denied. induction denied as [|d l IH]; intros b f; cbn [fold_left In]; [tauto|]. rewrite IH. unfold set.
  destruct (f =? d) eqn:E.
  - apply Nat.eqb_eq in E. subst. split; [intros [H _]; discriminate H|intros [_ H]; exfalso; apply H; left; reflexivity].
  - apply Nat.eqb_neq in E. split; [intros [A B]; split; [exact A|intros [->|I]; [congruence|auto]]|intros [A B]; split; [exact A|intros I; apply B; right; exact I]].
Qed.
Lemma covered_all : forall b rs s, In s rs -> covered b rs s.
Proof. intros b rs s I f O. right; eauto. Qed.
Lemma initial_complete : forall denied, (forall f, inc f = true -> f < n) ->
  complete (start_bits inc denied) (fst (initial o inc)) (snd (initial o inc)).
Proof.
  intros denied R.
  assert (N : forall rs b s, (s <> [] -> covered b rs s) -> covered b rs s).
  { intros rs b [|x s] H; [intros f O; destruct (occurs_nil f O)|]. apply H. discriminate. }
  assert (I' : forall f, included f \/ start_bits inc denied f = true -> included f).
  { intros f [I|E]; [exact I|]. unfold start_bits in E. apply start_bits_spec in E. destruct E as [E _]. split; [apply R; exact E|exact E]. }
  constructor.
  - intros s I. apply covered_all. apply initial_stack. auto.
  - intros f I. apply N. intros Ne. apply covered_all. apply initial_stack. right. exists f. auto.
  - intros f H. apply N. intros Ne. apply covered_all. apply initial_stack. right. exists f. auto.
  - intros f H h E. right. apply initial_derive. exists f. auto.
Qed.
Lemma initial_sound : forall denied, sound (start_bits inc denied) (start_bits inc denied) (fst (initial o inc)) (snd (initial o inc)).
Proof.
  intros denied. constructor; auto.
  - intros u f I O. apply initial_stack in I. destruct I as [I|(g & [L E] & _ & [->| ->])].
    + apply (By_partition o inc u); assumption.
    + apply (By_response o inc g); auto.
    + apply (By_response o inc g); auto.
  - intros f I. apply initial_derive in I. destruct I as (g & [L E] & D). apply (By_response o inc g); auto.
Qed.
Lemma complete_needed : forall b, complete b [] [] -> forall f, needed o inc f -> b f = true.
Proof.
  intros b K.
  assert (C : forall s f, covered b [] s -> occurs f s -> b f = true) by (intros s f H O; destruct (H f O) as [E|(u & [] & _)]; exact E).
  assert (D : forall d f, covered_derive b [] d -> d = Some f -> b f = true) by (intros d f H E; destruct (H f E) as [E'|[]]; exact E').
  intros f H. induction H as [s f I O|g f L E H|g f N IH H].
  - eapply C; [apply (k_partitions _ _ _ K s I)|exact O].
  - destruct H as [O|[O|De]].
    + eapply C; [apply (k_requires _ _ _ K g); auto|exact O].
    + eapply C; [apply (k_super _ _ _ K g); auto|exact O].
    + eapply D; [apply (k_derive _ _ _ K g); auto|exact De].
  - destruct H as [O|De].
    + eapply C; [apply (k_requires _ _ _ K g); auto|exact O].
    + eapply D; [apply (k_derive _ _ _ K g); auto|exact De].
Qed.
Lemma requested_exact : forall fuel denied r, (forall f, inc f = true -> f < n) -> requested fuel o inc denied = Some r ->
  forall f, r f = true <-> (inc f = true /\ ~ In f denied) \/ needed o inc f.
Proof.
  intros fuel denied r R H f. unfold requested in H.
  assert (T : targets (snd (initial o inc))) by (intros e I; apply initial_derive in I; destruct I as (g & _ & E); eauto).
  pose proof (complete_loop fuel _ _ _ r (initial_complete denied R) T H) as C. pose proof (sound_loop _ _ _ _ _ _ (initial_sound denied) H) as S.
  split.
  - intros E. destruct (s_bits _ _ _ _ S f E) as [B|N]; [left; apply start_bits_spec; exact B|auto].
  - intros [B|N]; [apply (s_keep _ _ _ _ S); apply start_bits_spec; exact B|apply (complete_needed r C f N)].
Qed.
End Correct.

Lemma requested_halts : forall o inc denied, well_formed o -> acyclic o -> exists fuel r, requested fuel o inc denied = Some r.
Proof.
  intros o inc denied W A. unfold requested. apply loop_halts; [exact W|exact A| |].
  - intros d I. apply initial_derive in I. destruct I as (g & _ & E). apply (proj2 W g). auto.
  - intros u f I O. apply initial_stack in I. destruct I as [I|(g & _ & _ & [->| ->])].
    + apply (proj1 W u); assumption.
    + apply (proj2 W g). auto.
    + apply (proj2 W g). auto.
Qed.
