From Coq Require Import List String Arith Bool Lia Wf_nat.
From Verif.Limits Require Import Model Spec.
Import ListNotations.

Section Proofs.
Variable fr : fragments.
Variable lim : limits.

Lemma expands_fun s ts : expands fr s ts -> forall ts', expands fr s ts' -> ts = ts'.
Proof.
  induction 1; intros ts' H'; inversion H'; subst; auto.
  - f_equal; [f_equal|]; auto.
  - f_equal; auto.
  - assert (body0 = body) by congruence. subst. f_equal; auto.
Qed.

(** Measures of a concatenation. *)
Lemma size_app a b : size (a ++ b) = size a + size b.
Proof. unfold size. rewrite map_app, list_sum_app. auto. Qed.
Lemma aliases_app a b : aliases (a ++ b) = aliases a + aliases b.
Proof. unfold aliases. rewrite map_app, list_sum_app. auto. Qed.
Lemma depth_app a b : depth (a ++ b) = Nat.max (depth a) (depth b).
Proof. unfold depth. rewrite map_app, list_max_app. auto. Qed.
Lemma size_cons a ch ts : size (FNode a ch :: ts) = S (size ch) + size ts.
Proof. reflexivity. Qed.
Lemma aliases_cons (a : bool) ch ts : aliases (FNode a ch :: ts) = (if a then 1 else 0) + aliases ch + aliases ts.
Proof. reflexivity. Qed.
Lemma depth_cons a ch ts : depth (FNode a ch :: ts) = Nat.max (S (depth ch)) (depth ts).
Proof. reflexivity. Qed.

Lemma exceeds_false n m : exceeds n m = false <-> at_most n m.
Proof.
  unfold exceeds, at_most. destruct m; [|tauto]. rewrite Nat.ltb_ge. tauto.
Qed.
Lemma exceeds_true n m : exceeds n m = true <-> ~ at_most n m.
Proof.
  unfold exceeds, at_most. destruct m; [|intuition congruence]. rewrite Nat.ltb_lt. lia.
Qed.
Lemma at_most_le n n' m : n <= n' -> at_most n' m -> at_most n m.
Proof. destruct m; simpl; auto. lia. Qed.
Lemma at_most_max n n' m : at_most n m -> at_most n' m -> at_most (Nat.max n n') m.
Proof. destruct m; simpl; auto. lia. Qed.

(** The state after visiting a forest [ts]. *)
Definition advance (v : visitor) (ts : list ftree) : visitor :=
  {| stack := stack v;
     root_fields := root_fields v + (if current_depth v =? 0 then List.length ts else 0);
     current_depth := current_depth v;
     aliases_count := aliases_count v + aliases ts;
     complexity := complexity v + size ts |}.
Definition state_ok (v : visitor) : Prop :=
  at_most (root_fields v) (max_root_fields lim) /\ at_most (aliases_count v) (max_aliases lim) /\
  at_most (complexity v) (max_complexity lim) /\ at_most (current_depth v) (max_depth lim).
(** What it takes for a forest to be accepted from state [v]. *)
Definition fits (v : visitor) (ts : list ftree) : Prop :=
  state_ok (advance v ts) /\ at_most (current_depth v + depth ts) (max_depth lim).

Lemma fits_state v ts : fits v ts -> state_ok (advance v ts).
Proof. intros [H _]. exact H. Qed.
Lemma advance_app v a b : advance (advance v a) b = advance v (a ++ b).
Proof.
  unfold advance; simpl. f_equal; rewrite ?app_length, ?size_app, ?aliases_app; try lia.
  destruct (current_depth v =? 0); lia.
Qed.
Lemma advance_nil v : advance v [] = v.
Proof. destruct v as [st rf cd al cx]; unfold advance; simpl. f_equal; try (change (aliases []) with 0); try (change (size []) with 0); try lia. destruct (cd =? 0); lia. Qed.
Lemma fits_nil v : state_ok v -> fits v [].
Proof.
  intros H. unfold fits. rewrite advance_nil. split; [exact H|].
  unfold depth; simpl. rewrite Nat.add_0_r. apply H.
Qed.
Lemma fits_app v a b : fits v a -> fits (advance v a) b -> fits v (a ++ b).
Proof.
  intros [_ A] [B C]. split; [rewrite <- advance_app; auto|].
  simpl in C. rewrite depth_app, <- Nat.add_max_distr_l. apply at_most_max; auto.
Qed.

(** The state in which the sub-selections of a field are visited. *)
Definition enter (v : visitor) (a : bool) : visitor :=
  {| stack := stack v; root_fields := root_fields v + (if current_depth v =? 0 then 1 else 0);
     current_depth := current_depth v + 1;
     aliases_count := aliases_count v + (if a then 1 else 0);
     complexity := complexity v + 1 |}.
Definition leave (v : visitor) : visitor :=
  {| stack := stack v; root_fields := root_fields v; current_depth := current_depth v - 1;
     aliases_count := aliases_count v; complexity := complexity v |}.
Lemma leave_enter v a ch : leave (advance (enter v a) ch) = advance v [FNode a ch].
Proof.
  unfold leave, enter, advance; simpl.
  replace (current_depth v + 1) with (S (current_depth v)) by lia. cbn [Nat.eqb].
  f_equal; rewrite ?aliases_cons, ?size_cons; try (change (aliases []) with 0); try (change (size []) with 0); try lia.
Qed.
Lemma fits_field v a ch : fits (enter v a) ch -> fits v [FNode a ch].
Proof.
  intros [(H1 & H2 & H3 & H4) H5]. unfold fits. rewrite <- leave_enter.
  unfold state_ok, leave in *. cbn [root_fields aliases_count complexity current_depth] in *.
  split; [split; [|split; [|split]]|]; auto.
  - eapply at_most_le; [|apply H4]. lia.
  - rewrite depth_cons. change (depth []) with 0. eapply at_most_le; [|apply H5].
    unfold enter; simpl. lia.
Qed.

Definition push (v : visitor) (n : string) : visitor :=
  {| stack := stack v ++ [n]; root_fields := root_fields v; current_depth := current_depth v;
     aliases_count := aliases_count v; complexity := complexity v |}.
Definition pop (v : visitor) : visitor :=
  {| stack := removelast (stack v); root_fields := root_fields v; current_depth := current_depth v;
     aliases_count := aliases_count v; complexity := complexity v |}.
Lemma pop_push v n ts : pop (advance (push v n) ts) = advance v ts.
Proof.
  unfold pop, push, advance; simpl. f_equal.
  rewrite removelast_app; [apply app_nil_r|discriminate].
Qed.
Lemma fits_push v n ts : fits (push v n) ts <-> fits v ts.
Proof. unfold fits, state_ok, advance, push; simpl. tauto. Qed.
Lemma state_push v n : state_ok (push v n) <-> state_ok v.
Proof. unfold state_ok, push; simpl. tauto. Qed.

(** Unfolding equations. *)
Lemma visit_field fuel v a sub rest :
  visit fr lim fuel v (SField a sub rest) =
  if exceeds (root_fields (enter v a)) (max_root_fields lim) then Err TooManyRootFields else
  if exceeds (complexity (enter v a)) (max_complexity lim) then Err TooComplex else
  if exceeds (aliases_count (enter v a)) (max_aliases lim) then Err TooManyAliases else
  if exceeds (current_depth (enter v a)) (max_depth lim) then Err TooDeep else
  match visit fr lim fuel (enter v a) sub with
  | Ok v' => visit fr lim fuel (leave v') rest
  | r => r
  end.
Proof. destruct fuel; reflexivity. Qed.
Lemma visit_inline fuel v sub rest :
  visit fr lim fuel v (SInline sub rest) =
  match visit fr lim fuel v sub with Ok v' => visit fr lim fuel v' rest | r => r end.
Proof. destruct fuel; reflexivity. Qed.
Lemma visit_spread fuel v n rest :
  visit fr lim fuel v (SSpread n rest) =
  if existsb (String.eqb n) (stack v) then Err FragmentCycle else
  match lookup fr n with
  | None => Err UnknownFragment
  | Some body =>
      match fuel with
      | O => OutOfFuel
      | S fuel' => match visit fr lim fuel' (push v n) body with
                   | Ok v' => visit fr lim fuel (pop v') rest
                   | r => r
                   end
      end
  end.
Proof. destruct fuel; reflexivity. Qed.

Lemma visit_ok : forall fuel s v v', state_ok v -> visit fr lim fuel v s = Ok v' ->
  exists ts, expands fr s ts /\ v' = advance v ts /\ fits v ts.
Proof.
  induction fuel as [fuel IHf] using lt_wf_ind.
  induction s as [|a sub IHsub rest IHrest|sub IHsub rest IHrest|n rest IHrest]; intros v v' Hv E.
  - exists []. split; [constructor|]. destruct fuel; injection E as <-; (split; [symmetry; apply advance_nil|apply fits_nil, Hv]).
  - rewrite visit_field in E.
    destruct (exceeds _ (max_root_fields lim)) eqn:E1; [discriminate|].
    destruct (exceeds _ (max_complexity lim)) eqn:E2; [discriminate|].
    destruct (exceeds _ (max_aliases lim)) eqn:E3; [discriminate|].
    destruct (exceeds _ (max_depth lim)) eqn:E4; [discriminate|].
    apply exceeds_false in E1, E2, E3, E4.
    destruct (visit _ _ _ _ sub) as [v1| |] eqn:Es; try discriminate.
    apply IHsub in Es; [|split; [|split; [|split]]; auto].
    destruct Es as (ch & X & -> & F). rewrite leave_enter in E.
    apply fits_field in F.
    apply IHrest in E; [|apply fits_state, F].
    destruct E as (ts & Y & -> & G).
    exists (FNode a ch :: ts). split; [constructor; auto|].
    rewrite advance_app. split; [reflexivity|]. apply (fits_app v [FNode a ch]); auto.
  - rewrite visit_inline in E.
    destruct (visit _ _ _ _ sub) as [v1| |] eqn:Es; try discriminate.
    apply IHsub in Es; auto. destruct Es as (t1 & X & -> & F).
    apply IHrest in E; [|apply fits_state, F]. destruct E as (t2 & Y & -> & G).
    exists (t1 ++ t2). split; [constructor; auto|]. rewrite advance_app. split; [reflexivity|apply fits_app; auto].
  - rewrite visit_spread in E. destruct (existsb _ _); [discriminate|].
    destruct (lookup fr n) as [body|] eqn:L; [|discriminate].
    destruct fuel as [|fuel']; [discriminate|].
    destruct (visit _ _ fuel' _ body) as [v1| |] eqn:Es; try discriminate.
    apply IHf in Es; [|lia|apply state_push, Hv]. destruct Es as (t1 & X & -> & F).
    rewrite pop_push in E. apply fits_push in F.
    apply IHrest in E; [|apply fits_state, F]. destruct E as (t2 & Y & -> & G).
    exists (t1 ++ t2). split; [econstructor; eauto|]. rewrite advance_app. split; [reflexivity|apply fits_app; auto].
Qed.

(** What an error says about the expansion of the query. *)
Definition violates (e : error) (v : visitor) (ts : list ftree) : Prop :=
  match e with
  | TooManyRootFields => ~ at_most (root_fields (advance v ts)) (max_root_fields lim)
  | TooComplex => ~ at_most (complexity (advance v ts)) (max_complexity lim)
  | TooManyAliases => ~ at_most (aliases_count (advance v ts)) (max_aliases lim)
  | TooDeep => ~ at_most (current_depth v + depth ts) (max_depth lim)
  | UnknownFragment => False
  | FragmentCycle => True
  end.
Lemma violates_app_l e v a b : violates e v a -> violates e v (a ++ b).
Proof.
  destruct e; simpl; auto; intros H G; apply H; clear H; eapply at_most_le; try apply G.
  - rewrite app_length. destruct (current_depth v =? 0); lia.
  - rewrite size_app; lia.
  - rewrite aliases_app; lia.
  - rewrite depth_app; lia.
Qed.
Lemma violates_app_r e v a b : violates e (advance v a) b -> violates e v (a ++ b).
Proof.
  destruct e; simpl; auto; intros H G; apply H; clear H; eapply at_most_le; try apply G.
  - rewrite app_length. destruct (current_depth v =? 0); lia.
  - rewrite size_app; lia.
  - rewrite aliases_app; lia.
  - rewrite depth_app; lia.
Qed.
Lemma violates_field e v a ch : violates e (enter v a) ch -> violates e v [FNode a ch].
Proof.
  destruct e; simpl; auto; intros H G; apply H; clear H; eapply at_most_le; try apply G.
  - replace (current_depth v + 1) with (S (current_depth v)) by lia. cbn [Nat.eqb]. destruct (current_depth v =? 0); lia.
  - rewrite size_cons; lia.
  - rewrite aliases_cons; lia.
  - rewrite depth_cons; lia.
Qed.

Lemma visit_err : forall fuel s v e, state_ok v -> visit fr lim fuel v s = Err e ->
  forall ts, expands fr s ts -> violates e v ts.
Proof.
  induction fuel as [fuel IHf] using lt_wf_ind.
  induction s as [|a sub IHsub rest IHrest|sub IHsub rest IHrest|n rest IHrest]; intros v e Hv E ts X.
  - destruct fuel; discriminate.
  - rewrite visit_field in E. inversion X as [|a' sub' ch rest' ts' X1 X2| |]; subst.
    destruct (exceeds _ (max_root_fields lim)) eqn:E1.
    { injection E as <-. apply exceeds_true in E1. apply (violates_app_l _ _ [FNode a ch]). simpl in *.
      intros G; apply E1. exact G. }
    destruct (exceeds _ (max_complexity lim)) eqn:E2.
    { injection E as <-. apply exceeds_true in E2. apply (violates_app_l _ _ [FNode a ch]). simpl in *.
      intros G; apply E2. eapply at_most_le; [|apply G]. rewrite size_cons. lia. }
    destruct (exceeds _ (max_aliases lim)) eqn:E3.
    { injection E as <-. apply exceeds_true in E3. apply (violates_app_l _ _ [FNode a ch]). simpl in *.
      intros G; apply E3. eapply at_most_le; [|apply G]. rewrite aliases_cons. lia. }
    destruct (exceeds _ (max_depth lim)) eqn:E4.
    { injection E as <-. apply exceeds_true in E4. apply (violates_app_l _ _ [FNode a ch]). simpl in *.
      intros G; apply E4. eapply at_most_le; [|apply G]. rewrite depth_cons. lia. }
    apply exceeds_false in E1, E2, E3, E4.
    assert (Hen : state_ok (enter v a)) by (split; [|split; [|split]]; auto).
    destruct (visit _ _ _ _ sub) as [v1| |] eqn:Es; try discriminate.
    + apply visit_ok in Es; auto. destruct Es as (ch' & X1' & -> & F).
      assert (ch' = ch) by (eapply expands_fun; eauto). subst ch'.
      rewrite leave_enter in E. apply fits_field in F.
      apply (violates_app_r _ _ [FNode a ch]). eapply IHrest; eauto. apply fits_state, F.
    + injection E as <-. apply (violates_app_l _ _ [FNode a ch]), violates_field. eapply IHsub; eauto.
  - rewrite visit_inline in E. inversion X; subst.
    destruct (visit _ _ _ _ sub) as [v1| |] eqn:Es; try discriminate.
    + apply visit_ok in Es; auto. destruct Es as (t' & X1' & -> & F).
      assert (t' = ts1) by (eapply expands_fun; eauto). subst t'.
      apply violates_app_r. eapply IHrest; eauto. apply fits_state, F.
    + injection E as <-. apply violates_app_l. eapply IHsub; eauto.
  - rewrite visit_spread in E. inversion X; subst.
    destruct (existsb _ _). { injection E as <-. exact I. }
    match goal with H : lookup fr n = Some _ |- _ => rewrite H in E end.
    destruct fuel as [|fuel']; [discriminate|].
    destruct (visit _ _ fuel' _ body) as [v1| |] eqn:Es; try discriminate.
    + apply visit_ok in Es; [|apply state_push, Hv]. destruct Es as (t' & X1' & -> & F).
      assert (t' = ts1) by (eapply expands_fun; eauto). subst t'.
      rewrite pop_push in E. apply fits_push in F.
      apply violates_app_r. eapply IHrest; eauto. apply fits_state, F.
    + injection E as <-. apply violates_app_l.
      assert (K : violates e0 (push v n) ts1) by (eapply IHf; eauto; apply state_push, Hv).
      destruct e0; exact K.
Qed.

(** Cycles. *)
Lemma reaches_spread n body m rest : lookup fr n = Some body -> reaches fr body m -> reaches fr (SSpread n rest) m.
Proof. intros L R. eapply re_step; eauto. simpl; auto. Qed.
Lemma reaches_weaken s s' m : (forall k, mentions s k -> mentions s' k) -> reaches fr s m -> reaches fr s' m.
Proof. intros H R. destruct R; [apply re_direct|eapply re_step]; eauto. Qed.

Lemma visit_cycle : forall fuel s v, visit fr lim fuel v s = Err FragmentCycle ->
  exists n, (In n (stack v) /\ reaches fr s n) \/
            (reaches fr s n /\ exists body, lookup fr n = Some body /\ reaches fr body n).
Proof.
  assert (W : forall (s s' : sels) st, (forall k, mentions s k -> mentions s' k) ->
     (exists n, (In n st /\ reaches fr s n) \/ (reaches fr s n /\ exists body, lookup fr n = Some body /\ reaches fr body n)) ->
     (exists n, (In n st /\ reaches fr s' n) \/ (reaches fr s' n /\ exists body, lookup fr n = Some body /\ reaches fr body n))).
  { intros s s' st K (n & [[A B]|[A B]]); exists n; [left|right]; (split; [|auto]); auto; eapply reaches_weaken; eauto. }
  assert (St : forall fuel s v v', visit fr lim fuel v s = Ok v' -> stack v' = stack v).
  { induction fuel as [fuel IHf] using lt_wf_ind.
    induction s as [|a sub IHsub rest IHrest|sub IHsub rest IHrest|n rest IHrest]; intros v v' E.
    - destruct fuel; injection E as <-; reflexivity.
    - rewrite visit_field in E. repeat match type of E with (if ?c then _ else _) = _ => destruct c; [discriminate|] end.
      destruct (visit _ _ _ _ sub) eqn:Es; try discriminate. apply IHsub in Es. apply IHrest in E.
      rewrite E. simpl. rewrite Es. reflexivity.
    - rewrite visit_inline in E. destruct (visit _ _ _ _ sub) eqn:Es; try discriminate. apply IHsub in Es. apply IHrest in E. congruence.
    - rewrite visit_spread in E. destruct (existsb _ _); [discriminate|].
      destruct (lookup fr n) as [body|] eqn:L; [|discriminate].
      destruct fuel as [|fuel']; [discriminate|].
      destruct (visit _ _ fuel' _ body) as [v1| |] eqn:Es; try discriminate.
      apply IHf in Es; [|lia]. apply IHrest in E. rewrite E. simpl. rewrite Es. simpl.
      rewrite removelast_app; [apply app_nil_r|discriminate]. }
  induction fuel as [fuel IHf] using lt_wf_ind.
  induction s as [|a sub IHsub rest IHrest|sub IHsub rest IHrest|n rest IHrest]; intros v E.
  - destruct fuel; discriminate.
  - rewrite visit_field in E. repeat match type of E with (if ?c then _ else _) = _ => destruct c; [discriminate|] end.
    destruct (visit _ _ _ _ sub) as [v1| |] eqn:Es; try discriminate.
    + apply IHrest in E. apply St in Es. simpl in E. rewrite Es in E.
      eapply W; [|exact E]. simpl; auto.
    + injection E as ->. apply IHsub in Es. eapply W; [|exact Es]. simpl; auto.
  - rewrite visit_inline in E.
    destruct (visit _ _ _ _ sub) as [v1| |] eqn:Es; try discriminate.
    + apply IHrest in E. apply St in Es. rewrite Es in E. eapply W; [|exact E]. simpl; auto.
    + injection E as ->. apply IHsub in Es. eapply W; [|exact Es]. simpl; auto.
  - rewrite visit_spread in E. destruct (existsb _ _) eqn:Ex.
    { apply existsb_exists in Ex. destruct Ex as (m & I & Q). apply String.eqb_eq in Q. subst m.
      exists n. left. split; [exact I|]. apply re_direct. simpl; auto. }
    destruct (lookup fr n) as [body|] eqn:L; [|discriminate].
    destruct fuel as [|fuel']; [discriminate|].
    destruct (visit _ _ fuel' _ body) as [v1| |] eqn:Es; try discriminate.
    + apply IHrest in E. apply St in Es. simpl in E. rewrite Es in E. simpl in E.
      rewrite removelast_app, app_nil_r in E by discriminate.
      eapply W; [|exact E]. simpl; auto.
    + injection E as ->. apply IHf in Es; [|lia]. destruct Es as (m & [[A B]|[A B]]).
      * simpl in A. apply in_app_or in A. destruct A as [A|[->|[]]].
        -- exists m. left. split; [exact A|]. eapply reaches_spread; eauto.
        -- exists m. right. split; [apply re_direct; simpl; auto|]. eauto.
      * exists m. right. split; [eapply reaches_spread; eauto|exact B].
Qed.

Lemma visit_unknown : forall fuel s v, visit fr lim fuel v s = Err UnknownFragment ->
  exists n, reaches fr s n /\ lookup fr n = None.
Proof.
  assert (W : forall (s s' : sels), (forall k, mentions s k -> mentions s' k) ->
     (exists n, reaches fr s n /\ lookup fr n = None) -> exists n, reaches fr s' n /\ lookup fr n = None).
  { intros s s' K (n & A & B). exists n. split; auto. eapply reaches_weaken; eauto. }
  induction fuel as [fuel IHf] using lt_wf_ind.
  induction s as [|a sub IHsub rest IHrest|sub IHsub rest IHrest|n rest IHrest]; intros v E.
  - destruct fuel; discriminate.
  - rewrite visit_field in E. repeat match type of E with (if ?c then _ else _) = _ => destruct c; [discriminate|] end.
    destruct (visit _ _ _ _ sub) as [v1| |] eqn:Es; try discriminate.
    + apply IHrest in E. eapply W; [|exact E]. simpl; auto.
    + injection E as ->. apply IHsub in Es. eapply W; [|exact Es]. simpl; auto.
  - rewrite visit_inline in E.
    destruct (visit _ _ _ _ sub) as [v1| |] eqn:Es; try discriminate.
    + apply IHrest in E. eapply W; [|exact E]. simpl; auto.
    + injection E as ->. apply IHsub in Es. eapply W; [|exact Es]. simpl; auto.
  - rewrite visit_spread in E. destruct (existsb _ _); [discriminate|].
    destruct (lookup fr n) as [body|] eqn:L.
    2:{ exists n. split; [apply re_direct; simpl; auto|exact L]. }
    destruct fuel as [|fuel']; [discriminate|].
    destruct (visit _ _ fuel' _ body) as [v1| |] eqn:Es; try discriminate.
    + apply IHrest in E. eapply W; [|exact E]. simpl; auto.
    + injection E as ->. apply IHf in Es; [|lia]. destruct Es as (m & A & B).
      exists m. split; [eapply reaches_spread; eauto|exact B].
Qed.

(** A query with an expansion reaches fragments of decreasing height only. *)
Fixpoint height (h : nat) (s : sels) : Prop :=
  forall m, mentions s m -> exists body, lookup fr m = Some body /\
    match h with O => False | S h' => height h' body end.
Lemma height_unfold h s : height h s <-> forall m, mentions s m -> exists body, lookup fr m = Some body /\
    match h with O => False | S h' => height h' body end.
Proof. destruct h; reflexivity. Qed.
Lemma height_mono h : forall h' s, h <= h' -> height h s -> height h' s.
Proof.
  induction h; intros h' s L H; rewrite height_unfold in *; intros m M; destruct (H m M) as (body & A & B); [destruct B|].
  destruct h'; [lia|]. exists body. split; auto. apply IHh; [lia|auto].
Qed.
Lemma height_join h s1 s2 s : (forall m, mentions s m -> mentions s1 m \/ mentions s2 m) ->
  height h s1 -> height h s2 -> height h s.
Proof.
  intros H A B. rewrite height_unfold in *. intros m M. destruct (H m M); auto.
Qed.
Lemma expands_height s ts : expands fr s ts -> exists h, height h s.
Proof.
  induction 1.
  - exists 0. intros m [].
  - destruct IHexpands1 as (h1 & A), IHexpands2 as (h2 & B). exists (Nat.max h1 h2).
    apply (height_join _ sub rest); [simpl; auto|eapply height_mono; [|exact A]; lia|eapply height_mono; [|exact B]; lia].
  - destruct IHexpands1 as (h1 & A), IHexpands2 as (h2 & B). exists (Nat.max h1 h2).
    apply (height_join _ sub rest); [simpl; auto|eapply height_mono; [|exact A]; lia|eapply height_mono; [|exact B]; lia].
  - destruct IHexpands1 as (h1 & A), IHexpands2 as (h2 & B). exists (S (Nat.max h1 h2)).
    rewrite height_unfold. simpl. intros m [<-|M].
    + exists body. split; auto. eapply height_mono; [|exact A]; lia.
    + assert (B' : height (S (Nat.max h1 h2)) rest) by (eapply height_mono; [|exact B]; lia).
      rewrite height_unfold in B'. apply B', M.
Qed.
Lemma height_reaches s n : reaches fr s n -> forall h, height h s ->
  exists h' body, h' < h /\ lookup fr n = Some body /\ height h' body.
Proof.
  induction 1 as [s n M|s m body n M L R IH]; intros h H; rewrite height_unfold in H;
    destruct (H _ M) as (b & A & B); (destruct h as [|h]; [destruct B|]).
  - exists h, b. auto.
  - assert (b = body) by congruence. subst b. destruct (IH h B) as (h' & b & C & D & F).
    exists h', b. split; [lia|auto].
Qed.
Lemma expands_acyclic s ts : expands fr s ts -> ~ cyclic fr s /\ ~ dangling fr s.
Proof.
  intros X. apply expands_height in X. destruct X as (h & H). split.
  - intros (n & body & R & L & C).
    destruct (height_reaches _ _ R h H) as (h1 & b & _ & L1 & H1).
    assert (b = body) by congruence. subst b. clear - L C H1.
    revert H1. induction h1 as [h1 IH] using lt_wf_ind. intros H1.
    destruct (height_reaches _ _ C h1 H1) as (h2 & b & A & B & D).
    assert (b = body) by congruence. subst b. eauto.
  - intros (n & R & L). destruct (height_reaches _ _ R h H) as (h1 & b & _ & L1 & H1). congruence.
Qed.

(** Fuel. *)
Lemma lookup_in n body : lookup fr n = Some body -> In n (map fst fr).
Proof.
  induction fr as [|[m b] l IH]; simpl; [discriminate|].
  destruct (String.eqb m n) eqn:E; [apply String.eqb_eq in E; auto|intros; right; auto].
Qed.
Lemma visit_stack : forall fuel s v v', visit fr lim fuel v s = Ok v' -> stack v' = stack v.
Proof.
  induction fuel as [fuel IHf] using lt_wf_ind.
  induction s as [|a sub IHsub rest IHrest|sub IHsub rest IHrest|n rest IHrest]; intros v v' E.
  - destruct fuel; injection E as <-; reflexivity.
  - rewrite visit_field in E. repeat match type of E with (if ?c then _ else _) = _ => destruct c; [discriminate|] end.
    destruct (visit _ _ _ _ sub) eqn:Es; try discriminate. apply IHsub in Es. apply IHrest in E.
    rewrite E. simpl. rewrite Es. reflexivity.
  - rewrite visit_inline in E. destruct (visit _ _ _ _ sub) eqn:Es; try discriminate. apply IHsub in Es. apply IHrest in E. congruence.
  - rewrite visit_spread in E. destruct (existsb _ _); [discriminate|].
    destruct (lookup fr n) as [body|] eqn:L; [|discriminate].
    destruct fuel as [|fuel']; [discriminate|].
    destruct (visit _ _ fuel' _ body) as [v1| |] eqn:Es; try discriminate.
    apply IHf in Es; [|lia]. apply IHrest in E. rewrite E. simpl. rewrite Es. simpl.
    rewrite removelast_app; [apply app_nil_r|discriminate].
Qed.
Lemma NoDup_snoc (l : list string) n : NoDup l -> ~ In n l -> NoDup (l ++ [n]).
Proof.
  intros H N. apply (NoDup_Add (Add_app n l [])). rewrite app_nil_r. auto.
Qed.
Lemma visit_fuel : forall fuel s v, NoDup (stack v) -> incl (stack v) (map fst fr) ->
  List.length fr < List.length (stack v) + fuel -> visit fr lim fuel v s <> OutOfFuel.
Proof.
  induction fuel as [fuel IHf] using lt_wf_ind.
  induction s as [|a sub IHsub rest IHrest|sub IHsub rest IHrest|n rest IHrest]; intros v N I L E.
  - destruct fuel; discriminate.
  - rewrite visit_field in E. repeat match type of E with (if ?c then _ else _) = _ => destruct c; [discriminate|] end.
    destruct (visit _ _ _ _ sub) as [v1| |] eqn:Es; try discriminate.
    + apply visit_stack in Es. simpl in Es.
      apply IHrest in E; simpl; rewrite ?Es; auto.
    + apply IHsub in Es; auto.
  - rewrite visit_inline in E.
    destruct (visit _ _ _ _ sub) as [v1| |] eqn:Es; try discriminate.
    + apply visit_stack in Es. apply IHrest in E; rewrite ?Es; auto.
    + apply IHsub in Es; auto.
  - rewrite visit_spread in E. destruct (existsb _ _) eqn:Ex; [discriminate|].
    destruct (lookup fr n) as [body|] eqn:Lk; [|discriminate].
    assert (Nn : ~ In n (stack v)).
    { intros A. assert (existsb (String.eqb n) (stack v) = true) by
        (apply existsb_exists; exists n; split; [exact A|apply String.eqb_refl]). congruence. }
    destruct fuel as [|fuel'].
    { pose proof (NoDup_incl_length N I) as K. rewrite map_length in K. lia. }
    destruct (visit _ _ fuel' _ body) as [v1| |] eqn:Es; try discriminate.
    + apply visit_stack in Es. simpl in Es.
      apply IHrest in E; simpl; rewrite ?Es, ?removelast_app, ?app_nil_r by discriminate; auto.
    + apply IHf in Es; auto; simpl.
      * apply NoDup_snoc; auto.
      * intros x Hx. apply in_app_or in Hx. destruct Hx as [Hx|[<-|[]]]; auto. eapply lookup_in; eauto.
      * rewrite app_length. simpl. lia.
Qed.
Lemma initial_ok : state_ok initial.
Proof. unfold state_ok, initial, at_most; simpl. destruct lim as [[?|] [?|] [?|] [?|]]; simpl; repeat split; lia. Qed.
Lemma fits_initial ts : fits initial ts <-> within lim ts.
Proof.
  unfold fits, within, state_ok, advance, initial; simpl. intuition.
  eapply at_most_le; [|eassumption]. lia.
Qed.
Lemma validate_total doc : validate fr lim doc <> OutOfFuel.
Proof.
  apply visit_fuel; simpl; [constructor|intros x []|lia].
Qed.
End Proofs.
