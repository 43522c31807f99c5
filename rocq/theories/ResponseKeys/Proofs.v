From Coq Require Import String Ascii NArith List Bool Arith Lia FinFun.
From Verif.ResponseKeys Require Import Model Spec.
Import ListNotations.

(** * Lists *)
Lemma set_nth_length : forall A n (x : A) l, List.length (set_nth n x l) = List.length l.
Proof. induction n; destruct l; cbn; auto. Qed.
Lemma set_nth_same : forall A n (x d : A) l, n < List.length l -> nth n (set_nth n x l) d = x.
Proof. induction n; destruct l; cbn; intros; try lia; auto. apply IHn. lia. Qed.
Lemma set_nth_other : forall A n m (x d : A) l, n <> m -> nth m (set_nth n x l) d = nth m l d.
Proof. induction n; destruct l; destruct m; cbn; intros; try congruence; auto. Qed.
Lemma index_some : forall s l i, index s l = Some i -> nth_error l i = Some s.
Proof.
  induction l as [|x l IH]; cbn; intros i H; [discriminate|].
  destruct (String.eqb_spec x s).
  - inversion H; subst. reflexivity.
  - destruct (index s l); [|discriminate]. inversion H; subst. cbn. auto.
Qed.
Lemma index_none : forall s l, index s l = None -> ~ In s l.
Proof.
  induction l as [|x l IH]; cbn; intros H; [tauto|].
  destruct (String.eqb_spec x s); [discriminate|].
  destruct (index s l); [discriminate|]. intros [E|E]; [congruence | exact (IH eq_refl E)].
Qed.
Lemma in_use_iff : forall s l, in_use s l = true <-> In s l.
Proof.
  intros. unfold in_use. rewrite existsb_exists. split.
  - intros [x [H E]]. apply String.eqb_eq in E. subst. exact H.
  - intros H. exists s. split; [exact H | apply String.eqb_refl].
Qed.
Lemma mem_iff : forall k l, existsb (Nat.eqb k) l = true <-> In k l.
Proof.
  intros. rewrite existsb_exists. split.
  - intros [x [H E]]. apply Nat.eqb_eq in E. subst. exact H.
  - intros H. exists k. split; [exact H | apply Nat.eqb_refl].
Qed.
Lemma ckey_eqb_spec : forall a b, reflect (a = b) (ckey_eqb a b).
Proof.
  intros [k d|t] [k' d'|t']; cbn; try (constructor; congruence).
  - destruct (Nat.eqb_spec k k'); [destruct (Nat.eqb_spec d d')|]; cbn; constructor; congruence.
  - destruct (Nat.eqb_spec t t'); constructor; congruence.
Qed.
Lemma NoDup_snoc : forall A (l : list A) x, NoDup l -> ~ In x l -> NoDup (l ++ [x]).
Proof.
  induction l as [|y l IH]; cbn; intros x H1 H2.
  - constructor; [cbn; tauto | constructor].
  - inversion H1; subst. constructor.
    + rewrite in_app_iff. cbn. intros [E|[E|[]]]; [tauto | subst; tauto].
    + apply IH; tauto.
Qed.
Lemma NoDup_parts : forall A (a b : list A), NoDup (a ++ b) -> NoDup a /\ NoDup b /\ forall x, In x a -> In x b -> False.
Proof.
  induction a as [|y a IH]; cbn; intros b H; [split; [constructor|tauto]|].
  inversion H as [|? ? H1 H2]; subst. destruct (IH _ H2) as [I1 [I2 I3]]. rewrite in_app_iff in H1. split; [constructor; tauto|]. split; [exact I2|].
  intros x [<-|X] Y; [tauto | eauto].
Qed.

(** * New keys *)
Lemma append_inj : forall a b c, (a ++ b)%string = (a ++ c)%string -> b = c.
Proof. induction a; cbn; intros b c H; [exact H | inversion H; auto]. Qed.
Fixpoint no_dup (l : list string) : bool :=
  match l with [] => true | x :: l => negb (in_use x l) && no_dup l end.
Lemma no_dup_sound : forall l, no_dup l = true -> NoDup l.
Proof.
  induction l as [|x l IH]; cbn; intros H; constructor; apply andb_true_iff in H as [H1 H2].
  - rewrite <- in_use_iff. apply negb_true_iff in H1. congruence.
  - auto.
Qed.
Lemma bytes_distinct : NoDup (map byte_hex bytes).
Proof. apply no_dup_sound. vm_compute. reflexivity. Qed.
Lemma candidates_distinct : forall name id, NoDup (candidates name id).
Proof.
  intros. unfold candidates. rewrite <- (map_map byte_hex (fun s => (("_" ++ name ++ short_id id) ++ s)%string)).
  apply Injective_map_NoDup; [|exact bytes_distinct].
  intros a b H. exact (append_inj _ _ _ H).
Qed.
Lemma candidates_length : forall name id, List.length (candidates name id) = 256.
Proof. intros. unfold candidates, bytes. rewrite map_length. apply seq_length. Qed.

Definition renames_ok (n0 : nat) (st : state) : Prop :=
  (forall c k, find_rename c (s_renames st) = Some k -> n0 <= k /\ k < List.length (s_keys st)) /\
  (forall c c' k, find_rename c (s_renames st) = Some k -> find_rename c' (s_renames st) = Some k -> c = c').

Section Proofs.
Variable sch : schema.

(** What generate does. *)
Lemma generate_cases : forall st used c id st' k, generate sch st used c id = Some (st', k) ->
  (st' = st /\ exists c', c = Some c' /\ find_rename c' (s_renames st) = Some k) \/
  (st' = st /\ c = None /\ k < List.length (s_keys st) /\ ~ In k used) \/
  ((forall c', c = Some c' -> find_rename c' (s_renames st) = None) /\
   exists s, ~ In s (s_keys st) /\ (st', k) = intern s c st).
Proof.
  intros st used c id st' k H. unfold generate in H.
  destruct (match c with Some c => find_rename c (s_renames st) | None => None end) eqn:E.
  - inversion H; subst. left. split; [reflexivity|]. destruct c; [eauto | discriminate].
  - assert (F : forall c', c = Some c' -> find_rename c' (s_renames st) = None) by (intros c' ->; exact E).
    destruct (index (text sch id) (s_keys st)) as [key|] eqn:X.
    + destruct (match c with None => negb (existsb (Nat.eqb key) used) | Some _ => false end) eqn:Y.
      * inversion H; subst. right; left. destruct c; [discriminate|]. split; [reflexivity|]. split; [reflexivity|].
        split.
        -- apply nth_error_Some. rewrite (index_some _ _ _ X). discriminate.
        -- rewrite <- mem_iff. apply negb_true_iff in Y. congruence.
      * destruct (find (fun s => negb (in_use s (s_keys st))) (candidates (text sch id) id)) as [s|] eqn:Z; [|discriminate].
        right; right. split; [exact F|]. exists s. split.
        -- apply find_some in Z as [_ Z]. rewrite <- in_use_iff. apply negb_true_iff in Z. congruence.
        -- inversion H. reflexivity.
    + right; right. split; [exact F|]. exists (text sch id). split; [exact (index_none _ _ X)|]. inversion H. reflexivity.
Qed.
Lemma generate_some : forall st used c id, List.length (s_keys st) < 256 -> generate sch st used c id <> None.
Proof.
  intros st used c id H F. unfold generate in F.
  destruct (match c with Some c => find_rename c (s_renames st) | None => None end); [discriminate|].
  destruct (index (text sch id) (s_keys st)) as [key|]; [|discriminate].
  destruct (match c with None => negb (existsb (Nat.eqb key) used) | Some _ => false end); [discriminate|].
  destruct (find (fun s => negb (in_use s (s_keys st))) (candidates (text sch id) id)) as [s|] eqn:Z; [discriminate|].
  assert (I1 : incl (candidates (text sch id) id) (s_keys st)).
  { intros s HI. pose proof (find_none _ _ Z s HI) as X. apply negb_false_iff in X. apply in_use_iff. exact X. }
  pose proof (NoDup_incl_length (candidates_distinct (text sch id) id) I1) as L. rewrite candidates_length in L. lia.
Qed.
(** When it panics. *)
Lemma generate_none : forall st used c id, generate sch st used c id = None <->
  (forall c', c = Some c' -> find_rename c' (s_renames st) = None) /\
  (exists key, index (text sch id) (s_keys st) = Some key /\ (c = None -> In key used)) /\
  (forall s, In s (candidates (text sch id) id) -> In s (s_keys st)).
Proof.
  intros st used c id. unfold generate. split.
  - intros F.
    destruct (match c with Some c => find_rename c (s_renames st) | None => None end) eqn:E; [discriminate|].
    destruct (index (text sch id) (s_keys st)) as [key|] eqn:X; [|discriminate].
    destruct (match c with None => negb (existsb (Nat.eqb key) used) | Some _ => false end) eqn:Y; [discriminate|].
    destruct (find (fun s => negb (in_use s (s_keys st))) (candidates (text sch id) id)) as [s|] eqn:Z; [discriminate|].
    split; [intros c' ->; exact E|]. split.
    + exists key. split; [reflexivity|]. intros ->. apply negb_false_iff in Y. apply mem_iff. exact Y.
    + intros s HI. pose proof (find_none _ _ Z s HI) as W. apply negb_false_iff in W. apply in_use_iff. exact W.
  - intros [H1 [[key [H2 H3]] H4]].
    replace (match c with Some c => find_rename c (s_renames st) | None => None end) with (@None nat)
      by (destruct c; [rewrite (H1 _ eq_refl)|]; reflexivity).
    rewrite H2.
    replace (match c with None => negb (existsb (Nat.eqb key) used) | Some _ => false end) with false
      by (destruct c; [reflexivity | symmetry; apply negb_false_iff, mem_iff; auto]).
    destruct (find (fun s => negb (in_use s (s_keys st))) (candidates (text sch id) id)) as [s|] eqn:Z; [|reflexivity].
    apply find_some in Z as [Z1 Z2]. apply negb_true_iff in Z2. apply H4, in_use_iff in Z1. congruence.
Qed.

(** What changes. *)
Definition grows (st st' : state) : Prop :=
  (exists l, s_keys st' = s_keys st ++ l)%list /\
  (forall c k, find_rename c (s_renames st) = Some k -> find_rename c (s_renames st') = Some k) /\
  List.length (s_fields st') = List.length (s_fields st) /\ List.length (s_sub st') = List.length (s_sub st).
Lemma grows_refl : forall st, grows st st.
Proof. intros. split; [exists []; symmetry; apply app_nil_r|]. auto. Qed.
Lemma grows_trans : forall a b c, grows a b -> grows b c -> grows a c.
Proof.
  intros a b c [[l E] [H1 [H2 H3]]] [[l' E'] [H1' [H2' H3']]]. split.
  - exists (l ++ l')%list. rewrite E', E, app_assoc. reflexivity.
  - split; [auto|]. split; congruence.
Qed.
Lemma generate_grows : forall n0 st used c id st' k, renames_ok n0 st -> NoDup (s_keys st) -> n0 <= List.length (s_keys st) ->
  generate sch st used c id = Some (st', k) ->
  grows st st' /\ s_fields st' = s_fields st /\ s_sub st' = s_sub st /\ renames_ok n0 st' /\ NoDup (s_keys st') /\
  k < List.length (s_keys st') /\ List.length (s_keys st') <= S (List.length (s_keys st)) /\
  (forall c', c = Some c' -> find_rename c' (s_renames st') = Some k) /\
  (c = None -> ~ In k used \/ List.length (s_keys st) <= k).
Proof.
  intros n0 st used c id st' k [R1 R2] ND LE H.
  destruct (generate_cases _ _ _ _ _ _ H) as [[-> [c' [-> F]]]|[[-> [-> [F1 F2]]]|[F1 [s [F2 F3]]]]].
  - split; [apply grows_refl|]. split; [reflexivity|]. split; [reflexivity|]. split; [split; assumption|].
    split; [exact ND|]. split; [exact (proj2 (R1 _ _ F))|]. split; [lia|]. split; [|discriminate].
    intros c'' E. inversion E; subst. exact F.
  - split; [apply grows_refl|]. split; [reflexivity|]. split; [reflexivity|]. split; [split; assumption|].
    split; [exact ND|]. split; [exact F1|]. split; [lia|]. split; [discriminate | auto].
  - unfold intern in F3. inversion F3; subst st' k; clear F3.
    assert (LK : List.length (s_keys st ++ [s])%list = S (List.length (s_keys st))) by (rewrite app_length; cbn; lia).
    cbn [s_keys s_renames s_fields s_sub]. split; [|split; [reflexivity|split; [reflexivity|]]].
    + split; [exists [s]; reflexivity|]. split; [|split; reflexivity]. cbn [s_renames]. intros c0 k0 E.
      destruct c as [c|]; [|exact E]. cbn [find_rename]. destruct (ckey_eqb_spec c0 c); [|exact E].
      subst. rewrite (F1 _ eq_refl) in E. discriminate.
    + split.
      { split; cbn [s_renames s_keys].
        - intros c0 k0 E. rewrite LK. destruct c as [c|].
          + cbn [find_rename] in E. destruct (ckey_eqb_spec c0 c); [inversion E; lia|]. apply R1 in E. lia.
          + apply R1 in E. lia.
        - intros c0 c1 k0 E0 E1. destruct c as [c|]; [|eauto]. cbn [find_rename] in E0, E1.
          destruct (ckey_eqb_spec c0 c); destruct (ckey_eqb_spec c1 c); subst; try congruence; [| |eauto].
          + inversion E0; subst. apply R1 in E1. lia.
          + inversion E1; subst. apply R1 in E0. lia. }
      split; [apply NoDup_snoc; assumption|]. split; [lia|]. split; [lia|]. split; [|auto].
      intros c' ->. cbn [find_rename]. destruct (ckey_eqb_spec c' c'); [reflexivity | congruence].
Qed.

Variable keys : list string.
Variable fields : list qfield.
Local Notation the_field := (the_field fields).
Local Notation classified := (classified sch keys fields).

Lemma classified_det : forall parent s f a b, classified parent s f a -> classified parent s f b -> a = b.
Proof.
  intros parent s f a b H1 H2. destruct H1 as [k d A1 A2|k d A1 A2 A3 A4|k A1 A2]; destruct H2 as [k' d' B1 B2|k' d' B1 B2 B3 B4|k' B1 B2].
  - destruct A2 as [A2 _], B2 as [B2 _]. congruence.
  - destruct A2 as [A2 A2']. assert (d = d') by congruence. subst. exfalso. apply B3. split; assumption.
  - destruct A2 as [A2 A2']. exfalso. apply (proj1 (B2 _ A2)). split; assumption.
  - destruct B2 as [B2 B2']. assert (d = d') by congruence. subst. exfalso. apply A3. split; assumption.
  - congruence.
  - exfalso. apply (proj2 (B2 _ A2)). congruence.
  - destruct B2 as [B2 B2']. exfalso. apply (proj1 (A2 _ B2)). split; assumption.
  - exfalso. apply (proj2 (A2 _ B2)). congruence.
  - congruence.
Qed.

Hypothesis keys_nodup : NoDup keys.
Hypothesis keys_exist : forall q k, In q fields -> q_key q = Some k -> k < List.length keys.
Lemma key_exists : forall f k, q_key (the_field f) = Some k -> k < List.length keys.
Proof.
  intros f k H. unfold Spec.the_field in H. destruct (nth_in_or_default f fields {| q_key := None; q_def := None; q_args := 0 |}) as [E|E].
  - exact (keys_exist _ _ E H).
  - rewrite E in H. discriminate.
Qed.

Record base (st : state) : Prop := {
  b_keys : exists l, (s_keys st = keys ++ l)%list;
  b_nodup : NoDup (s_keys st);
  b_renames : renames_ok (List.length keys) st;
  b_fields : List.length (s_fields st) = List.length fields;
  b_subs : List.length (s_sub st) = List.length fields;
  b_client : forall f k, q_key (the_field f) = Some k -> field_at st f = the_field f;
  b_def : forall f, q_def (field_at st f) = q_def (the_field f);
  b_exist : forall f k, q_key (field_at st f) = Some k -> k < List.length (s_keys st);
  b_extra : forall f, q_key (the_field f) = None -> sub_at st f = None;
  b_sub : forall f k, sub_at st f = Some k -> k < List.length (s_keys st)
}.
Lemma base_le : forall st, base st -> List.length keys <= List.length (s_keys st).
Proof. intros st B. destruct (b_keys _ B) as [l E]. rewrite E, app_length. lia. Qed.
Lemma base_nth : forall st k, base st -> k < List.length keys -> nth_error (s_keys st) k = nth_error keys k.
Proof. intros st k B H. destruct (b_keys _ B) as [l E]. rewrite E. apply nth_error_app1. exact H. Qed.

Lemma reason_classified : forall st parent s f, base st -> field_at st f = the_field f ->
  match reason sch st parent (s, f) with
  | Some (c, _) => classified parent s f (Renamed c)
  | None => forall c, classified parent s f c -> exists k, c = Kept k
  end.
Proof.
  intros st parent s f B E. unfold reason. rewrite E.
  destruct (q_key (the_field f)) as [key|] eqn:K.
  2:{ intros c H. destruct H as [k d A1 A2|k d A1 A2 A3 A4|k A1 A2]; congruence. }
  pose proof (key_exists _ _ K) as KL.
  destruct (q_def (the_field f)) as [def|] eqn:D.
  2:{ intros c H. destruct H as [k d A1 A2|k d A1 A2 A3 A4|k A1 A2]; [destruct A2; congruence | congruence | eauto]. }
  destruct (negb (is_object sch parent) && existsb (Nat.eqb s) (d_distinct (definitions sch def))) eqn:T.
  - apply andb_true_iff in T as [T1 T2]. apply negb_true_iff in T1. apply mem_iff in T2.
    eapply By_type; [exact K|]. split; [exact D|]. split; assumption.
  - assert (NT : ~ other_type sch fields parent s f def).
    { intros [_ [T1 T2]]. apply mem_iff in T2. rewrite T1, T2 in T. discriminate. }
    assert (NE : nth_error keys key = Some (nth key (s_keys st) ""%string)).
    { rewrite <- (base_nth st key B KL). apply nth_error_nth'. pose proof (base_le _ B). lia. }
    destruct (String.eqb_spec (nth key (s_keys st) ""%string) "__typename"%string) as [X|X].
    + apply By_name with key; [exact K|exact D|exact NT|congruence].
    + intros c H. destruct H as [k d A1 A2|k d A1 A2 A3 A4|k A1 A2]; [|congruence|eauto].
      exfalso. apply NT. assert (d = def) by (destruct A2; congruence). subst. exact A2.
Qed.

Definition named (st : state) (parent : nat) (sf : nat * nat) : Prop :=
  forall c, classified parent (fst sf) (snd sf) c ->
  match c with
  | Renamed ck => exists k, sub_at st (snd sf) = Some k /\ find_rename ck (s_renames st) = Some k
  | Kept _ => sub_at st (snd sf) = None
  end.
Lemma named_grows : forall st st' parent sf, grows st st' -> sub_at st' (snd sf) = sub_at st (snd sf) ->
  named st parent sf -> named st' parent sf.
Proof.
  intros st st' parent sf [_ [G _]] E H c C. specialize (H c C). destruct c as [ck|k].
  - destruct H as [k [H1 H2]]. exists k. split; [congruence | auto].
  - congruence.
Qed.

Definition bounded (st : state) (used : list nat) : Prop := forall k, In k used -> k < List.length (s_keys st).
Lemma grows_length : forall st st', grows st st' -> List.length (s_keys st) <= List.length (s_keys st').
Proof. intros st st' [[l E] _]. rewrite E, app_length. lia. Qed.

Lemma renaming : forall parent l st used st' used',
  fold_left (rename_one sch parent) l (Some (st, used)) = Some (st', used') ->
  base st -> NoDup (map snd l) -> bounded st used ->
  (forall sf, In sf l -> field_at st (snd sf) = the_field (snd sf) /\ sub_at st (snd sf) = None /\ snd sf < List.length fields) ->
  base st' /\ grows st st' /\ s_fields st' = s_fields st /\ bounded st' used' /\
  (forall f, ~ In f (map snd l) -> sub_at st' f = sub_at st f) /\
  (forall sf, In sf l -> named st' parent sf) /\
  (forall k, In k used -> In k used') /\
  (forall sf k, In sf l -> sub_at st' (snd sf) = Some k -> In k used').
Proof.
  assert (FN : forall parent l, fold_left (rename_one sch parent) l None = None) by (induction l; auto).
  induction l as [|[s f] l IH]; intros st used st' used' H B ND BD HU.
  - cbn in H. inversion H; subst.
    split; [exact B|]. split; [apply grows_refl|]. split; [reflexivity|]. split; [exact BD|]. cbn. tauto.
  - cbn [fold_left] in H. destruct (HU (s, f) (or_introl eq_refl)) as [U1 [U2 U3]]. cbn [snd] in U1, U2, U3.
    inversion ND as [|? ? ND1 ND2]; subst. cbn [snd] in ND1.
    pose proof (reason_classified st parent s f B U1) as RC.
    destruct (rename_one sch parent (Some (st, used)) (s, f)) as [[st1 used1]|] eqn:R; [|rewrite FN in H; discriminate].
    unfold rename_one in R. destruct (reason sch st parent (s, f)) as [[c id]|] eqn:RE.
    + destruct (generate sch st used (Some c) id) as [[st2 k]|] eqn:G; [|discriminate].
      destruct (generate_grows _ _ _ _ _ _ _ (b_renames _ B) (b_nodup _ B) (base_le _ B) G)
        as [G1 [G2 [G3 [G4 [G5 [G6 [_ [G7 _]]]]]]]].
      inversion R; subst st1 used1; clear R.
      match type of H with fold_left _ _ (Some (?x, _)) = _ => set (st1 := x) in * end.
      assert (FS : s_fields st1 = s_fields st) by exact G2.
      assert (GR : grows st st1).
      { destruct G1 as [W1 [W2 [W3 W4]]]. split; [exact W1|]. split; [exact W2|]. split; [exact W3|].
        cbn [st1 s_sub]. rewrite set_nth_length. exact W4. }
      assert (FA : forall g, field_at st1 g = field_at st g) by (intros; unfold field_at; rewrite FS; reflexivity).
      assert (SO : forall g, g <> f -> sub_at st1 g = sub_at st g).
      { intros g Hg. unfold sub_at. cbn [st1 s_sub]. rewrite (set_nth_other _ f g); [rewrite G3; reflexivity | auto]. }
      assert (SS : sub_at st1 f = Some k).
      { unfold sub_at. cbn [st1 s_sub]. cbn [snd]. apply set_nth_same. rewrite G3, (b_subs _ B). exact U3. }
      assert (B1 : base st1).
      { destruct B as [B1 B2 B3 B4 B5 B6 B7 B8 B9 B10]. constructor.
        - destruct B1 as [l1 E1]. destruct GR as [[l2 E2] _]. exists (l1 ++ l2)%list. rewrite E2, E1, app_assoc. reflexivity.
        - exact G5.
        - exact G4.
        - rewrite FS. exact B4.
        - destruct GR as [_ [_ [_ W]]]. congruence.
        - intros g kg Hg. rewrite FA. eauto.
        - intros g. rewrite FA. apply B7.
        - intros g kg Hg. rewrite FA in Hg. apply B8 in Hg. pose proof (grows_length _ _ GR). lia.
        - intros g Hg. destruct (Nat.eq_dec g f) as [->|Ne].
          + exfalso. destruct RC; congruence.
          + rewrite (SO g Ne). auto.
        - intros g kg Hg. destruct (Nat.eq_dec g f) as [->|Ne]; [rewrite SS in Hg; inversion Hg; subst; exact G6|].
          rewrite (SO g Ne) in Hg. apply B10 in Hg. pose proof (grows_length _ _ GR). lia. }
      assert (BD1 : bounded st1 (used ++ [k])).
      { intros j Hj. apply in_app_or in Hj as [Hj|[<-|[]]]; [|exact G6]. apply BD in Hj. pose proof (grows_length _ _ GR). lia. }
      assert (HU1 : forall sf, In sf l -> field_at st1 (snd sf) = the_field (snd sf) /\ sub_at st1 (snd sf) = None /\ snd sf < List.length fields).
      { intros sf Hsf. destruct (HU sf (or_intror Hsf)) as [V1 [V2 V3]]. rewrite FA.
        rewrite SO; [auto|]. intros X. apply ND1. rewrite <- X. apply in_map. exact Hsf. }
      destruct (IH _ _ _ _ H B1 ND2 BD1 HU1) as [C1 [C2 [C3 [C4 [C5 [C6 [C7 C8]]]]]]].
      split; [exact C1|]. split; [exact (grows_trans _ _ _ GR C2)|]. split; [congruence|]. split; [exact C4|].
      split; [|split; [|split]].
      * intros g Hg. cbn [map snd In] in Hg. rewrite C5; [apply SO|]; intuition congruence.
      * intros sf [<-|Hsf]; [|auto]. intros c0 C0. cbn [fst snd] in *.
        rewrite (classified_det _ _ _ _ _ C0 RC). exists k. rewrite C5 by exact ND1. split; [exact SS|].
        destruct C2 as [_ [C2 _]]. apply C2. exact (G7 _ eq_refl).
      * intros j Hj. apply C7. apply in_or_app. auto.
      * intros sf j [<-|Hsf] Hj; [|eauto]. cbn [snd] in Hj. rewrite C5 in Hj by exact ND1. rewrite SS in Hj. inversion Hj; subst.
        apply C7. apply in_or_app. cbn. auto.
    + inversion R; subst st1 used1; clear R.
      assert (HU1 : forall sf, In sf l -> field_at st (snd sf) = the_field (snd sf) /\ sub_at st (snd sf) = None /\ snd sf < List.length fields).
      { intros sf Hsf. apply HU. right. exact Hsf. }
      destruct (IH _ _ _ _ H B ND2 BD HU1) as [C1 [C2 [C3 [C4 [C5 [C6 [C7 C8]]]]]]].
      split; [exact C1|]. split; [exact C2|]. split; [exact C3|]. split; [exact C4|].
      split; [|split; [|split]].
      * intros g Hg. cbn [map snd In] in Hg. apply C5. tauto.
      * intros sf [<-|Hsf]; [|auto]. intros c0 C0. cbn [fst snd] in *. destruct (RC _ C0) as [k ->].
        rewrite C5 by exact ND1. exact U2.
      * exact C7.
      * intros sf j [<-|Hsf] Hj; [|eauto]. cbn [snd] in Hj. rewrite C5 in Hj by exact ND1. congruence.
Qed.

(** * Extra fields *)
Section Set_.
Variable parent : nat.
Variable V : list (nat * nat).
Hypothesis V_exist : forall sf, In sf V -> snd sf < List.length fields.
Definition member (f : nat) : Prop := In f (map snd V).
Definition covered (st : state) (used : list nat) : Prop :=
  forall f k, member f -> q_key (field_at st f) = Some k \/ sub_at st f = Some k -> In k used.
Definition separate (st : state) : Prop :=
  forall e def k g, member e -> extra fields e def -> q_key (field_at st e) = Some k -> member g ->
  q_key (field_at st g) = Some k \/ sub_at st g = Some k ->
  g = e \/
  (of_interface sch parent (d_name (definitions sch def)) /\
   exists h, member h /\ h <> e /\ has_name sch fields h (d_name (definitions sch def)) /\ q_key (field_at st h) = Some k).

Lemma set_key_at : forall st f k, base st -> f < List.length fields ->
  q_key (field_at (set_key f k st) f) = Some k /\ q_def (field_at (set_key f k st) f) = q_def (field_at st f).
Proof.
  intros st f k B H. unfold field_at, set_key. cbn [s_fields]. rewrite set_nth_same by (rewrite (b_fields _ B); exact H).
  split; reflexivity.
Qed.
Lemma set_key_other : forall st f g k, g <> f -> field_at (set_key f k st) g = field_at st g.
Proof. intros. unfold field_at, set_key. cbn [s_fields]. apply set_nth_other. auto. Qed.
Lemma set_key_sub : forall st f k g, sub_at (set_key f k st) g = sub_at st g.
Proof. reflexivity. Qed.
Lemma set_key_base : forall st f k, base st -> f < List.length fields -> q_key (the_field f) = None ->
  k < List.length (s_keys st) -> base (set_key f k st).
Proof.
  intros st f k B Hf Hn Hk. destruct (set_key_at st f k B Hf) as [A1 A2]. destruct B as [B1 B2 B3 B4 B5 B6 B7 B8 B9 B10]. constructor; auto.
  - cbn [set_key s_fields]. rewrite set_nth_length. exact B4.
  - intros g kg Hg. rewrite set_key_other; [eauto|]. intros ->. congruence.
  - intros g. destruct (Nat.eq_dec g f) as [->|Ne]; [rewrite A2; apply B7 | rewrite set_key_other by exact Ne; apply B7].
  - intros g kg Hg. cbn [set_key s_keys]. destruct (Nat.eq_dec g f) as [->|Ne]; [congruence|].
    rewrite set_key_other in Hg by exact Ne. exact (B8 _ _ Hg).
Qed.
Lemma set_key_grows : forall st f k, grows st (set_key f k st).
Proof.
  intros. split; [exists []; symmetry; apply app_nil_r|]. split; [auto|]. split; [apply set_nth_length | reflexivity].
Qed.
Lemma grows_base : forall st st', base st -> grows st st' -> s_fields st' = s_fields st -> s_sub st' = s_sub st ->
  renames_ok (List.length keys) st' -> NoDup (s_keys st') -> base st'.
Proof.
  intros st st' [B1 B2 B3 B4 B5 B6 B7 B8 B9 B10] G F U R ND.
  assert (FA : forall g, field_at st' g = field_at st g) by (intros; unfold field_at; rewrite F; reflexivity).
  constructor; try assumption; try (rewrite ?F, ?U; assumption).
  - destruct B1 as [l1 E1]. destruct G as [[l2 E2] _]. exists (l1 ++ l2)%list. rewrite E2, E1, app_assoc. reflexivity.
  - intros g k H. rewrite FA. eauto.
  - intros g. rewrite FA. apply B7.
  - intros g k H. rewrite FA in H. apply B8 in H. pose proof (grows_length _ _ G). lia.
  - intros g H. unfold sub_at. rewrite U. apply B9. exact H.
  - intros g k H. unfold sub_at in H. rewrite U in H. apply B10 in H. pose proof (grows_length _ _ G). lia.
Qed.

Lemma keying : forall l st used st' used',
  fold_left (key_one sch parent V) l (Some (st, used)) = Some (st', used') ->
  (forall sf, In sf l -> In sf V) ->
  base st -> bounded st used -> covered st used -> separate st ->
  base st' /\ grows st st' /\ s_sub st' = s_sub st /\ separate st' /\
  (forall f, ~ member f -> field_at st' f = field_at st f) /\
  (forall sf def, In sf l -> extra fields (snd sf) def -> q_key (field_at st' (snd sf)) <> None) /\
  (forall f k, q_key (field_at st f) = Some k -> q_key (field_at st' f) = Some k).
Proof.
  assert (FN : forall l, fold_left (key_one sch parent V) l None = None) by (induction l; auto).
  induction l as [|[s f] l IH]; intros st used st' used' H HV B BD CV SP.
  - cbn in H. inversion H; subst.
    split; [exact B|]. split; [apply grows_refl|]. split; [reflexivity|]. split; [exact SP|]. cbn. tauto.
  - cbn [fold_left] in H. assert (INV : In (s, f) V) by (apply HV; left; reflexivity).
    assert (MF : member f) by (apply (in_map snd) in INV; exact INV).
    pose proof (V_exist _ INV) as FL. cbn [snd] in FL.
    assert (HV' : forall sf, In sf l -> In sf V) by (intros; apply HV; right; assumption).
    destruct (key_one sch parent V (Some (st, used)) (s, f)) as [[st1 used1]|] eqn:R; [|rewrite FN in H; discriminate].
    (* the conclusion, from what one step does *)
    assert (STEP : base st1 -> grows st st1 -> s_sub st1 = s_sub st -> bounded st1 used1 -> covered st1 used1 -> separate st1 ->
      (forall g, g <> f -> field_at st1 g = field_at st g) ->
      (forall k, q_key (field_at st f) = Some k -> q_key (field_at st1 f) = Some k) ->
      (forall def, extra fields f def -> q_key (field_at st1 f) <> None) ->
      base st' /\ grows st st' /\ s_sub st' = s_sub st /\ separate st' /\
      (forall f, ~ member f -> field_at st' f = field_at st f) /\
      (forall sf def, In sf ((s, f) :: l) -> extra fields (snd sf) def -> q_key (field_at st' (snd sf)) <> None) /\
      (forall f k, q_key (field_at st f) = Some k -> q_key (field_at st' f) = Some k)).
    { intros S1 S2 S3 S4 S5 S6 S7 S8 S9.
      destruct (IH _ _ _ _ H HV' S1 S4 S5 S6) as [C1 [C2 [C3 [C4 [C5 [C6 C7]]]]]].
      split; [exact C1|]. split; [exact (grows_trans _ _ _ S2 C2)|]. split; [congruence|]. split; [exact C4|].
      split; [|split].
      - intros g Hg. rewrite (C5 g Hg). apply S7. intros ->. exact (Hg MF).
      - intros sf def [<-|Hsf] E; [|eauto]. cbn [snd] in *. specialize (S9 _ E).
        destruct (q_key (field_at st1 f)) as [k|] eqn:K; [|congruence]. rewrite (C7 _ _ K). discriminate.
      - intros g k Hg. apply C7. destruct (Nat.eq_dec g f) as [->|Ne]; [auto | rewrite S7 by exact Ne; exact Hg]. }
    unfold key_one in R. cbn [snd] in R.
    destruct (q_key (field_at st f)) as [k0|] eqn:K.
    { inversion R; subst st1 used1. apply STEP; try solve [auto]; try apply grows_refl; intros; congruence. }
    assert (EX : q_key (the_field f) = None).
    { destruct (q_key (the_field f)) eqn:E; [|reflexivity]. pose proof (b_client _ B _ _ E). congruence. }
    destruct (q_def (field_at st f)) as [def|] eqn:D.
    2:{ inversion R; subst st1 used1. apply STEP; try solve [auto]; try apply grows_refl; [intros; congruence|].
        intros def [_ E]. rewrite (b_def _ B) in D. congruence. }
    assert (SUBF : sub_at st f = None) by exact (b_extra _ B _ EX).
    assert (DF : q_def (the_field f) = Some def) by (rewrite <- (b_def _ B); exact D).
    destruct (reused sch st parent V (d_name (definitions sch def))) as [k|] eqn:RU.
    + inversion R; subst st1 used1; clear R.
      unfold reused in RU.
      destruct (interface sch parent) as [names|] eqn:IF; [|discriminate].
      destruct (existsb (N.eqb (d_name (definitions sch def))) names) eqn:IN; [|discriminate].
      assert (OI : of_interface sch parent (d_name (definitions sch def))).
      { exists names. split; [exact IF|]. apply existsb_exists in IN as [x [X1 X2]]. apply N.eqb_eq in X2. subst. exact X1. }
      destruct (find _ V) as [[s1 h]|] eqn:F; [|discriminate]. apply find_some in F as [F1 F2]. cbn [snd] in *.
      rewrite RU in F2. destruct (q_def (field_at st h)) as [dh|] eqn:DH; [|discriminate]. apply N.eqb_eq in F2.
      assert (MH : member h) by (apply (in_map snd) in F1; exact F1).
      assert (NH : has_name sch fields h (d_name (definitions sch def))).
      { exists dh. split; [rewrite <- (b_def _ B); exact DH | exact F2]. }
      assert (HF : h <> f) by congruence.
      assert (KL : k < List.length (s_keys st)) by exact (b_exist _ B _ _ RU).
      destruct (set_key_at st f k B FL) as [A1 A2].
      apply STEP.
      * apply set_key_base; assumption.
      * apply set_key_grows.
      * reflexivity.
      * intros j Hj. exact (BD j Hj).
      * intros g j Mg Hg. rewrite set_key_sub in Hg. destruct (Nat.eq_dec g f) as [->|Ne].
        -- destruct Hg as [Hg|Hg]; [|congruence]. rewrite A1 in Hg. inversion Hg; subst j. apply (CV h k MH). auto.
        -- rewrite (set_key_other _ _ _ _ Ne) in Hg. eauto.
      * (* separate *)
        intros e de j g Me Ee Ke Mg Hg. rewrite set_key_sub in Hg.
        destruct (Nat.eq_dec e f) as [->|Ne].
        -- rewrite A1 in Ke. inversion Ke; subst j. right. assert (de = def) by (destruct Ee; congruence). subst de.
           split; [exact OI|]. exists h. split; [exact MH|]. split; [exact HF|]. split; [exact NH|].
           rewrite set_key_other by exact HF. exact RU.
        -- rewrite (set_key_other _ _ _ _ Ne) in Ke. destruct (Nat.eq_dec g f) as [->|Ng].
           ++ assert (j = k) by (destruct Hg as [Hg|Hg]; congruence). subst j.
              destruct (Nat.eq_dec h e) as [->|Nh].
              ** right. assert (de = dh) by (destruct Ee as [_ Ee]; rewrite (b_def _ B) in DH; congruence). subst de. rewrite F2.
                 split; [exact OI|]. exists f. split; [exact Mg|]. split; [congruence|]. split; [exists def; auto|]. exact A1.
              ** destruct (SP e de k h Me Ee Ke MH (or_introl RU)) as [->|[P1 [h' [P2 [P3 [P4 P5]]]]]]; [congruence|].
                 right. split; [exact P1|]. exists h'. split; [exact P2|]. split; [exact P3|]. split; [exact P4|].
                 rewrite set_key_other; [exact P5|]. congruence.
           ++ rewrite (set_key_other _ _ _ _ Ng) in Hg.
              destruct (SP e de j g Me Ee Ke Mg Hg) as [->|[P1 [h' [P2 [P3 [P4 P5]]]]]]; [auto|].
              right. split; [exact P1|]. exists h'. split; [exact P2|]. split; [exact P3|]. split; [exact P4|].
              rewrite set_key_other; [exact P5|]. congruence.
      * intros g Ng. apply set_key_other. exact Ng.
      * intros j Hj. discriminate.
      * intros de _. rewrite A1. discriminate.
    + destruct (generate sch st used None (d_name (definitions sch def))) as [[st2 k]|] eqn:G; [|discriminate].
      inversion R; subst st1 used1; clear R.
      destruct (generate_grows _ _ _ _ _ _ _ (b_renames _ B) (b_nodup _ B) (base_le _ B) G)
        as [G1 [G2 [G3 [G4 [G5 [G6 [_ [_ G7]]]]]]]].
      assert (NU : ~ In k used) by (destruct (G7 eq_refl) as [X|X]; [exact X | intros Y; apply BD in Y; lia]).
      assert (B2 : base st2) by exact (grows_base _ _ B G1 G2 G3 G4 G5).
      assert (FA : forall g, field_at st2 g = field_at st g) by (intros; unfold field_at; rewrite G2; reflexivity).
      assert (SA : forall g, sub_at st2 g = sub_at st g) by (intros; unfold sub_at; rewrite G3; reflexivity).
      destruct (set_key_at st2 f k B2 FL) as [A1 A2].
      apply STEP.
      * apply set_key_base; assumption.
      * exact (grows_trans _ _ _ G1 (set_key_grows _ _ _)).
      * exact G3.
      * intros j Hj. cbn [set_key s_keys]. apply in_app_or in Hj as [Hj|[<-|[]]]; [|exact G6]. apply BD in Hj.
        pose proof (grows_length _ _ G1). lia.
      * intros g j Mg Hg. rewrite set_key_sub, SA in Hg. apply in_or_app. destruct (Nat.eq_dec g f) as [->|Ne].
        -- destruct Hg as [Hg|Hg]; [|congruence]. rewrite A1 in Hg. inversion Hg; subst j. right. left. reflexivity.
        -- rewrite (set_key_other _ _ _ _ Ne), FA in Hg. left. eauto.
      * intros e de j g Me Ee Ke Mg Hg. rewrite set_key_sub, SA in Hg.
        destruct (Nat.eq_dec e f) as [->|Ne].
        -- rewrite A1 in Ke. inversion Ke; subst j. destruct (Nat.eq_dec g f) as [->|Ng]; [auto|].
           rewrite (set_key_other _ _ _ _ Ng), FA in Hg. exfalso. apply NU. exact (CV g k Mg Hg).
        -- rewrite (set_key_other _ _ _ _ Ne), FA in Ke. destruct (Nat.eq_dec g f) as [->|Ng].
           ++ assert (j = k) by (destruct Hg as [Hg|Hg]; congruence). subst j. exfalso. apply NU. apply (CV e k Me). auto.
           ++ rewrite (set_key_other _ _ _ _ Ng), FA in Hg.
              destruct (SP e de j g Me Ee Ke Mg Hg) as [->|[P1 [h' [P2 [P3 [P4 P5]]]]]]; [auto|].
              right. split; [exact P1|]. exists h'. split; [exact P2|]. split; [exact P3|]. split; [exact P4|].
              rewrite set_key_other by congruence. rewrite FA. exact P5.
      * intros g Ng. rewrite set_key_other by exact Ng. apply FA.
      * intros j Hj. discriminate.
      * intros de _. rewrite A1. discriminate.
Qed.
End Set_.

(** * Selection sets *)
Definition untouched (st : state) (sf : nat * nat) : Prop :=
  field_at st (snd sf) = the_field (snd sf) /\ sub_at st (snd sf) = None /\ snd sf < List.length fields.
Record finished (st : state) (v : selection) : Prop := {
  f_named : forall sf, In sf (v_fields v) -> named st (v_parent v) sf;
  f_separate : separate (v_parent v) (v_fields v) st;
  f_extra : forall sf def, In sf (v_fields v) -> extra fields (snd sf) def -> q_key (field_at st (snd sf)) <> None
}.
Lemma finished_later : forall st st' v, grows st st' ->
  (forall f, In f (map snd (v_fields v)) -> field_at st' f = field_at st f /\ sub_at st' f = sub_at st f) ->
  finished st v -> finished st' v.
Proof.
  intros st st' v G E [F1 F2 F3]. constructor.
  - intros sf H. apply named_grows with st; [exact G | apply E, in_map, H | auto].
  - intros e def k g Me Ee Ke Mg Hg. destruct (E e Me) as [E1 _]. destruct (E g Mg) as [E2 E3].
    rewrite E1 in Ke. rewrite E2, E3 in Hg. destruct (F2 e def k g Me Ee Ke Mg Hg) as [X|[P1 [h [P2 [P3 [P4 P5]]]]]]; [auto|].
    right. split; [exact P1|]. exists h. split; [exact P2|]. split; [exact P3|]. split; [exact P4|].
    rewrite (proj1 (E h P2)). exact P5.
  - intros sf def H X. rewrite (proj1 (E _ (in_map snd _ _ H))). eauto.
Qed.

Lemma adjusting : forall v st st', adjust_set sch st v = Some st' -> base st -> NoDup (map snd (v_fields v)) ->
  (forall sf, In sf (v_fields v) -> untouched st sf) ->
  base st' /\ grows st st' /\ finished st' v /\
  (forall f, ~ In f (map snd (v_fields v)) -> field_at st' f = field_at st f /\ sub_at st' f = sub_at st f).
Proof.
  intros v st st' H B ND U. unfold adjust_set in H.
  destruct (fold_left (rename_one sch (v_parent v)) (v_fields v) (Some (st, client_keys st (v_fields v)))) as [[st1 used1]|] eqn:R; [|discriminate].
  destruct (fold_left (key_one sch (v_parent v) (v_fields v)) (v_fields v) (Some (st1, used1))) as [[st2 used2]|] eqn:K; [|discriminate].
  inversion H; subst st2; clear H.
  assert (CK : forall f k, In f (map snd (v_fields v)) -> q_key (field_at st f) = Some k -> In k (client_keys st (v_fields v))).
  { intros f k Hf Hk. apply in_map_iff in Hf as [sf [<- Hsf]]. unfold client_keys. apply in_flat_map. exists sf.
    split; [exact Hsf|]. rewrite Hk. left. reflexivity. }
  assert (BD : bounded st (client_keys st (v_fields v))).
  { intros k Hk. apply in_flat_map in Hk as [sf [_ Hk]]. destruct (q_key (field_at st (snd sf))) as [k'|] eqn:E; [|destruct Hk].
    destruct Hk as [<-|[]]. exact (b_exist _ B _ _ E). }
  destruct (renaming _ _ _ _ _ _ R B ND BD U) as [R1 [R2 [R3 [R4 [R5 [R6 [R7 R8]]]]]]].
  assert (FA : forall f, field_at st1 f = field_at st f) by (intros; unfold field_at; rewrite R3; reflexivity).
  assert (CV : covered (v_fields v) st1 used1).
  { intros f k Mf [Hk|Hk].
    - rewrite FA in Hk. apply R7. exact (CK f k Mf Hk).
    - apply in_map_iff in Mf as [sf [<- Hsf]]. exact (R8 sf k Hsf Hk). }
  assert (SP : separate (v_parent v) (v_fields v) st1).
  { intros e def k g Me [Ee _] Ke. apply in_map_iff in Me as [sf [<- Hsf]]. rewrite FA, (proj1 (U sf Hsf)) in Ke. congruence. }
  destruct (keying (v_parent v) (v_fields v) (fun sf Hsf => proj2 (proj2 (U sf Hsf))) _ _ _ _ _ K (fun _ h => h) R1 R4 CV SP)
    as [K1 [K2 [K3 [K4 [K5 [K6 K7]]]]]].
  assert (SA : forall f, sub_at st' f = sub_at st1 f) by (intros; unfold sub_at; rewrite K3; reflexivity).
  split; [exact K1|]. split; [exact (grows_trans _ _ _ R2 K2)|]. split.
  - constructor; [|exact K4|exact K6]. intros sf Hsf. apply named_grows with st1; [exact K2 | apply SA | auto].
  - intros f Hf. rewrite (K5 f Hf), FA, SA. split; [reflexivity | apply R5; exact Hf].
Qed.

Lemma adjusted : forall l st st', adjust sch st l = Some st' -> base st -> NoDup (map snd (flat_map v_fields l)) ->
  (forall v sf, In v l -> In sf (v_fields v) -> untouched st sf) ->
  base st' /\ grows st st' /\ (forall v, In v l -> finished st' v) /\
  (forall f, ~ In f (map snd (flat_map v_fields l)) -> field_at st' f = field_at st f /\ sub_at st' f = sub_at st f).
Proof.
  induction l as [|v l IH]; intros st st' H B ND U.
  - cbn in H. inversion H; subst. split; [exact B|]. split; [apply grows_refl|]. cbn. tauto.
  - cbn [adjust] in H. destruct (adjust_set sch st v) as [st1|] eqn:A; [|discriminate].
    cbn [flat_map] in ND. rewrite map_app in ND.
    destruct (NoDup_parts _ _ _ ND) as [N1 [N2 DJ]].
    destruct (adjusting _ _ _ A B N1 (fun sf Hsf => U v sf (or_introl eq_refl) Hsf)) as [A1 [A2 [A3 A4]]].
    assert (U1 : forall w sf, In w l -> In sf (v_fields w) -> untouched st1 sf).
    { intros w sf Hw Hsf. destruct (U w sf (or_intror Hw) Hsf) as [X1 [X2 X3]].
      assert (NI : ~ In (snd sf) (map snd (v_fields v))).
      { intros X. apply (DJ _ X). apply in_map. apply in_flat_map. eauto. }
      destruct (A4 _ NI) as [Y1 Y2]. split; [congruence|]. split; [congruence | exact X3]. }
    destruct (IH _ _ H A1 N2 U1) as [C1 [C2 [C3 C4]]].
    split; [exact C1|]. split; [exact (grows_trans _ _ _ A2 C2)|]. split.
    + intros w [<-|Hw]; [|auto]. apply finished_later with st1; [exact C2| |exact A3].
      intros f Hf. apply C4. intros X. exact (DJ _ Hf X).
    + intros f Hf. cbn [flat_map] in Hf. rewrite map_app, in_app_iff in Hf.
      assert (H1 : ~ In f (map snd (flat_map v_fields l))) by tauto.
      assert (H2 : ~ In f (map snd (v_fields v))) by tauto.
      destruct (C4 f H1) as [-> ->]. exact (A4 f H2).
Qed.

Lemma initial_sub : forall f, sub_at (initial keys fields) f = None.
Proof.
  intros f. unfold sub_at. cbn [initial s_sub]. destruct (nth_in_or_default f (map (fun _ => None) fields) (@None nat)) as [E|E]; [|exact E].
  apply in_map_iff in E as [? [E _]]. symmetry. exact E.
Qed.
Lemma initial_base : base (initial keys fields).
Proof.
  constructor; cbn [initial s_keys s_fields s_sub s_renames].
  - exists []. symmetry. apply app_nil_r.
  - exact keys_nodup.
  - split; cbn; intros; discriminate.
  - reflexivity.
  - apply map_length.
  - reflexivity.
  - reflexivity.
  - intros f k H. exact (key_exists f k H).
  - intros f _. apply initial_sub.
  - intros f k H. rewrite initial_sub in H. discriminate.
Qed.
End Proofs.

(** * No panic *)
Section Count.
Variable sch : schema.
Definition keyed (st : state) (sf : nat * nat) : bool := match q_key (field_at st (snd sf)) with Some _ => true | None => false end.
Definition count (p : nat * nat -> bool) (l : list (nat * nat)) : nat := List.length (filter p l).
Lemma count_both : forall p l, count p l + count (fun x => negb (p x)) l = List.length l.
Proof. unfold count. induction l as [|x l IH]; cbn [filter List.length]; [reflexivity|]. destruct (p x); cbn [negb List.length] in *; lia. Qed.
Lemma count_le : forall (p q : nat * nat -> bool) l, (forall x, q x = true -> p x = true) -> count q l <= count p l.
Proof.
  unfold count. intros p q l H. induction l as [|x l IH]; cbn [filter List.length]; [lia|].
  destruct (q x) eqn:Q; [rewrite (H _ Q); cbn [List.length]; lia | destruct (p x); cbn [List.length]; lia].
Qed.
Lemma generate_length : forall st used c id st' k, generate sch st used c id = Some (st', k) ->
  List.length (s_keys st') <= S (List.length (s_keys st)) /\ s_fields st' = s_fields st.
Proof.
  intros st used c id st' k H. destruct (generate_cases _ _ _ _ _ _ _ H) as [[-> _]|[[-> _]|[_ [s [_ E]]]]]; [auto|auto|].
  unfold intern in E. inversion E; subst. cbn [s_keys s_fields]. rewrite app_length. cbn. split; [lia | reflexivity].
Qed.
Lemma rename_count : forall parent l st used, List.length (s_keys st) + count (keyed st) l <= 256 ->
  exists st' used', fold_left (rename_one sch parent) l (Some (st, used)) = Some (st', used') /\
    s_fields st' = s_fields st /\ List.length (s_keys st') <= List.length (s_keys st) + count (keyed st) l.
Proof.
  induction l as [|[s f] l IH]; intros st used H.
  - exists st, used. split; [reflexivity|]. split; [reflexivity | lia].
  - cbn [fold_left]. unfold rename_one at 2. destruct (reason sch st parent (s, f)) as [[c id]|] eqn:R.
    + assert (K : keyed st (s, f) = true).
      { unfold reason in R. unfold keyed. cbn [snd]. destruct (q_key (field_at st f)); [reflexivity | discriminate]. }
      assert (CE : count (keyed st) ((s, f) :: l) = S (count (keyed st) l)) by (unfold count; cbn [filter]; rewrite K; reflexivity).
      rewrite CE in *.
      destruct (generate sch st used (Some c) id) as [[st1 k]|] eqn:G.
      2:{ exfalso. apply (generate_some sch st used (Some c) id); [lia | exact G]. }
      apply generate_length in G as [G1 G2]. cbn [snd].
      match goal with |- exists _ _, fold_left _ _ (Some (?x, ?u)) = _ /\ _ => destruct (IH x u) as [st' [used' [I1 [I2 I3]]]] end.
      * unfold count, keyed, field_at in *. cbn [s_keys s_fields]. rewrite G2. lia.
      * exists st', used'. split; [exact I1|]. unfold count, keyed, field_at in *. cbn [s_keys s_fields] in *. rewrite G2 in *.
        split; [exact I2 | lia].
    + assert (CE : count (keyed st) l <= count (keyed st) ((s, f) :: l)) by (unfold count; cbn [filter]; destruct (keyed st (s, f)); cbn [List.length]; lia).
      destruct (IH st used) as [st' [used' [I1 [I2 I3]]]]; [lia|]. exists st', used'. split; [exact I1|]. split; [exact I2 | lia].
Qed.
Lemma set_key_keyed : forall st st0 f k x, s_fields st0 = s_fields st -> keyed st x = true -> keyed (set_key f k st0) x = true.
Proof.
  intros st st0 f k [s g] E H. unfold keyed, field_at in *. cbn [snd set_key s_fields] in *. rewrite E.
  destruct (Nat.eq_dec f g) as [->|Ne].
  - destruct (Nat.lt_ge_cases g (List.length (s_fields st))) as [L|L].
    + rewrite set_nth_same by exact L. reflexivity.
    + rewrite nth_overflow in H by exact L. discriminate.
  - rewrite set_nth_other by exact Ne. exact H.
Qed.
Lemma key_count : forall parent V l st used, List.length (s_keys st) + count (fun x => negb (keyed st x)) l <= 256 ->
  exists st' used', fold_left (key_one sch parent V) l (Some (st, used)) = Some (st', used') /\
    List.length (s_keys st') <= List.length (s_keys st) + count (fun x => negb (keyed st x)) l.
Proof.
  intros parent V. induction l as [|[s f] l IH]; intros st used H.
  - exists st, used. split; [reflexivity | lia].
  - cbn [fold_left]. unfold key_one at 2. cbn [snd].
    assert (GEN : forall st1 used1, List.length (s_keys st1) + count (fun x => negb (keyed st1 x)) l <= List.length (s_keys st) + count (fun x => negb (keyed st x)) ((s, f) :: l) ->
      exists st' used', fold_left (key_one sch parent V) l (Some (st1, used1)) = Some (st', used') /\
        List.length (s_keys st') <= List.length (s_keys st) + count (fun x => negb (keyed st x)) ((s, f) :: l)).
    { intros st1 used1 L. destruct (IH st1 used1) as [st' [used' [I1 I2]]]; [lia|]. exists st', used'. split; [exact I1 | lia]. }
    assert (CE : count (fun x => negb (keyed st x)) l <= count (fun x => negb (keyed st x)) ((s, f) :: l))
      by (unfold count; cbn [filter]; destruct (negb (keyed st (s, f))); cbn [List.length]; lia).
    destruct (q_key (field_at st f)) as [k|] eqn:K; [apply GEN; lia|].
    destruct (q_def (field_at st f)) as [def|] eqn:D; [|apply GEN; lia].
    assert (KN : keyed st (s, f) = false) by (unfold keyed; cbn [snd]; rewrite K; reflexivity).
    assert (CS : count (fun x => negb (keyed st x)) ((s, f) :: l) = S (count (fun x => negb (keyed st x)) l))
      by (unfold count; cbn [filter]; rewrite KN; reflexivity).
    assert (MONO : forall st0 k0, s_fields st0 = s_fields st ->
      count (fun x => negb (keyed (set_key f k0 st0) x)) l <= count (fun x => negb (keyed st x)) l).
    { intros st0 k0 E. apply count_le. intros x Hx. apply negb_true_iff in Hx. apply negb_true_iff.
      destruct (keyed st x) eqn:Y; [|reflexivity]. rewrite (set_key_keyed st st0 f k0 x E Y) in Hx. discriminate. }
    destruct (reused sch st parent V (d_name (definitions sch def))) as [k|].
    + apply GEN. cbn [set_key s_keys]. specialize (MONO st k eq_refl). cbn [set_key] in MONO. lia.
    + destruct (generate sch st used None (d_name (definitions sch def))) as [[st1 k]|] eqn:G.
      2:{ exfalso. apply (generate_some sch st used None (d_name (definitions sch def))); [lia | exact G]. }
      apply generate_length in G as [G1 G2]. apply GEN. specialize (MONO st1 k G2). change (s_keys (set_key f k st1)) with (s_keys st1). lia.
Qed.
Lemma adjust_some : forall l st, List.length (s_keys st) + List.length (flat_map v_fields l) <= 256 -> adjust sch st l <> None.
Proof.
  induction l as [|v l IH]; intros st H; cbn [adjust]; [discriminate|].
  cbn [flat_map] in H. rewrite app_length in H.
  pose proof (count_both (keyed st) (v_fields v)) as CB.
  unfold adjust_set.
  destruct (rename_count (v_parent v) (v_fields v) st (client_keys st (v_fields v))) as [st1 [used1 [R1 [R2 R3]]]]; [lia|].
  rewrite R1.
  assert (E : count (fun x => negb (keyed st1 x)) (v_fields v) = count (fun x => negb (keyed st x)) (v_fields v)).
  { unfold count, keyed, field_at. rewrite R2. reflexivity. }
  destruct (key_count (v_parent v) (v_fields v) (v_fields v) st1 used1) as [st2 [used2 [K1 K2]]]; [lia|].
  rewrite K1. apply IH. lia.
Qed.
End Count.
