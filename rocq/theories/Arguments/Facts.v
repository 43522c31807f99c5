(** Facts about the coercion of literals: which ones are accepted and what they stand for. *)
From Coq Require Import ZArith QArith String List Bool Lia Arith.
From Verif.Wrapping Require Import Spec Proofs.
From Verif.Coercion Require Import Json Model Properties.
From Verif.Coercion Require Proofs.
From Verif.Arguments Require Import Model Spec.
Import ListNotations.
Local Open Scope list_scope.
Local Open Scope nat_scope.

Section lit_ind.
  Variable P : lit -> Prop.
  Hypothesis Hnull : P LNull.
  Hypothesis Hint : forall z, P (LInt z).
  Hypothesis Hfloat : forall m e, P (LFloat m e).
  Hypothesis Hstr : forall s, P (LStr s).
  Hypothesis Hbool : forall b, P (LBool b).
  Hypothesis Henum : forall s, P (LEnum s).
  Hypothesis Hlist : forall l, Forall P l -> P (LList l).
  Hypothesis Hobj : forall fs, Forall (fun kv => P (snd kv)) fs -> P (LObj fs).
  Hypothesis Hvar : forall x, P (LVar x).
  Fixpoint lit_ind' (v : lit) : P v :=
    match v with
    | LNull => Hnull
    | LInt z => Hint z
    | LFloat m e => Hfloat m e
    | LStr s => Hstr s
    | LBool b => Hbool b
    | LEnum s => Henum s
    | LList l => Hlist l ((fix go l : Forall P l :=
        match l with [] => Forall_nil _ | x :: l' => Forall_cons _ (lit_ind' x) (go l') end) l)
    | LObj fs => Hobj fs ((fix go l : Forall (fun kv => P (snd kv)) l :=
        match l with [] => Forall_nil _ | x :: l' => Forall_cons _ (lit_ind' (snd x)) (go l') end) fs)
    | LVar x => Hvar x
    end.
End lit_ind.

(** ** Variables *)
Lemma position_spec x vars : forall i j v, position x vars i = Some (j, v) ->
  v_name v = x /\ i <= j /\ nth_error vars (j - i) = Some v.
Proof.
  induction vars as [|v0 vars IH]; intros i j v; cbn [position]; [discriminate|].
  destruct (String.eqb_spec (v_name v0) x) as [E|E].
  - intros H. injection H as <- <-. rewrite Nat.sub_diag. auto.
  - intros H. apply IH in H as (H1 & H2 & H3). split; [auto|]. split; [lia|].
    replace (j - i) with (S (j - S i)) by lia. exact H3.
Qed.
Lemma position_some x vars v : In v vars -> v_name v = x -> forall i, exists p, position x vars i = Some p.
Proof.
  intros H E. induction vars as [|v0 vars IH]; [destruct H|]. intros i. cbn [position].
  destruct (String.eqb_spec (v_name v0) x) as [E'|E']; [eauto|].
  destruct H as [->|H]; [congruence|]. apply IH; auto.
Qed.
Lemma nodup_name_eq vars a b : NoDup (map v_name vars) -> In a vars -> In b vars -> v_name a = v_name b -> a = b.
Proof.
  intros Nd. induction vars as [|v vars IH]; [intros []|]. cbn [map] in Nd. inversion Nd as [|? ? Hn Nd']; subst.
  intros [->|Ha] [->|Hb] E; auto.
  - exfalso. apply Hn. rewrite E. apply in_map; auto.
  - exfalso. apply Hn. rewrite <- E. apply in_map; auto.
Qed.

Lemma compatible_iff vt vw uv t w u : denotes vw uv -> denotes w u ->
  (are_type_compatibles vt vw t w = true <-> vt = t /\ usable_as uv u).
Proof.
  intros Dv Du. unfold are_type_compatibles, usable_as.
  rewrite (denotes_is_list _ _ Dv), (denotes_is_non_null _ _ Dv), (denotes_is_non_null _ _ Du).
  apply denotes_iff in Dv as [Hv ->]. apply denotes_iff in Du as [Hu ->].
  rewrite andb_true_iff, Nat.eqb_eq, orb_true_iff, (is_lenient_enc u uv Hu Hv).
  apply and_iff_compat_l. split.
  - intros [H|H]; [auto|]. right. apply andb_true_iff in H as [H1 H2]. apply negb_true_iff in H1. split; [auto|].
    intros R. rewrite R in H2. exact H2.
  - intros [H|[H1 H2]]; [auto|]. right. rewrite H1. cbn [negb andb]. destruct (required u); [|reflexivity].
    cbn [negb orb]. auto.
Qed.

(** ** Custom scalars *)
Definition not_ref (q : qval) : Prop := forall id o, q <> QVar id o.
Lemma sequence_list {A B} (g : A -> result B) (P : A -> Prop) l :
  Forall (fun x => (exists y, g x = Ok y) <-> P x) l -> ((exists ys, sequence (map g l) = Ok ys) <-> Forall P l).
Proof.
  intros H. induction H as [|x l Hx H IH]; cbn [map sequence].
  - split; eauto.
  - split.
    + intros [ys E]. apply Proofs.bind_ok in E as (y & E1 & E). apply Proofs.bind_ok in E as (ys' & E2 & E).
      constructor; [apply Hx; eauto|apply IH; eauto].
    + intros F. inversion F as [|? ? Px Pl]; subst. apply Hx in Px as [y ->]. apply IH in Pl as [ys ->].
      cbn [bind]. eauto.
Qed.
Lemma custom_plain v : (exists q, coerce_custom v = Ok q) <-> plain v.
Proof.
  induction v as [|z|m e|s|b|s|l IH|fs IH|x] using lit_ind'; cbn [coerce_custom];
    try solve [split; [intros _; constructor|eauto]].
  - split; [intros [q H]; discriminate|intros H; inversion H].
  - split.
    + intros [q H]. apply Proofs.bind_ok in H as (l' & H & _). constructor.
      apply (proj1 (sequence_list _ _ _ IH)). eauto.
    + intros H. inversion H as [| | | | |l0 F|]; subst. apply (proj2 (sequence_list _ _ _ IH)) in F as [ys ->].
      cbn [bind]. eauto.
  - assert (IH' : Forall (fun kv : string * lit =>
        (exists y, bind (coerce_custom (snd kv)) (fun q => Ok (fst kv, q)) = Ok y) <-> plain (snd kv)) fs).
    { eapply Forall_impl; [|exact IH]. intros [k v] Hv. cbn [fst snd] in *. rewrite <- Hv. split.
      - intros [y H]. apply Proofs.bind_ok in H as (q & H & _). eauto.
      - intros [q ->]. cbn [bind]. eauto. }
    split.
    + intros [q H]. apply Proofs.bind_ok in H as (l' & H & _). constructor.
      apply (proj1 (sequence_list _ (fun kv => plain (snd kv)) _ IH')). eauto.
    + intros H. inversion H as [| | | | | |fs0 F]; subst.
      apply (proj2 (sequence_list _ (fun kv => plain (snd kv)) _ IH')) in F as [ys ->]. cbn [bind]. eauto.
  - split; [intros [q H]; discriminate|intros H; inversion H].
Qed.
Lemma custom_stands env v : forall q, coerce_custom v = Ok q -> stands_custom v (ser_q env q) /\ not_ref q.
Proof.
  induction v as [|z|m e|s|b|s|l IH|fs IH|x] using lit_ind'; cbn [coerce_custom]; intros q H;
    try (injection H as <-; split; [constructor|intros id o; discriminate]); try discriminate.
  - apply Proofs.bind_ok in H as (l' & H & E). injection E as <-. split; [|intros id o; discriminate].
    cbn [ser_q]. constructor. apply Proofs.sequence_ok in H. revert IH. induction H as [|x y l l' Hxy H IHl]; intros IH; cbn [map]; [constructor|].
    inversion IH as [|? ? Hx IH']; subst. constructor; [apply Hx; auto|]. apply IHl; auto.
  - apply Proofs.bind_ok in H as (l' & H & E). injection E as <-. split; [|intros id o; discriminate].
    cbn [ser_q]. constructor. apply Proofs.sequence_ok in H. revert IH. induction H as [|x y l l' Hxy H IHl]; intros IH; cbn [map]; [constructor|].
    inversion IH as [|? ? Hx IH']; subst. constructor; [|apply IHl; auto].
    apply Proofs.bind_ok in Hxy as (q & Hq & E). injection E as <-. cbn [fst snd]. split; [reflexivity|]. apply Hx; auto.
Qed.

(** ** Named values *)
Section Consume.
Variable g : lit -> coercer.
Definition ents (fs : list (string * lit)) : list entry := map (fun kv => (fst kv, (snd kv, g (snd kv)))) fs.
Lemma ents_cons k v fs : ents ((k, v) :: fs) = (k, (v, g v)) :: ents fs. Proof. reflexivity. Qed.
Lemma ents_app a b : ents (a ++ b) = ents a ++ ents b. Proof. apply map_app. Qed.
Lemma ents_nil fs : ents fs = [] -> fs = []. Proof. destruct fs; [auto|discriminate]. Qed.
Lemma take_none k fs : take k (ents fs) = None <-> ~ In k (names fs).
Proof.
  unfold names. induction fs as [|[k' v] fs IH]; [cbn [ents map take In]; intuition|].
  rewrite ents_cons. cbn [map fst snd take In].
  destruct (String.eqb_spec k' k) as [E|E].
  - split; [discriminate|]. intros H. destruct H. auto.
  - destruct (take k (ents fs)) as [[c r]|] eqn:T.
    + split; [discriminate|]. intros H. exfalso. assert (X : Some (c, r) = None) by (apply IH; intuition). discriminate X.
    + split; [|auto]. intros _ [H|H]; [congruence|]. apply (proj1 IH); auto.
Qed.
Lemma take_some k fs c r : take k (ents fs) = Some (c, r) ->
  exists v fs1 fs2, fs = fs1 ++ (k, v) :: fs2 /\ c = g v /\ r = ents (fs1 ++ fs2) /\ ~ In k (names fs1).
Proof.
  revert c r. induction fs as [|[k' v] fs IH]; intros c r; [discriminate|]. rewrite ents_cons. cbn [take].
  destruct (String.eqb_spec k' k) as [E|E].
  - intros H. injection H as <- <-. subst k'. exists v, [], fs. split; [reflexivity|]. split; [reflexivity|]. split; [reflexivity|].
    intros [].
  - destruct (take k (ents fs)) as [[c' r']|] eqn:T; [|discriminate]. intros H. injection H as <- <-.
    destruct (IH _ _ eq_refl) as (v' & fs1 & fs2 & -> & -> & -> & Nk). exists v', ((k', v) :: fs1), fs2.
    split; [reflexivity|]. split; [reflexivity|]. split; [reflexivity|]. cbn [names map fst In]. intros [H|H]; auto.
Qed.

Definition Rok (f : adef) (v : lit) : Prop := exists q, g v (a_type f) (a_wrapping f) = Ok q.

Lemma in_remove {A} (fs1 fs2 : list (string * A)) k v k' v' : k' <> k ->
  (In (k', v') (fs1 ++ (k, v) :: fs2) <-> In (k', v') (fs1 ++ fs2)).
Proof.
  intros Nk. rewrite !in_app_iff. cbn [In]. split; [|intuition]. intros [H|[H|H]]; auto. congruence.
Qed.
Lemma names_remove {A} (fs1 fs2 : list (string * A)) k v k' : k' <> k ->
  (In k' (names (fs1 ++ (k, v) :: fs2)) <-> In k' (names (fs1 ++ fs2))).
Proof.
  intros Nk. unfold names. rewrite !map_app, !in_app_iff. cbn [map fst In]. intuition congruence.
Qed.
Lemma in_names {A} k (fs : list (string * A)) : In k (names fs) <-> exists v, In (k, v) fs.
Proof.
  unfold names. rewrite in_map_iff. split.
  - intros ([k' v] & <- & H). eauto.
  - intros [v H]. exists (k, v). auto.
Qed.
Lemma nodup_mid {A} (fs1 fs2 : list (string * A)) k v :
  NoDup (names (fs1 ++ (k, v) :: fs2)) <-> ~ In k (names (fs1 ++ fs2)) /\ NoDup (names (fs1 ++ fs2)).
Proof.
  unfold names. rewrite !map_app. cbn [map fst]. split.
  - intros H. split; [apply NoDup_remove_2; auto|eapply NoDup_remove_1; eauto].
  - intros [H1 H2]. apply NoDup_Add with (a := k) (l := map fst fs1 ++ map fst fs2); [apply Add_app|auto].
Qed.

(** Acceptance of named values. *)
Lemma consume_fit defs : NoDup (map a_name defs) -> Forall (fun f => exists u, type_of f u) defs -> forall fs,
  (exists buf, consume defs (ents fs) = Ok (buf, [])) <-> fields_fit Rok defs fs.
Proof.
  induction defs as [|f defs IH]; intros Nd Ty fs; cbn [consume].
  - split.
    + intros [buf H]. injection H as _ H. apply ents_nil in H. subst. split; [constructor|]. split; intros ? ? [].
    + intros (_ & H & _). destruct fs as [|[k v] fs]; [eauto|]. exfalso. destruct (H k v) as (f & [] & _). left; auto.
  - cbn [map] in Nd. inversion Nd as [|? ? Nf Nd']; subst. inversion Ty as [|? ? [u Tf] Ty']; subst.
    specialize (IH Nd' Ty').
    assert (Ne : forall f', In f' defs -> a_name f' <> a_name f).
    { intros f' H E. apply Nf. rewrite <- E. apply in_map; auto. }
    destruct (a_inaccessible f) eqn:V.
    + rewrite IH. unfold fields_fit. split; intros (H1 & H2 & H3); (split; [auto|]; split).
      * intros k v H. destruct (H2 k v H) as (f' & ? & ?). exists f'. split; [right|]; auto.
      * intros f' t [<-|H] Vf'; [unfold visible in Vf'; congruence|]. apply H3; auto.
      * intros k v H. destruct (H2 k v H) as (f' & [<-|?] & Vf' & ?); [unfold visible in Vf'; congruence|]. eauto.
      * intros f' t H. apply H3. right; auto.
    + destruct (take (a_name f) (ents fs)) as [[c r]|] eqn:T.
      * apply take_some in T as (v & fs1 & fs2 & -> & -> & -> & Nk). split.
        -- intros [buf H]. apply Proofs.bind_ok in H as (q & Hq & H). apply Proofs.bind_ok in H as ([b r] & Hb & H).
           injection H as <- ->. destruct (proj1 (IH (fs1 ++ fs2))) as (H1 & H2 & H3); [eauto|].
           split; [|split].
           ++ apply nodup_mid. split; [|auto]. intros Hin. apply in_names in Hin as [v' Hin].
              destruct (H2 _ _ Hin) as (f' & Hf' & _ & E & _). apply (Ne f'); auto.
           ++ intros k v' H. destruct (string_dec k (a_name f)) as [->|Nk'].
              ** apply in_app_or in H as [H|[H|H]].
                 --- exfalso. apply Nk. apply in_names. eauto.
                 --- injection H as ->. exists f. split; [left; auto|]. split; [exact V|]. split; [auto|]. exists q; auto.
                 --- exfalso. destruct (H2 (a_name f) v') as (f' & Hf' & _ & E & _); [apply in_or_app; auto|]. apply (Ne f'); auto.
              ** apply in_remove in H; auto. destruct (H2 _ _ H) as (f' & ? & ?). exists f'. split; [right|]; auto.
           ++ intros f' t [<-|Hf'] Vf' Tf' Rq Dd.
              ** unfold names. rewrite map_app, in_app_iff. right. left. reflexivity.
              ** apply names_remove; [auto|]. eapply H3; eauto.
        -- intros (H1 & H2 & H3). apply nodup_mid in H1 as [H1 H1'].
           destruct (H2 (a_name f) v) as (f' & Hf' & Vf' & E & q & Hq); [apply in_or_app; right; left; auto|].
           assert (f' = f) by (destruct Hf' as [<-|Hf']; [auto|exfalso; apply (Ne f'); auto]). subst f'.
           rewrite Hq. cbn [bind]. destruct (proj2 (IH (fs1 ++ fs2))) as [buf ->].
           { split; [auto|]. split.
             - intros k v' H. assert (k <> a_name f) by (intros ->; apply H1; apply in_names; eauto).
               destruct (H2 k v') as (f' & [<-|Hg] & ?); [apply in_remove; auto|intuition congruence|]. eauto.
             - intros f' t Hg Vf'' Tf' Rq Dd. apply (names_remove fs1 fs2 (a_name f) v); [auto|]. eapply H3; eauto. right; auto. }
           cbn [bind]. eauto.
      * apply take_none in T. destruct (a_default f) as [d|] eqn:D.
        -- assert (K : (exists buf, bind (consume defs (ents fs)) (fun '(b, r) => Ok ((f, QDefault d) :: b, r)) = Ok (buf, [])) <->
                       exists buf, consume defs (ents fs) = Ok (buf, [])).
           { split.
             - intros [buf H]. apply Proofs.bind_ok in H as ([b r] & Hb & H). injection H as <- ->. eauto.
             - intros [buf ->]. cbn [bind]. eauto. }
           rewrite K, IH. unfold fields_fit. split; intros (H1 & H2 & H3); (split; [auto|]; split).
           ++ intros k v H. destruct (H2 k v H) as (f' & ? & ?). exists f'. split; [right|]; auto.
           ++ intros f' t [<-|H] Vf' Tf' Rq Dd; [congruence|]. eapply H3; eauto.
           ++ intros k v H. destruct (H2 k v H) as (f' & [<-|?] & Vf' & E & ?); [|eauto]. exfalso. apply T. apply in_names. rewrite E. eauto.
           ++ intros f' t H. apply H3. right; auto.
        -- rewrite (denotes_is_non_null _ _ Tf). destruct (required u) eqn:R.
           ++ split; [intros [buf H]; discriminate|]. intros (_ & _ & H3). exfalso. apply T. eapply H3; eauto. left; auto.
           ++ rewrite IH. unfold fields_fit. split; intros (H1 & H2 & H3); (split; [auto|]; split).
              ** intros k v H. destruct (H2 k v H) as (f' & ? & ?). exists f'. split; [right|]; auto.
              ** intros f' t [<-|H] Vf' Tf' Rq Dd; [|eapply H3; eauto].
                 assert (t = u) by (eapply denotes_fun; eauto). congruence.
              ** intros k v H. destruct (H2 k v H) as (f' & [<-|?] & Vf' & E & ?); [|eauto]. exfalso. apply T. apply in_names. rewrite E. eauto.
              ** intros f' t H. apply H3. right; auto.
Qed.

(** What named values stand for. *)
Variable env : nat -> option json.
Variable value : string -> option json.
Definition entry_json (fq : adef * qval) : list (string * json) :=
  match snd fq with
  | QVar id _ => match env id with Some j => [(a_name (fst fq), j)] | None => or_default (fst fq) end
  | _ => [(a_name (fst fq), ser_q env (snd fq))]
  end.
Definition Rj (f : adef) (v : lit) (j : json) : Prop :=
  exists q, g v (a_type f) (a_wrapping f) = Ok q /\ j = ser_q env q.
(** Only a variable is turned into a reference, to itself. *)
Definition refs_ok (defs : list adef) (fs : list (string * lit)) : Prop := forall f k v id o, In f defs -> In (k, v) fs ->
  g v (a_type f) (a_wrapping f) = Ok (QVar id o) -> exists x, v = LVar x /\ value x = env id.
Definition var_ok : Prop := forall x t w q, g (LVar x) t w = Ok q -> exists id o, q = QVar id o.

Lemma entry_not_ref f q : not_ref q -> entry_json (f, q) = [(a_name f, ser_q env q)].
Proof. intros H. unfold entry_json. cbn [fst snd]. destruct q; try reflexivity. exfalso. eapply H; eauto. Qed.
Lemma entry_sent defs f v q fs : refs_ok defs fs -> var_ok -> In f defs -> In (a_name f, v) fs -> g v (a_type f) (a_wrapping f) = Ok q ->
  sent_for value Rj fs f (entry_json (f, q)).
Proof.
  intros Ro Vo Hd Hin Hq. assert (D : not_ref q \/ exists id o, q = QVar id o).
  { destruct q; try (left; intros ? ?; discriminate). right; eauto. }
  destruct D as [Nq|(id & o & ->)].
  - rewrite entry_not_ref by auto. left. exists v, (ser_q env q). split; [auto|]. split; [|split; [|auto]].
    + intros x ->. exfalso. destruct (Vo _ _ _ _ Hq) as (id & o & E). eapply Nq; eauto.
    + exists q; auto.
  - destruct (Ro _ _ _ _ _ Hd Hin Hq) as (x & -> & E). unfold entry_json. cbn [fst snd]. destruct (env id) as [j|] eqn:Ev.
    + left. exists (LVar x), j. split; [auto|]. split; [|split; [|auto]].
      * intros y H. injection H as <-. congruence.
      * exists (QVar id o). split; [auto|]. cbn [ser_q]. rewrite Ev. reflexivity.
    + right; left. exists x. split; [auto|]. split; [auto|]. reflexivity.
Qed.
Lemma sent_for_cons fs1 fs2 k v f part : a_name f <> k -> sent_for value Rj (fs1 ++ fs2) f part ->
  sent_for value Rj (fs1 ++ (k, v) :: fs2) f part.
Proof.
  intros Nk [(v' & j & H & H')|[(x & H & H')|(H & H')]].
  - left. exists v', j. split; [|auto]. apply in_remove; auto.
  - right; left. exists x. split; [|auto]. apply in_remove; auto.
  - right; right. split; [|auto]. intros H0. apply H. apply names_remove in H0; auto.
Qed.
Lemma consume_sent defs : var_ok -> NoDup (map a_name defs) -> forall fs buf rest, refs_ok defs fs ->
  consume defs (ents fs) = Ok (buf, rest) ->
  exists parts, Forall2 (sent_for value Rj fs) (filter (fun f => negb (a_inaccessible f)) defs) parts /\
    flat_map entry_json buf = concat parts.
Proof.
  intros Vo. induction defs as [|f defs IH]; intros Nd fs buf rest Ro; cbn [consume].
  - intros H. injection H as <- <-. exists []. split; [constructor|reflexivity].
  - cbn [map] in Nd. inversion Nd as [|? ? Nf Nd']; subst. cbn [filter].
    assert (Ne : forall f', In f' defs -> a_name f' <> a_name f).
    { intros f' H E. apply Nf. rewrite <- E. apply in_map; auto. }
    destruct (a_inaccessible f) eqn:V; cbn [negb]; [apply IH; auto; intros f' k v id o Hf'; apply Ro; right; auto|].
    destruct (take (a_name f) (ents fs)) as [[c r]|] eqn:T.
    + apply take_some in T as (v & fs1 & fs2 & -> & -> & -> & Nk). intros H.
      apply Proofs.bind_ok in H as (q & Hq & H). apply Proofs.bind_ok in H as ([b r] & Hb & H). injection H as <- <-.
      destruct (IH Nd' (fs1 ++ fs2) b r) as (parts & Hp & Hc); [|auto|].
      { intros f' k v' id o Hf' Hin. apply (Ro f' k v'); [right; auto|]. apply in_app_iff in Hin. apply in_or_app. cbn [In]. intuition. }
      exists (entry_json (f, q) :: parts). split.
      * constructor; [apply (entry_sent (f :: defs) f v); auto; [left; auto|apply in_or_app; right; left; auto]|].
        assert (K : Forall (fun f' => a_name f' <> a_name f) (filter (fun f => negb (a_inaccessible f)) defs)).
        { apply Forall_forall. intros f' Hf'. apply filter_In in Hf' as [Hf' _]. auto. }
        clear Hc IH Hb. induction Hp as [|f' p l ps Hfp Hp IHp]; [constructor|]. inversion K; subst.
        constructor; [apply sent_for_cons; auto|apply IHp; auto].
      * cbn [flat_map concat]. rewrite Hc. reflexivity.
    + apply take_none in T. destruct (a_default f) as [d|] eqn:D.
      * intros H. apply Proofs.bind_ok in H as ([b r] & Hb & H). injection H as <- <-.
        destruct (IH Nd' fs b r) as (parts & Hp & Hc); [intros f' k v id o Hf'; apply Ro; right; auto|auto|]. exists (default_of f :: parts). split.
        -- constructor; [|auto]. right; right. auto.
        -- cbn [flat_map concat]. rewrite Hc. unfold entry_json, default_of. cbn [fst snd]. rewrite D. reflexivity.
      * destruct (W.is_non_null (a_wrapping f)); [discriminate|]. intros H.
        destruct (IH Nd' fs buf rest) as (parts & Hp & Hc); [intros f' k v id o Hf'; apply Ro; right; auto|auto|]. exists (default_of f :: parts). split.
        -- constructor; [|auto]. right; right. auto.
        -- cbn [concat]. rewrite Hc. unfold default_of. rewrite D. reflexivity.
Qed.
End Consume.

(** ** All literals *)
Lemma iter_shift {A} n (f : A -> A) x : Nat.iter n f (f x) = Nat.iter (S n) f x.
Proof. induction n as [|n IH]; [reflexivity|]. change (f (Nat.iter n f (f x)) = f (Nat.iter (S n) f x)). f_equal. exact IH. Qed.
Lemma nest_ser env n : forall q, ser_q env (nest n q) = Nat.iter n (fun x => JArr [x]) (ser_q env q).
Proof.
  induction n as [|n IH]; intros q; cbn [nest]; [reflexivity|]. rewrite IH. cbn [ser_q map].
  exact (iter_shift n (fun x => JArr [x]) (ser_q env q)).
Qed.
Lemma nest_not_ref n : forall q, not_ref q -> not_ref (nest n q).
Proof. induction n as [|n IH]; intros q H; cbn [nest]; [auto|]. apply IH. intros ? ?; discriminate. Qed.

Lemma find_field_spec name defs f : find_field name defs = Some f -> In f defs /\ visible f /\ a_name f = name.
Proof.
  induction defs as [|f0 defs IH]; cbn [find_field]; [discriminate|].
  destruct (negb (a_inaccessible f0) && String.eqb (a_name f0) name)%bool eqn:E.
  - intros H. injection H as <-. apply andb_true_iff in E as [E1 E2]. apply negb_true_iff in E1. apply String.eqb_eq in E2.
    split; [left; auto|]. auto.
  - intros H. apply IH in H as (H1 & H2). split; [right|]; auto.
Qed.
Lemma find_field_complete defs f : NoDup (map a_name defs) -> In f defs -> visible f -> find_field (a_name f) defs = Some f.
Proof.
  intros Nd. induction defs as [|f0 defs IH]; [intros []|]. cbn [map] in Nd. inversion Nd as [|? ? Nf Nd']; subst. cbn [find_field].
  intros [->|H] V.
  - rewrite V, String.eqb_refl. reflexivity.
  - destruct (String.eqb_spec (a_name f0) (a_name f)) as [E|E].
    + exfalso. apply Nf. rewrite E. apply in_map; auto.
    + rewrite andb_false_r. apply IH; auto.
Qed.
Lemma find_value_in n vs : forall i j b, find_value_by_name n vs i = Some (j, b) -> In (n, b) vs.
Proof.
  induction vs as [|[n' b'] vs IH]; intros i j b; cbn [find_value_by_name]; [discriminate|].
  destruct (String.eqb_spec n' n) as [E|E].
  - intros H. injection H as <- <-. subst. left; auto.
  - intros H. right. eapply IH; eauto.
Qed.
Lemma find_value_nodup n b vs : NoDup (map fst vs) -> In (n, b) vs -> forall i, exists j, find_value_by_name n vs i = Some (j, b).
Proof.
  intros Nd. induction vs as [|[n' b'] vs IH]; [intros []|]. cbn [map fst] in Nd. inversion Nd as [|? ? Nf Nd']; subst.
  intros H i. cbn [find_value_by_name]. destruct (String.eqb_spec n' n) as [E|E].
  - destruct H as [H|H]; [injection H as _ ->; eauto|]. exfalso. apply Nf. subst n'. change n with (fst (n, b)). apply in_map; auto.
  - destruct H as [H|H]; [congruence|]. apply IH; auto.
Qed.

Section Main.
Variable sch : gschema.
Variable vars : list vdef.
Variable is_default : bool.
Variable env : nat -> option json.
Hypothesis Hsch : schema_ok sch.
Hypothesis Hvars : NoDup (map v_name vars).
Hypothesis Hwrap : Forall (fun v => exists u, denotes (v_wrapping v) u) vars.

Notation usable := (usable_var vars is_default).
Notation value_of := (value_of vars env).

Notation coerce := (coerce sch vars is_default).
Notation cqv := (coerce_query_value sch vars is_default).
Notation fits := (fits sch usable).
Notation fits_named := (fits_named sch usable).
Notation fits_in := (fits_in sch usable).
Notation stands := (stands sch value_of).
Notation stands_named := (stands_named sch value_of).
Notation stands_in := (stands_in sch value_of).

Lemma variable_ref_iff x t w u o : denotes w u -> ((exists q, variable_ref vars is_default x t w o = Ok q) <-> usable x t u).
Proof.
  intros Dw. unfold variable_ref, usable_var. destruct is_default.
  - split; [intros [q H]; discriminate|intros [H _]; discriminate].
  - split.
    + intros [q H]. split; [reflexivity|]. destruct (position x vars 0) as [[id v]|] eqn:P; [|discriminate].
      apply position_spec in P as (P1 & _ & P2). apply nth_error_In in P2.
      destruct (proj1 (Forall_forall _ _) Hwrap v P2) as [uv Dv].
      destruct (are_type_compatibles _ _ _ _) eqn:C; [|discriminate].
      apply (compatible_iff _ _ _ _ _ _ Dv Dw) in C as [C1 C2]. exists v, uv. auto.
    + intros (_ & v & uv & Hin & Hn & Ht & Dv & U). destruct (position_some x vars v Hin Hn 0) as [[id v'] P]. rewrite P.
      apply position_spec in P as (P1 & _ & P2). apply nth_error_In in P2.
      assert (v' = v) by (apply (nodup_name_eq vars); auto; congruence). subst v'.
      rewrite (proj2 (compatible_iff _ _ _ _ _ _ Dv Dw)); [eauto|auto].
Qed.
Lemma variable_ref_shape x t w o q : variable_ref vars is_default x t w o = Ok q ->
  exists id, q = QVar id o /\ value_of x = env id /\ exists v, nth_error vars id = Some v /\ v_name v = x /\ v_type v = t.
Proof.
  unfold variable_ref, Spec.value_of. destruct is_default; [discriminate|]. destruct (position x vars 0) as [[id v]|] eqn:P; [|discriminate].
  destruct (are_type_compatibles _ _ _ _) eqn:C; [|discriminate]. intros H. injection H as <-. exists id.
  split; [auto|]. split; [auto|]. apply position_spec in P as (P1 & _ & P2). rewrite Nat.sub_0_r in P2.
  exists v. split; [auto|]. split; [auto|]. unfold are_type_compatibles in C. apply andb_true_iff in C as [C _].
  apply Nat.eqb_eq in C. auto.
Qed.
Lemma variable_stands x t w u o q : variable_ref vars is_default x t w o = Ok q -> stands t u (LVar x) (ser_q env q).
Proof.
  intros H. apply variable_ref_shape in H as (id & -> & E & _). cbn [ser_q]. destruct (env id) as [j|] eqn:Ev.
  - apply st_var. congruence.
  - apply st_undefined. congruence.
Qed.

Definition good (v : lit) : Prop :=
  (forall t, type_ok sch t -> (forall x, v <> LVar x) ->
     ((exists q, fst (coerce v) t = Ok q) <-> fits_named (types sch t) v) /\
     (forall q, fst (coerce v) t = Ok q -> stands_named (types sch t) v (ser_q env q) /\ not_ref q)) /\
  (forall t w u, type_ok sch t -> denotes w u ->
     ((exists q, snd (coerce v) t w = Ok q) <-> fits t u v) /\
     (forall q, snd (coerce v) t w = Ok q -> stands t u v (ser_q env q) /\ ((forall x, v <> LVar x) -> not_ref q))).

Lemma single_dec v w : {W.is_list w = true /\ v <> LNull /\ (forall x, v <> LVar x) /\ (forall l, v <> LList l)} +
  {(W.is_list w && negb (l_is_list v) && negb (l_is_null v) && negb (l_is_var v))%bool = false}.
Proof.
  destruct (W.is_list w); [|right; reflexivity].
  destruct v; cbn [l_is_list l_is_null l_is_var negb andb];
    try (right; reflexivity); left; repeat split; intros; discriminate.
Defined.
Lemma cqv_single v t w : W.is_list w = true -> v <> LNull -> (forall x, v <> LVar x) -> (forall l, v <> LList l) ->
  cqv t w v = bind (fst (coerce v) t) (fun q => Ok (nest (List.length (W.list_wrappings w)) q)).
Proof.
  intros L Nn Nv Nl. unfold coerce_query_value, input_value. rewrite L.
  destruct v; cbn [l_is_list l_is_null l_is_var negb andb]; try reflexivity.
  - congruence.
  - exfalso. eapply Nl; eauto.
  - exfalso. eapply Nv; eauto.
Qed.
Lemma good_in v f : good v -> def_ok sch f ->
  ((exists q, cqv (a_type f) (a_wrapping f) v = Ok q) <-> fits_in f v) /\
  (forall q, cqv (a_type f) (a_wrapping f) v = Ok q -> stands_in f v (ser_q env q) /\ ((forall x, v <> LVar x) -> not_ref q)).
Proof.
  intros [G1 G2] (Ht & [u Du] & _). destruct (single_dec v (a_wrapping f)) as [(L & Nn & Nv & Nl)|E].
  - rewrite cqv_single by auto. destruct (G1 (a_type f) Ht Nv) as [A B]. split.
    + split.
      * intros [q H]. apply Proofs.bind_ok in H as (q0 & H & _). apply (ff_single _ _ f u); auto.
        -- rewrite <- (denotes_is_list _ _ Du). auto.
        -- apply A. eauto.
      * intros H. assert (H' : fits_named (types sch (a_type f)) v).
        { inversion H as [f0 u0 v0 T0 H0|]; subst; [|auto]. assert (u0 = u) by (eapply denotes_fun; eauto). subst u0.
          rewrite (denotes_is_list _ _ Du) in L.
          inversion H0; subst; try congruence; try discriminate; exfalso; first [eapply Nv; reflexivity|eapply Nl; reflexivity]. }
        apply A in H' as [q ->]. cbn [bind]. eauto.
    + intros q H. apply Proofs.bind_ok in H as (q0 & H & E). injection E as <-. destruct (B _ H) as [B1 B2].
      split; [|intros _; apply nest_not_ref; auto]. rewrite nest_ser, (denotes_depth _ _ Du).
      apply (si_single _ _ f u); auto. rewrite <- (denotes_is_list _ _ Du). auto.
  - unfold coerce_query_value, input_value. rewrite E. destruct (G2 _ _ _ Ht Du) as [A B]. split.
    + rewrite A. split.
      * intros H. apply (ff_direct _ _ f u); auto.
      * intros H. inversion H as [f0 u0 v0 T0 H0|f0 u0 v0 T0 L0 Nn Nv Nl H0]; subst.
        -- assert (u0 = u) by (eapply denotes_fun; eauto). subst u0. auto.
        -- exfalso. rewrite (denotes_is_list _ _ T0), L0 in E. destruct v; try discriminate; congruence.
    + intros q H. destruct (B _ H) as [B1 B2]. split; [|auto]. apply (si_direct _ _ f u); auto.
Qed.

Definition gq (v : lit) : coercer := fun t w => cqv t w v.
Lemma cqv_var x t w : cqv t w (LVar x) = variable_ref vars is_default x t w false.
Proof. unfold coerce_query_value, input_value. cbn [l_is_var negb]. rewrite andb_false_r. reflexivity. Qed.
Lemma gq_var : var_ok gq.
Proof.
  intros x t w q H. unfold gq in H. rewrite cqv_var in H. apply variable_ref_shape in H as (id & -> & _). eauto.
Qed.

Lemma fits_in_ext (R R' : adef -> lit -> Prop) defs fs :
  (forall f k v, In f defs -> In (k, v) fs -> (R f v <-> R' f v)) -> (fields_fit R defs fs <-> fields_fit R' defs fs).
Proof.
  intros H. unfold fields_fit. apply and_iff_compat_l. apply and_iff_compat_r. split; intros H' k v Hin.
  - destruct (H' k v Hin) as (f & Hf & Vf & E & Hr). exists f. split; [auto|]. split; [auto|]. split; [auto|]. apply (H f k v); auto.
  - destruct (H' k v Hin) as (f & Hf & Vf & E & Hr). exists f. split; [auto|]. split; [auto|]. split; [auto|]. apply (H f k v); auto.
Qed.
Lemma stand_ext (R R' : adef -> lit -> json -> Prop) defs fs js :
  (forall f k v j, In f defs -> In (k, v) fs -> R f v j -> R' f v j) ->
  fields_stand value_of R defs fs js -> fields_stand value_of R' defs fs js.
Proof.
  intros H (Nd & parts & F & ->). split; [auto|]. exists parts. split; [|auto].
  assert (K : Forall (fun f => In f defs) (filter (fun f => negb (a_inaccessible f)) defs)).
  { apply Forall_forall. intros f Hf. apply filter_In in Hf as [Hf _]. auto. }
  induction F as [|f p l ps Hfp F IH]; [constructor|]. inversion K; subst. constructor; [|apply IH; auto].
  destruct Hfp as [(v & j & Hin & Hv & Hr & Hp)|[Hu|Hd]]; [|right; left; auto|right; right; auto].
  left. exists v, j. split; [auto|]. split; [auto|]. split; [|auto]. eapply H; eauto.
Qed.

(** The references built by [coerce_query_value]: only from variables. *)
Definition all_good (fs : list (string * lit)) : Prop := Forall (fun kv => good (snd kv)) fs.
Lemma good_refs v f id o : good v -> def_ok sch f -> cqv (a_type f) (a_wrapping f) v = Ok (QVar id o) ->
  exists x, v = LVar x /\ value_of x = env id.
Proof.
  intros G D H. destruct (good_in v f G D) as [_ B]. destruct (B _ H) as [_ B'].
  destruct v; try (exfalso; eapply B'; [intros; discriminate|reflexivity]).
  exists x. split; [auto|]. rewrite cqv_var in H. apply variable_ref_shape in H as (id' & E & E' & _). congruence.
Qed.

Lemma fst_coerce v t : fst (coerce v) t =
  match types sch t with
  | DScalar s => coerce_scalar vars is_default t s v
  | DEnum vs => coerce_enum vs v
  | DObj id =>
      match objects sch id with
      | None => Panic
      | Some (o, ifs) =>
          match v with
          | LObj fs => coerce_object vars is_default o ifs (ents gq fs)
          | LVar _ => Panic
          | _ => Err
          end
      end
  end.
Proof. destruct v; reflexivity. Qed.
Lemma snd_coerce v t w : (forall x, v <> LVar x) -> snd (coerce v) t w =
  match W.pop_outermost_list_wrapping w with
  | None => Panic
  | Some (w', None) => if l_is_null v then (if W.is_non_null w' then Err else Ok QNull) else fst (coerce v) t
  | Some (w', Some lw) =>
      match v with
      | LNull => match lw with W.LListNonNull => Err | W.LList => Ok QNull end
      | LList l => bind (sequence (map (fun x => snd (coerce x) t w') l)) (fun l' => Ok (QList l'))
      | _ => Err
      end
  end.
Proof. intros Nv. destruct v; try reflexivity. exfalso. eapply Nv; eauto. Qed.
Lemma snd_coerce_var x t w : snd (coerce (LVar x)) t w = variable_ref vars is_default x t w false.
Proof. reflexivity. Qed.

Lemma int_float_iff m e : can_coerce_to_int m e = true <-> exists k, integral m e k /\ (k < 2147483647)%Z.
Proof.
  unfold can_coerce_to_int, integral. split.
  - intros H. apply andb_true_iff in H as [H1 H2]. pose proof (flt_is_floor _ _ H1) as V.
    destruct (flt_floor _ _ _ V) as (_ & _ & L). rewrite L in H2. apply Z.ltb_lt in H2. eauto.
  - intros (k & V & L). destruct (flt_floor _ _ _ V) as (F & _ & L'). rewrite F, L'. cbn [andb]. apply Z.ltb_lt. auto.
Qed.
Lemma int_float_value m e k : integral m e k -> (k < 2147483647)%Z -> f64_as_i32 m e = Z.max (-2147483648) k.
Proof.
  intros V L. destruct (flt_floor _ _ _ V) as (_ & T & _). unfold f64_as_i32. rewrite T. lia.
Qed.
Lemma i32_iff z : (exists z', i32_try_from z = Some z') <-> int32 z.
Proof.
  unfold i32_try_from, int32. destruct (Z.leb_spec (-2147483648) z), (Z.leb_spec z 2147483647); cbn [andb];
    (split; [intros [z' E]; try discriminate; lia|intros; eauto; lia]).
Qed.
Lemma i32_value z z' : i32_try_from z = Some z' -> z' = z.
Proof. unfold i32_try_from. destruct (_ && _)%bool; congruence. Qed.

Ltac no_fit := split; [intros [? ?]; discriminate|intros Hfit; inversion Hfit].
Lemma scalar_good s t v : types sch t = DScalar s -> (forall x, v <> LVar x) ->
  ((exists q, coerce_scalar vars is_default t s v = Ok q) <-> fits_named (DScalar s) v) /\
  (forall q, coerce_scalar vars is_default t s v = Ok q -> stands_named (DScalar s) v (ser_q env q) /\ not_ref q).
Proof.
  intros Ty Nv. destruct s.
  - destruct v; cbn [coerce_scalar]; (split; [try solve [no_fit]|intros q H; try discriminate]);
      try solve [split; [intros _; constructor|eauto]]; try solve [exfalso; eapply Nv; eauto].
    injection H as <-. split; [constructor|intros ? ?; discriminate].
  - destruct v; cbn [coerce_scalar]; (split; [try solve [no_fit]|intros q H; try discriminate]);
      try solve [split; [intros _; constructor|eauto]]; try solve [exfalso; eapply Nv; eauto].
    + split; [intros _; constructor|]. destruct (f64_of_Z z); eauto.
    + destruct (f64_of_Z z) as [m e] eqn:E. injection H as <-. split; [constructor; auto|intros ? ?; discriminate].
    + injection H as <-. split; [constructor|intros ? ?; discriminate].
  - destruct v; cbn [coerce_scalar]; (split; [try solve [no_fit]|intros q H; try discriminate]);
      try solve [exfalso; eapply Nv; eauto].
    + split.
      * intros [q H]. destruct (i32_try_from z) eqn:E; [|discriminate]. constructor. apply i32_iff. eauto.
      * intros H. inversion H as [z0 Hz| | | | | | | | |]; subst. apply i32_iff in Hz as [z' ->]. eauto.
    + destruct (i32_try_from z) eqn:E; [|discriminate]. injection H as <-. apply i32_value in E. subst.
      split; [constructor|intros ? ?; discriminate].
    + split.
      * intros [q H]. destruct (can_coerce_to_int m e) eqn:E; [|discriminate]. apply int_float_iff in E as (k & ? & ?).
        econstructor; eauto.
      * intros H. inversion H as [|m0 e0 k Hk Lk| | | | | | | |]; subst.
        rewrite (proj2 (int_float_iff m e)) by eauto. eauto.
    + destruct (can_coerce_to_int m e) eqn:E; [|discriminate]. injection H as <-. apply int_float_iff in E as (k & Hk & Lk).
      split; [|intros ? ?; discriminate]. cbn [ser_q]. rewrite (int_float_value _ _ _ Hk Lk). constructor. auto.
  - destruct v; cbn [coerce_scalar]; (split; [try solve [no_fit]|intros q H; try discriminate]);
      try solve [split; [intros _; constructor|eauto]]; try solve [exfalso; eapply Nv; eauto].
    injection H as <-. split; [constructor|intros ? ?; discriminate].
  - cbn [coerce_scalar]. split.
    + rewrite custom_plain. split; [intros; constructor; auto|intros H; inversion H; auto].
    + intros q H. destruct (custom_stands env v q H). split; [constructor|]; auto.
Qed.
Lemma enum_good vs v : NoDup (map fst vs) -> (forall x, v <> LVar x) ->
  ((exists q, coerce_enum vs v = Ok q) <-> fits_named (DEnum vs) v) /\
  (forall q, coerce_enum vs v = Ok q -> stands_named (DEnum vs) v (ser_q env q) /\ not_ref q).
Proof.
  intros Nd Nv. destruct v; cbn [coerce_enum]; (split; [try solve [no_fit]|intros q H; try discriminate]);
    try solve [exfalso; eapply Nv; eauto].
  - split.
    + intros [q H]. destruct (find_value_by_name s vs 0) as [[j []]|] eqn:E; try discriminate. constructor.
      eapply find_value_in; eauto.
    + intros H. inversion H as [| | | | | | |vs0 n Hin| |]; subst.
      destruct (find_value_nodup _ _ _ Nd Hin 0) as [j ->]. eauto.
  - destruct (find_value_by_name s vs 0) as [[j []]|] eqn:E; try discriminate. injection H as <-.
    split; [constructor|intros ? ?; discriminate].
Qed.

Lemma object_good id o ifs fs : objects sch id = Some (o, ifs) -> all_good fs ->
  ((exists q, coerce_object vars is_default o ifs (ents gq fs) = Ok q) <-> fits_named (DObj id) (LObj fs)) /\
  (forall q, coerce_object vars is_default o ifs (ents gq fs) = Ok q ->
     stands_named (DObj id) (LObj fs) (ser_q env q) /\ not_ref q).
Proof.
  intros Eo Gs. destruct (Hsch id o ifs Eo) as [[Dok Nd] One].
  pose proof (proj1 (Forall_forall _ _) Dok) as Din. pose proof (proj1 (Forall_forall _ _) Gs) as Gin. cbn beta in Gin.
  unfold coerce_object. destruct o.
  - (* @oneOf *)
    destruct fs as [|[k v] [|kv2 fs]].
    + cbn [ents map]. split; [|intros q H; discriminate]. split; [intros [q H]; discriminate|].
      intros H. inversion H as [| | | | | | | | |id0 defs fs0 E0 F0]; subst. congruence.
    + cbn [ents map fst snd]. assert (G : good v) by (apply (Gin (k, v)); left; auto).
      destruct (find_field k ifs) as [f|] eqn:Ff.
      * apply find_field_spec in Ff as (Hf & Vf & En). pose proof (Din f Hf) as Df.
        assert (Iff : (exists q, match v with
                                 | LVar x => variable_ref vars is_default x (a_type f) (a_wrapping f) true
                                 | _ => gq v (a_type f) (a_wrapping f) end = Ok q) <-> fits_in f v).
        { destruct (good_in v f G Df) as [A _]. destruct v; try exact A. rewrite <- A.
          destruct Df as (_ & [u Du] & _). rewrite cqv_var, !(variable_ref_iff _ _ _ _ _ Du). reflexivity. }
        split.
        -- split.
           ++ intros [q H]. apply Proofs.bind_ok in H as (q0 & H & _). subst k. eapply fn_one_of; eauto. apply Iff. eauto.
           ++ intros H. assert (H' : fits_in f v).
              { inversion H as [| | | | | | | |id0 defs f0 v0 E0 Hf0 Vf0 F0|id0 defs fs0 E0 F0]; subst; [|congruence].
                assert (defs = ifs) by congruence. subst defs.
                pose proof (find_field_complete _ _ Nd Hf0 Vf0) as C0. pose proof (find_field_complete _ _ Nd Hf Vf) as C1.
                replace (a_name f0) with (a_name f) in C0 by congruence. replace f with f0 by congruence. auto. }
              apply Iff in H' as [q ->]. cbn [bind]. eauto.
        -- intros q H. apply Proofs.bind_ok in H as (q0 & H & E). injection E as <-. split; [|intros ? ?; discriminate].
           subst k. cbn [ser_q flat_map]. rewrite app_nil_r. eapply sn_one_of; eauto.
           change (sent_for value_of stands_in [(a_name f, v)] f (entry_json env (f, q0))).
           assert (Hq : (forall x, v <> LVar x) \/ exists x, v = LVar x).
           { destruct v; try (left; intros; discriminate). right; eauto. }
           destruct Hq as [Nv|[x ->]].
           ++ assert (H' : cqv (a_type f) (a_wrapping f) v = Ok q0) by (destruct v; auto; exfalso; eapply Nv; eauto).
              destruct (good_in v f G Df) as [_ B]. destruct (B _ H') as [B1 B2]. rewrite entry_not_ref by auto.
              left. exists v, (ser_q env q0). split; [left; auto|]. split; [|auto]. intros x ->. exfalso. eapply Nv; eauto.
           ++ pose proof H as H0. apply variable_ref_shape in H as (i & -> & Ev & _). unfold entry_json. cbn [fst snd].
              destruct (env i) as [j|] eqn:Ei.
              ** left. exists (LVar x), j. split; [left; auto|]. split; [intros y Hy; injection Hy as <-; congruence|].
                 split; [|auto]. destruct Df as (_ & [u Du] & _). apply (si_direct _ _ f u); auto. apply st_var. congruence.
              ** right; left. exists x. split; [left; auto|]. split; [congruence|reflexivity].
      * split; [|intros q H; discriminate]. split; [intros [q H]; discriminate|].
        intros H. exfalso. inversion H as [| | | | | | | |id0 defs f0 v0 E0 Hf0 Vf0 F0|id0 defs fs0 E0 F0]; subst; [|congruence].
        assert (defs = ifs) by congruence. subst defs. rewrite (find_field_complete _ _ Nd Hf0 Vf0) in Ff. discriminate.
    + cbn [ents map fst snd]. split; [|intros q H; discriminate]. split; [intros [q H]; discriminate|].
      intros H. inversion H as [| | | | | | | | |id0 defs fs0 E0 F0]; subst. congruence.
  - assert (K : (exists buf, consume ifs (ents gq fs) = Ok (buf, [])) <-> fields_fit fits_in ifs fs).
    { rewrite consume_fit; [|auto|].
      - apply fits_in_ext. intros f k v Hf Hin. apply good_in; [apply (Gin (k, v)); auto|auto].
      - eapply Forall_impl; [|exact Dok]. intros f (_ & H & _). exact H. }
    split.
    + split.
      * intros [q H]. apply Proofs.bind_ok in H as ([buf rest] & H & E). destruct rest; [|discriminate].
        eapply fn_object; eauto. apply K. eauto.
      * intros H. assert (F : fields_fit fits_in ifs fs).
        { inversion H as [| | | | | | | |id0 defs f0 v0 E0 Hf0 Vf0 F0|id0 defs fs0 E0 F0]; subst; congruence. }
        apply K in F as [buf ->]. cbn [bind]. eauto.
    + intros q H. apply Proofs.bind_ok in H as ([buf rest] & H & E). destruct rest; [|discriminate]. injection E as <-.
      split; [|intros ? ?; discriminate]. cbn [ser_q]. eapply sn_object; eauto.
      apply (stand_ext (Rj gq env)).
      { intros f k v j Hf Hin (q & Hq & ->). destruct (good_in v f) as [_ B]; [apply (Gin (k, v)); auto|auto|]. apply B. exact Hq. }
      split.
      * destruct (proj1 K) as (N1 & _); [eauto|auto].
      * destruct (consume_sent gq env value_of ifs gq_var Nd fs buf []) as (parts & P1 & P2); [|auto|].
        -- intros f k v i o Hf Hin Hq. apply (good_refs v f i o); [apply (Gin (k, v)); auto|auto|exact Hq].
        -- exists parts. split; [auto|]. exact P2.
Qed.

Definition sub_good (v : lit) : Prop :=
  match v with LList l => Forall good l | LObj fs => all_good fs | _ => True end.
Lemma named_good v t : sub_good v -> type_ok sch t -> (forall x, v <> LVar x) ->
  ((exists q, fst (coerce v) t = Ok q) <-> fits_named (types sch t) v) /\
  (forall q, fst (coerce v) t = Ok q -> stands_named (types sch t) v (ser_q env q) /\ not_ref q).
Proof.
  intros Sg Ht Nv. rewrite fst_coerce. unfold type_ok in Ht. destruct (types sch t) as [s|vs|id] eqn:Ty.
  - apply scalar_good; auto.
  - apply enum_good; auto.
  - destruct Ht as [[o ifs] Eo]. rewrite Eo. destruct v; cbn [sub_good] in Sg;
      try (split; [no_fit|intros q H; discriminate]); try (exfalso; eapply Nv; reflexivity).
    apply object_good; auto.
Qed.
Lemma forall2_map {A B C} (R : A -> C -> Prop) (f : B -> C) l l' :
  Forall2 (fun x y => R x (f y)) l l' -> Forall2 R l (map f l').
Proof. induction 1; cbn [map]; constructor; auto. Qed.
Lemma good_step v : sub_good v -> good v.
Proof.
  intros Sg. split; [intros t Ht Nv; apply named_good; auto|]. intros t w u Ht Dw.
  assert (Dv : (forall x, v <> LVar x) \/ exists x, v = LVar x).
  { destruct v; try (left; intros; discriminate). right; eauto. }
  destruct Dv as [Nv|[x ->]].
  - rewrite snd_coerce by auto. pose proof (denotes_pop _ _ Dw) as Pop. destruct u as [r|e r].
    + rewrite Pop. rewrite (denotes_is_non_null _ _ Dw). cbn [required]. destruct (named_good v t Sg Ht Nv) as [A B].
      assert (Nl : v = LNull \/ v <> LNull) by (destruct v; auto; right; discriminate). destruct Nl as [->|Nn].
      * cbn [l_is_null]. destruct r.
        -- split; [|intros q H; discriminate]. split; [intros [q H]; discriminate|]. intros H. inversion H; subst; cbn in *; congruence.
        -- split; [split; [intros _; apply fi_null; auto|eauto]|]. intros q H. injection H as <-. split; [apply st_null|intros _ ? ?; discriminate].
      * replace (l_is_null v) with false by (destruct v; auto; congruence). split.
        -- rewrite A. split; [intros H; apply fi_named; auto|]. intros H. inversion H; subst; auto; congruence.
        -- intros q H. destruct (B _ H). split; [apply st_named; auto|auto].
    + destruct Pop as (w' & Pop & Dw'). rewrite Pop.
      destruct v as [|z|m e0|s|b|s|l|fs|x];
        try solve [split; [split; [intros [q H]; discriminate|intros H; inversion H]|intros q H; discriminate]].
      * destruct r; cbn [lw_of].
        -- split; [|intros q H; discriminate]. split; [intros [q H]; discriminate|]. intros H. inversion H; subst; discriminate.
        -- split; [split; [intros _; apply fi_null; auto|eauto]|]. intros q H. injection H as <-. split; [apply st_null|intros _ ? ?; discriminate].
      * cbn [sub_good] in Sg. split.
        -- assert (IH' : Forall (fun x => (exists y, snd (coerce x) t w' = Ok y) <-> fits t e x) l).
           { eapply Forall_impl; [|exact Sg]. intros x Gx. apply (proj2 Gx); auto. }
           split.
           ++ intros [q H]. apply Proofs.bind_ok in H as (l' & H & _). apply fi_list. apply (proj1 (sequence_list _ _ _ IH')). eauto.
           ++ intros H. inversion H as [| |t0 e0 r0 l0 F|]; subst. apply (proj2 (sequence_list _ _ _ IH')) in F as [ys ->].
              cbn [bind]. eauto.
        -- intros q H. apply Proofs.bind_ok in H as (l' & H & E). injection E as <-. split; [|intros _ ? ?; discriminate].
           cbn [ser_q]. apply st_list. apply forall2_map. apply Proofs.sequence_ok in H. clear Nv.
           induction H as [|x y l l' Hxy H IHl]; [constructor|]. inversion Sg as [|? ? Gx Sg']; subst. constructor; [|apply IHl; auto].
           apply (proj2 (proj2 Gx t w' e Ht Dw')) in Hxy as [Hxy _]. exact Hxy.
      * exfalso. eapply Nv; reflexivity.
  - rewrite snd_coerce_var. split.
    + rewrite (variable_ref_iff _ _ _ _ _ Dw). split; [intros H; apply fi_var; auto|]. intros H. inversion H; subst; auto.
      exfalso; eapply H1; reflexivity.
    + intros q H. split; [eapply variable_stands; eauto|]. intros Nv. exfalso. eapply Nv; reflexivity.
Qed.
Lemma good_all v : good v.
Proof.
  induction v as [|z|m e|s|b|s|l IH|fs IH|x] using lit_ind'; apply good_step; cbn [sub_good]; auto.
Qed.

(** Acceptance and meaning of an argument or field. *)
Lemma cqv_iff f v : def_ok sch f -> ((exists q, cqv (a_type f) (a_wrapping f) v = Ok q) <-> fits_in f v).
Proof. intros D. apply (good_in v f (good_all v) D). Qed.
Lemma cqv_stands f v q : def_ok sch f -> cqv (a_type f) (a_wrapping f) v = Ok q ->
  stands_in f v (ser_q env q).
Proof. intros D H. apply (good_in v f (good_all v) D). exact H. Qed.
Lemma cqv_refs f v id o : def_ok sch f -> cqv (a_type f) (a_wrapping f) v = Ok (QVar id o) ->
  exists x, v = LVar x /\ value_of x = env id.
Proof. intros D H. eapply good_refs; eauto. apply good_all. Qed.
End Main.
