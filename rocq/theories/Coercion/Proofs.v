From Coq Require Import ZArith QArith List String Bool Sorted Lia Arith.
From Verif.Wrapping Require Import Spec Proofs.
From Verif.Coercion Require Import Json Model Spec.
Import ListNotations.
Local Open Scope nat_scope.

Definition code_int (n : number) (z : Z) : Prop := coerce_int n = Ok (CInt z).
Definition code_float (n : number) (me : Z * Z) : Prop := as_f64 n = Some me.

Lemma bind_ok {A B} (r : result A) (f : A -> result B) b :
  bind r f = Ok b <-> exists a, r = Ok a /\ f a = Ok b.
Proof.
  destruct r; simpl; split; try discriminate; eauto.
  - intros (a' & E & H). injection E as ->. auto.
  - intros (a' & E & _). discriminate.
  - intros (a' & E & _). discriminate.
Qed.
Lemma bind_panic {A B} (r : result A) (f : A -> result B) :
  r <> Panic -> (forall a, r = Ok a -> f a <> Panic) -> bind r f <> Panic.
Proof. destruct r; simpl; auto; congruence. Qed.

Lemma sequence_ok {A B} (g : A -> result B) l l' :
  sequence (map g l) = Ok l' <-> Forall2 (fun x y => g x = Ok y) l l'.
Proof.
  revert l'; induction l as [|x l IH]; simpl; intros l'.
  - split; [intros H; injection H as <-; constructor|intros H; inversion H; reflexivity].
  - rewrite bind_ok. split.
    + intros (a & H1 & H2). rewrite bind_ok in H2. destruct H2 as (l'' & H2 & H3).
      injection H3 as <-. constructor; auto. apply IH; auto.
    + intros H. inversion H as [|? y ? l'' H1 H2]; subst. exists y. split; auto.
      rewrite bind_ok. exists l''. split; auto. apply IH; auto.
Qed.
Lemma sequence_panic {A} (l : list (result A)) : Forall (fun r => r <> Panic) l -> sequence l <> Panic.
Proof.
  induction 1; simpl; [discriminate|]. apply bind_panic; auto. intros.
  apply bind_panic; auto. discriminate.
Qed.

Lemma Forall2_iff {A B} (P Q : A -> B -> Prop) l l' :
  Forall (fun x => forall y, P x y <-> Q x y) l -> Forall2 P l l' <-> Forall2 Q l l'.
Proof.
  intros H. split; intros F; revert H; induction F; intros H'; constructor;
  inversion H'; subst; firstorder.
Qed.

(** Scalars *)
Lemma coerce_int_shape n c : coerce_int n = Ok c -> exists z, c = CInt z.
Proof.
  unfold coerce_int. destruct n as [n|z|m e].
  - destruct as_i64; [|discriminate]. destruct i32_try_from; [|discriminate]. intros H; injection H as <-; eauto.
  - destruct as_i64; [|discriminate]. destruct i32_try_from; [|discriminate]. intros H; injection H as <-; eauto.
  - destruct can_coerce_to_int; simpl; [|discriminate]. intros H; injection H as <-; eauto.
Qed.
Lemma coerce_int_panic n : coerce_int n <> Panic.
Proof.
  unfold coerce_int. destruct n as [n|z|m e].
  - destruct as_i64; [|discriminate]. destruct i32_try_from; discriminate.
  - destruct as_i64; [|discriminate]. destruct i32_try_from; discriminate.
  - destruct can_coerce_to_int; simpl; discriminate.
Qed.
Lemma as_f64_some n : exists m e, as_f64 n = Some (m, e).
Proof. destruct n as [n|z|m e]; simpl; eauto; destruct (f64_of_Z _); eauto. Qed.

Lemma coerce_unknown_ok v : forall c, coerce_unknown v = Ok c <-> custom code_float v c.
Proof.
  induction v as [|b|n|s|l IH|fs IH] using json_ind'; intros c; simpl.
  - split; [intros H; injection H as <-; constructor|intros H; inversion H; reflexivity].
  - split; [intros H; injection H as <-; constructor|intros H; inversion H; reflexivity].
  - unfold coerce_unknown_number. destruct (as_f64_some n) as (m & e & E). rewrite E. split.
    + intros H; injection H as <-. constructor. exact E.
    + intros H; inversion H; subst. unfold code_float in *. congruence.
  - split; [intros H; injection H as <-; constructor|intros H; inversion H; reflexivity].
  - rewrite bind_ok. split.
    + intros (l' & H & E). injection E as <-. constructor. apply sequence_ok in H.
      apply (Forall2_iff _ _ _ _ IH) in H. exact H.
    + intros H; inversion H as [| | | |? l' F|]; subst. exists l'. split; auto. apply sequence_ok.
      apply (Forall2_iff _ _ _ _ IH). exact F.
  - rewrite bind_ok.
    assert (E : forall fs', sequence (map (fun kv => bind (coerce_unknown (snd kv)) (fun c => Ok (fst kv, c))) fs) = Ok fs' <->
       Forall2 (fun kv kc => fst kv = fst kc /\ custom code_float (snd kv) (snd kc)) fs fs').
    { intros fs'. rewrite sequence_ok. apply Forall2_iff. apply Forall_impl with (2 := IH).
      intros [k v] Hv [k' c']. rewrite bind_ok. simpl in *. split.
      - intros (a & H1 & H2). injection H2 as <- <-. split; auto. apply Hv; auto.
      - intros [-> H]. exists c'. split; auto. apply Hv; auto. }
    split.
    + intros (fs' & H & E'). injection E' as <-. constructor. apply E; auto.
    + intros H; inversion H; subst. eexists. split; [apply E; eauto|reflexivity].
Qed.
Lemma coerce_unknown_panic v : coerce_unknown v <> Panic.
Proof.
  induction v as [|b|n|s|l IH|fs IH] using json_ind'; simpl; try discriminate.
  - unfold coerce_unknown_number. destruct (as_f64_some n) as (m & e & ->). discriminate.
  - apply bind_panic; [|discriminate]. apply sequence_panic. rewrite Forall_map. exact IH.
  - apply bind_panic; [|discriminate]. apply sequence_panic. rewrite Forall_map.
    apply Forall_impl with (2 := IH). intros kv H. apply bind_panic; auto. discriminate.
Qed.

(** Enums *)
Lemma find_value_spec name vs : forall i j b, find_value_by_name name vs i = Some (j, b) ->
  exists k, j = i + k /\ nth_error vs k = Some (name, b).
Proof.
  induction vs as [|[n b'] vs IH]; simpl; intros i j b H; [discriminate|].
  destruct (String.eqb_spec n name) as [->|N].
  - injection H as <- <-. exists 0. split; auto.
  - apply IH in H as (k & -> & H). exists (S k). split; [lia|auto].
Qed.
Lemma find_value_complete name vs k b : NoDup (map fst vs) -> nth_error vs k = Some (name, b) ->
  forall i, find_value_by_name name vs i = Some (i + k, b).
Proof.
  revert k; induction vs as [|[n b'] vs IH]; intros k N H i; [destruct k; discriminate|].
  simpl in N. inversion N as [|? ? Hn N']; subst. destruct k as [|k]; simpl in *.
  - injection H as -> ->. rewrite String.eqb_refl. f_equal. f_equal. lia.
  - destruct (String.eqb_spec n name) as [->|Ne].
    + exfalso. apply Hn. apply in_map_iff. exists (name, b). split; auto. eapply nth_error_In; eauto.
    + rewrite IH with (k := k); auto. f_equal. f_equal. lia.
Qed.

(** Object fields: [cs fs] pairs each key with the coercion of its value. *)
Section Fields.
Variable g : json -> coercer.
Definition cs (fs : list (string * json)) : list (string * coercer) := map (fun kv => (fst kv, g (snd kv))) fs.

Fixpoint remove_key (k : string) (fs : list (string * json)) : list (string * json) :=
  match fs with
  | [] => []
  | (k', v) :: fs' => if String.eqb k' k then fs' else (k', v) :: remove_key k fs'
  end.
Lemma swap_remove_none k fs : swap_remove k (cs fs) = None <-> ~ In k (keys fs).
Proof.
  induction fs as [|[k' v] fs IH]; simpl; [tauto|].
  destruct (String.eqb_spec k' k) as [->|N].
  - split; [discriminate|tauto].
  - destruct (swap_remove k (cs fs)) as [[c r]|] eqn:E.
    + split; [discriminate|]. intros H. exfalso. destruct IH as [_ IH]. 
      assert (~ In k (keys fs)) as H' by tauto. specialize (IH H'). discriminate.
    + split; auto. intros _ [H|H]; [congruence|]. apply IH; auto.
Qed.
Lemma swap_remove_some k fs c r : swap_remove k (cs fs) = Some (c, r) ->
  exists v, In (k, v) fs /\ c = g v /\ r = cs (remove_key k fs).
Proof.
  revert c r; induction fs as [|[k' v] fs IH]; simpl; intros c r H; [discriminate|].
  destruct (String.eqb_spec k' k) as [->|N].
  - injection H as <- <-. exists v. auto.
  - destruct (swap_remove k (cs fs)) as [[c' r']|] eqn:E; [|discriminate].
    injection H as <- <-. destruct (IH _ _ eq_refl) as (v' & H1 & H2 & ->). exists v'. auto.
Qed.
Lemma remove_key_in k fs kv : NoDup (keys fs) -> In kv (remove_key k fs) <-> In kv fs /\ fst kv <> k.
Proof.
  induction fs as [|[k' v] fs IH]; simpl; intros N; [tauto|].
  inversion N as [|? ? Hn N']; subst. destruct (String.eqb_spec k' k) as [->|Ne].
  - split.
    + intros H. split; auto. intros E. apply Hn. rewrite <- E. apply in_map; auto.
    + intros [[H|H] H2]; auto. subst. simpl in H2. congruence.
  - simpl. rewrite IH by auto. split.
    + intros [H|[H H2]]; subst; simpl; auto.
    + intros [[H|H] H2]; auto.
Qed.
Lemma remove_key_keys k fs x : NoDup (keys fs) -> In x (keys (remove_key k fs)) <-> In x (keys fs) /\ x <> k.
Proof.
  intros N. unfold keys. rewrite !in_map_iff. split.
  - intros ([k' v] & E & H). apply remove_key_in in H as [H1 H2]; auto. simpl in *. subst. split; auto. exists (x, v); auto.
  - intros (([k' v] & E & H) & H2). simpl in E; subst. exists (x, v). split; auto. apply remove_key_in; auto.
Qed.
Lemma remove_key_nodup k fs : NoDup (keys fs) -> NoDup (keys (remove_key k fs)).
Proof.
  induction fs as [|[k' v] fs IH]; simpl; intros N; auto. inversion N as [|? ? Hn N']; subst.
  destruct (String.eqb k' k); auto. simpl. constructor; auto.
  intros H. apply remove_key_keys in H as [H _]; auto.
Qed.

Variable R : input_field -> json -> cval -> Prop.

(** [object_image] for a suffix of the fields starting at index [i], with leftover [rest]. *)
Definition image_from (i : nat) (ifs : list input_field) (fs : list (string * json))
  (buf : list (nat * cval)) (rest : list (string * json)) : Prop :=
  StronglySorted lt (map fst buf) /\
  (forall j c, In (j, c) buf -> exists k f, j = i + k /\ nth_error ifs k = Some f /\ f_inaccessible f = false /\
     ((exists v, In (f_name f, v) fs /\ R f v c) \/
      (~ In (f_name f) (keys fs) /\ f_has_default f = true /\ c = CDefault j))) /\
  (forall k f, nth_error ifs k = Some f -> f_inaccessible f = false ->
     In (f_name f) (keys fs) \/ f_has_default f = true -> In (i + k) (map fst buf)) /\
  (forall kv, In kv rest <-> In kv fs /\ ~ exists f, In f ifs /\ f_inaccessible f = false /\ f_name f = fst kv) /\
  (forall f, In f ifs -> f_inaccessible f = false -> ~ In (f_name f) (keys fs) ->
     f_has_default f = false -> exists t, field_type f t /\ required t = false).

Lemma consume_sound ifs : forall i fs buf rest,
  NoDup (keys fs) -> NoDup (map f_name ifs) ->
  Forall (fun f => exists t, field_type f t) ifs ->
  (forall f, In f ifs -> forall k v, In (k, v) fs -> forall c, g v (f_def f) (f_wrapping f) = Ok c -> R f v c) ->
  consume_fields ifs i (cs fs) = Ok (buf, rest) ->
  exists rest', rest = cs rest' /\ image_from i ifs fs buf rest'.
Proof.
  induction ifs as [|f ifs IH]; intros i fs buf rest Nk Nf Hw Hg H; simpl in H.
  - injection H as <- <-. exists fs. split; auto.
    split; [constructor|]. split; [intros j c []|]. split; [intros [|k]; discriminate|].
    split; [|intros f []]. intros kv; split; [intros H; split; auto; intros (f & [] & _)|tauto].
  - simpl in Nf. inversion Nf as [|? ? Hn Nf']; subst. inversion Hw as [|? ? [t Ht] Hw']; subst.
    destruct (f_inaccessible f) eqn:Ia.
    + apply IH in H as (rest' & -> & (I1 & I2 & I3 & I4 & I5)); auto; [|firstorder].
      exists rest'. split; auto. repeat split; auto.
      * intros j c Hj. destruct (I2 _ _ Hj) as (k & f' & -> & E & Rest). exists (S k), f'. split; [lia|]. auto.
      * intros [|k] f' E A B; simpl in E; [injection E as <-; congruence|].
        replace (i + S k) with (S i + k) by lia. eauto.
      * apply I4 in H; tauto.
      * apply I4 in H as [HI Hex]. intros (f' & [<-|A] & B & C); [congruence|]. apply Hex; eauto.
      * intros [HI Hex]. apply I4. split; auto. intros (f' & A & B). apply Hex. exists f'. simpl; auto.
      * intros f' [<-|A]; [congruence|]. eauto.
    + destruct (swap_remove (f_name f) (cs fs)) as [[c fs']|] eqn:E.
      * apply swap_remove_some in E as (v & Hv & -> & ->).
        rewrite bind_ok in H. destruct H as (c & Hc & H). rewrite bind_ok in H.
        destruct H as ([buf' rest'] & H & Eq). injection Eq as <- <-.
        assert (NR : NoDup (keys (remove_key (f_name f) fs))) by (apply remove_key_nodup; auto).
        apply IH in H as (rest'' & -> & (I1 & I2 & I3 & I4 & I5)); auto.
        2:{ intros f' Hf' k v' Hin. apply remove_key_in in Hin as [Hin _]; auto. eapply Hg; simpl; eauto. }
        assert (Other : forall f', In f' ifs -> f_name f' <> f_name f).
        { intros f' Hf' E'. apply Hn. rewrite <- E'. apply in_map; auto. }
        exists rest''. split; auto. repeat split; auto.
        -- simpl. constructor; auto. apply Forall_forall. intros j Hj. apply in_map_iff in Hj as ([j' c'] & Ej & Hj).
           simpl in Ej; subst. destruct (I2 _ _ Hj) as (k & f' & -> & _). lia.
        -- intros j c' [Ej|Hj].
           ++ injection Ej as <- <-. exists 0, f. split; [lia|]. split; auto. split; auto. left. exists v. split; auto.
              eapply Hg; eauto. simpl; auto.
           ++ destruct (I2 _ _ Hj) as (k & f' & -> & Ek & Ac & Rest). exists (S k), f'. split; [lia|].
              split; [exact Ek|]. split; auto. apply nth_error_In in Ek as Hf'.
              destruct Rest as [(v' & Hv' & Rv)|(Hnk & Hd & Ec)].
              ** left. exists v'. split; auto. apply remove_key_in in Hv'; tauto.
              ** right. split; [|split]; auto. intros Hk. apply Hnk. apply remove_key_keys; auto.
        -- intros [|k] f' Ek A B; simpl in Ek |- *.
           ++ left. lia.
           ++ right. replace (i + S k) with (S i + k) by lia. eapply I3; eauto.
              destruct B as [B|B]; auto. left. apply remove_key_keys; auto. split; auto.
              apply Other. eapply nth_error_In; eauto.
        -- apply I4 in H as [HI Hex]. apply remove_key_in in HI; tauto.
        -- apply I4 in H as [HI Hex]. apply remove_key_in in HI as [HI HI2]; auto.
           intros (f' & [<-|A] & B & C); [congruence|]. apply Hex; eauto.
        -- intros [HI Hex]. apply I4. split.
           ++ apply remove_key_in; auto. split; auto. intros E'. apply Hex. exists f. simpl; auto.
           ++ intros (f' & A & B). apply Hex. exists f'. simpl; auto.
        -- intros f' [<-|A] B C D.
           ++ exfalso. apply C. unfold keys. apply in_map_iff. exists (f_name f, v). auto.
           ++ eapply I5; eauto. intros Hk. apply C. apply remove_key_keys in Hk; tauto.
      * apply swap_remove_none in E.
        destruct (f_has_default f) eqn:Hd.
        -- rewrite bind_ok in H. destruct H as ([buf' rest'] & H & Eq). injection Eq as <- <-.
           apply IH in H as (rest'' & -> & (I1 & I2 & I3 & I4 & I5)); auto; [|firstorder].
           exists rest''. split; auto. repeat split; auto.
           ++ simpl. constructor; auto. apply Forall_forall. intros j Hj. apply in_map_iff in Hj as ([j' c'] & Ej & Hj).
              simpl in Ej; subst. destruct (I2 _ _ Hj) as (k & f' & -> & _). lia.
           ++ intros j c' [Ej|Hj].
              ** injection Ej as <- <-. exists 0, f. split; [lia|]. split; auto.
              ** destruct (I2 _ _ Hj) as (k & f' & -> & Ek & Rest). exists (S k), f'. split; [lia|]. auto.
           ++ intros [|k] f' Ek A B; simpl in Ek |- *.
              ** left. lia.
              ** right. replace (i + S k) with (S i + k) by lia. eauto.
           ++ apply I4 in H; tauto.
           ++ apply I4 in H as [HI Hex]. intros (f' & [<-|A] & B & C).
              ** apply E. rewrite C. apply in_map; auto.
              ** apply Hex; eauto.
           ++ intros [HI Hex]. apply I4. split; auto. intros (f' & A & B). apply Hex. exists f'. simpl; auto.
           ++ intros f' [<-|A] B C D; [congruence|]. eauto.
        -- destruct (W.is_non_null (f_wrapping f)) eqn:Nn; [discriminate|].
           apply IH in H as (rest'' & -> & (I1 & I2 & I3 & I4 & I5)); auto; [|firstorder].
           exists rest''. split; auto. repeat split; auto.
           ++ intros j c' Hj. destruct (I2 _ _ Hj) as (k & f' & -> & Ek & Rest). exists (S k), f'. split; [lia|]. auto.
           ++ intros [|k] f' Ek A B; simpl in Ek |- *.
              ** injection Ek as <-. destruct B; [tauto|congruence].
              ** replace (i + S k) with (S i + k) by lia. eauto.
           ++ apply I4 in H; tauto.
           ++ apply I4 in H as [HI Hex]. intros (f' & [<-|A] & B & C).
              ** apply E. rewrite C. apply in_map; auto.
              ** apply Hex; eauto.
           ++ intros [HI Hex]. apply I4. split; auto. intros (f' & A & B). apply Hex. exists f'. simpl; auto.
           ++ intros f' [<-|A] B C D; [|eauto]. exists t. split; auto.
              rewrite <- (denotes_is_non_null _ _ Ht). exact Nn.
Qed.

Lemma consume_panic ifs : forall i fs,
  (forall f, In f ifs -> forall k v, In (k, v) fs -> g v (f_def f) (f_wrapping f) <> Panic) ->
  NoDup (keys fs) ->
  consume_fields ifs i (cs fs) <> Panic.
Proof.
  induction ifs as [|f ifs IH]; intros i fs Hg N; simpl; [discriminate|].
  destruct (f_inaccessible f); [apply IH; firstorder|].
  destruct (swap_remove (f_name f) (cs fs)) as [[c fs']|] eqn:E.
  - apply swap_remove_some in E as (v & Hv & -> & ->).
    apply bind_panic; [eapply Hg; simpl; eauto|]. intros c _.
    apply bind_panic.
    + apply IH; [|apply remove_key_nodup; auto]. intros f' Hf' k v' Hin.
      apply remove_key_in in Hin as [Hin _]; auto. eapply Hg; simpl; eauto.
    + intros [buf rest]; discriminate.
  - destruct (f_has_default f).
    + apply bind_panic; [apply IH; firstorder|]. intros [buf rest]; discriminate.
    + destruct (W.is_non_null (f_wrapping f)); [discriminate|]. apply IH; firstorder.
Qed.

(** Completeness: the image determines the result of the loop. *)
Lemma consume_complete ifs : forall i fs buf rest,
  NoDup (keys fs) -> NoDup (map f_name ifs) ->
  Forall (fun f => exists t, field_type f t) ifs ->
  (forall f, In f ifs -> forall k v, In (k, v) fs -> forall c, R f v c -> g v (f_def f) (f_wrapping f) = Ok c) ->
  image_from i ifs fs buf rest ->
  exists rest', consume_fields ifs i (cs fs) = Ok (buf, cs rest') /\ (forall kv, In kv rest' <-> In kv rest).
Proof.
  induction ifs as [|f ifs IH]; intros i fs buf rest Nk Nf Hw Hg (I1 & I2 & I3 & I4 & I5); simpl.
  - destruct buf as [|[j c] buf].
    + exists fs. split; auto. intros kv. rewrite I4. split; [|tauto]. intros H; split; auto. intros (f & [] & _).
    + destruct (I2 j c) as (k & f & _ & E & _); simpl; auto. destruct k; discriminate.
  - simpl in Nf. inversion Nf as [|? ? Hn Nf']; subst. inversion Hw as [|? ? [t Ht] Hw']; subst.
    assert (Other : forall f', In f' ifs -> f_name f' <> f_name f).
    { intros f' Hf' E'. apply Hn. rewrite <- E'. apply in_map; auto. }
    (* the entry for index i, if any, comes first *)
    assert (Head : In i (map fst buf) -> exists c buf', buf = (i, c) :: buf').
    { intros Hi. destruct buf as [|[j c] buf]; [destruct Hi|]. simpl in I1, Hi. inversion I1 as [|? ? S1 S2]; subst.
      destruct Hi as [->|Hi]; eauto. rewrite Forall_forall in S2. specialize (S2 _ Hi).
      destruct (I2 j c) as (k & f' & -> & _); simpl; auto. lia. }
    destruct (f_inaccessible f) eqn:Ia.
    + apply IH with (rest := rest); auto; [firstorder|]. repeat split; auto.
      * intros j c Hj. destruct (I2 _ _ Hj) as (k & f' & -> & E & Ac & Rest). destruct k as [|k]; simpl in E.
        -- injection E as <-. congruence.
        -- exists k, f'. split; [lia|]. auto.
      * intros k f' E A B. replace (S i + k) with (i + S k) by lia. eapply I3; eauto.
      * apply I4 in H; tauto.
      * apply I4 in H as [HI Hex]. intros (f' & A & B). apply Hex. exists f'; simpl; auto.
      * intros [HI Hex]. apply I4. split; auto. intros (f' & [<-|A] & B & C); [congruence|]. apply Hex; eauto.
      * intros f' A; apply I5; simpl; auto.
    + destruct (swap_remove (f_name f) (cs fs)) as [[c fs']|] eqn:E.
      * apply swap_remove_some in E as (v & Hv & -> & ->).
        assert (Hik : In (f_name f) (keys fs)) by (apply in_map_iff; exists (f_name f, v); auto).
        destruct Head as (c & buf' & ->).
        { replace i with (i + 0) by lia. eapply I3; simpl; eauto. }
        simpl in I1. inversion I1 as [|? ? S1 S2]; subst. rewrite Forall_forall in S2.
        assert (Rc : R f v c).
        { destruct (I2 i c) as (k & f' & Ej & Ek & Ac & Rest); simpl; auto.
          assert (k = 0) by lia. subst. simpl in Ek. injection Ek as <-.
          destruct Rest as [(v' & Hv' & Rv)|(H1 & _)]; [|tauto].
          assert (v' = v) as ->; auto.
          clear -Nk Hv Hv'. revert Nk Hv Hv'. induction fs as [|[k0 v0] fs IH]; simpl; [tauto|].
          intros N [A|A] [B|B]; inversion N as [|? ? X Y]; subst.
          - congruence.
          - injection A as -> ->. exfalso. apply X. apply in_map_iff. exists (f_name f, v'). auto.
          - injection B as -> ->. exfalso. apply X. apply in_map_iff. exists (f_name f, v). auto.
          - apply IH; auto. }
        rewrite (Hg f (or_introl eq_refl) _ _ Hv _ Rc). simpl.
        assert (NR : NoDup (keys (remove_key (f_name f) fs))) by (apply remove_key_nodup; auto).
        destruct (IH (S i) (remove_key (f_name f) fs) buf' rest) as (rest' & Eq & Er); auto.
        -- intros f' Hf' k v' Hin. apply remove_key_in in Hin as [Hin _]; auto. eapply Hg; simpl; eauto.
        -- repeat split; auto.
           ++ intros j c' Hj. destruct (I2 j c') as (k & f' & -> & Ek & Ac & Rest); [simpl; auto|].
              assert (i < i + k) by (apply S2; apply in_map_iff; exists (i + k, c'); auto).
              destruct k as [|k]; [lia|]. simpl in Ek. exists k, f'. split; [lia|]. split; [auto|]. split; [auto|].
              apply nth_error_In in Ek as Hf'.
              destruct Rest as [(v' & Hv' & Rv)|(H1 & H2 & H3)].
              ** left. exists v'. split; auto. apply remove_key_in; auto. split; auto. simpl. auto.
              ** right. split; auto. intros Hk. apply H1. apply remove_key_keys in Hk; tauto.
           ++ intros k f' Ek A B. assert (Hin : In (i + S k) (map fst ((i, c) :: buf'))).
              { eapply I3; simpl; eauto. destruct B as [B|B]; auto. left. apply remove_key_keys in B; tauto. }
              simpl in Hin. destruct Hin as [Hin|Hin]; [lia|]. replace (S i + k) with (i + S k) by lia. auto.
           ++ apply I4 in H as [H Hex]. apply remove_key_in; auto. split; auto.
              intros E'. apply Hex. exists f. simpl; auto.
           ++ apply I4 in H as [H Hex]. intros (f' & A & B). apply Hex. exists f'. simpl; auto.
           ++ intros [HI Hex]. apply remove_key_in in HI as [HI HI2]; auto. apply I4. split; auto.
              intros (f' & [<-|A] & B & C); [congruence|]. apply Hex; eauto.
           ++ intros f' A B C D. apply I5; simpl; auto. intros Hk. apply C. apply remove_key_keys; auto.
        -- rewrite Eq. simpl. exists rest'. auto.
      * apply swap_remove_none in E.
        destruct (f_has_default f) eqn:Hd.
        -- destruct Head as (c & buf' & ->).
           { replace i with (i + 0) by lia. eapply I3; simpl; eauto. }
           simpl in I1. inversion I1 as [|? ? S1 S2]; subst. rewrite Forall_forall in S2.
           assert (c = CDefault i) as ->.
           { destruct (I2 i c) as (k & f' & Ej & Ek & Ac & Rest); simpl; auto.
             assert (k = 0) by lia. subst. simpl in Ek. injection Ek as <-.
             destruct Rest as [(v' & Hv' & Rv)|(H1 & H2 & H3)]; [|auto].
             exfalso. apply E. apply in_map_iff. exists (f_name f, v'). auto. }
           destruct (IH (S i) fs buf' rest) as (rest' & Eq & Er); auto; [firstorder| |].
           ++ repeat split; auto.
              ** intros j c' Hj. destruct (I2 j c') as (k & f' & -> & Ek & Ac & Rest); [simpl; auto|].
                 assert (i < i + k) by (apply S2; apply in_map_iff; exists (i + k, c'); auto).
                 destruct k as [|k]; [lia|]. simpl in Ek. exists k, f'. split; [lia|]. auto.
              ** intros k f' Ek A B. assert (Hin : In (i + S k) (map fst ((i, CDefault i) :: buf'))).
                 { eapply I3; simpl; eauto. }
                 simpl in Hin. destruct Hin as [Hin|Hin]; [lia|]. replace (S i + k) with (i + S k) by lia. auto.
              ** apply I4 in H; tauto.
              ** apply I4 in H as [H Hex]. intros (f' & A & B). apply Hex. exists f'. simpl; auto.
              ** intros [HI Hex]. apply I4. split; auto. intros (f' & [<-|A] & B & C).
                 { apply E. rewrite C. apply in_map; auto. } apply Hex; eauto.
              ** intros f' A; apply I5; simpl; auto.
           ++ rewrite Eq. simpl. exists rest'. auto.
        -- destruct (I5 f) as (t' & Ht' & Rq); simpl; auto.
           assert (t' = t) by (eapply denotes_fun; eauto). subst.
           rewrite (denotes_is_non_null _ _ Ht), Rq.
           apply IH with (rest := rest); auto; [firstorder|]. repeat split; auto.
           ++ intros j c' Hj. destruct (I2 j c') as (k & f' & -> & Ek & Ac & Rest); [simpl; auto|].
              destruct k as [|k]; simpl in Ek.
              ** injection Ek as <-. destruct Rest as [(v' & Hv' & Rv)|(H1 & H2 & H3)]; [|congruence].
                 exfalso. apply E. apply in_map_iff. exists (f_name f, v'). auto.
              ** exists k, f'. split; [lia|]. auto.
           ++ intros k f' Ek A B. replace (S i + k) with (i + S k) by lia. eapply I3; simpl; eauto.
           ++ apply I4 in H; tauto.
           ++ apply I4 in H as [H Hex]. intros (f' & A & B). apply Hex. exists f'. simpl; auto.
           ++ intros [HI Hex]. apply I4. split; auto. intros (f' & [<-|A] & B & C).
              { apply E. rewrite C. apply in_map; auto. } apply Hex; eauto.
           ++ intros f' A; apply I5; simpl; auto.
Qed.

Lemma image_from_0 ifs fs buf : NoDup (keys fs) ->
  (image_from 0 ifs fs buf [] <-> object_image R ifs fs buf).
Proof.
  intros N. unfold image_from, object_image. split; intros (I1 & I2 & I3 & I4 & I5).
  - repeat split; auto.
    + intros i c Hi. destruct (I2 _ _ Hi) as (k & f & -> & Rest). exists f. auto.
    + intros k Hk. apply in_map_iff in Hk as ([k' v] & E & Hk). simpl in E; subst.
      (* decidable search *)
      assert (D : (exists f, In f ifs /\ f_inaccessible f = false /\ f_name f = k) \/
                  ~ (exists f, In f ifs /\ f_inaccessible f = false /\ f_name f = k)).
      { clear. induction ifs as [|f ifs IH]; [right; intros (f & [] & _)|].
        destruct IH as [(f' & A & B)|IH]; [left; exists f'; simpl; auto|].
        destruct (f_inaccessible f) eqn:Ia.
        - right. intros (f' & [<-|A] & B & C); [congruence|apply IH; eauto].
        - destruct (string_dec (f_name f) k).
          + left. exists f. simpl; auto.
          + right. intros (f' & [<-|A] & B & C); [congruence|apply IH; eauto]. }
      destruct D as [D|D]; auto. exfalso. destruct (proj2 (I4 (k, v))); auto.
  - repeat split; auto.
    + intros i c Hi. destruct (I2 _ _ Hi) as (f & Rest). exists i, f. auto.
    + destruct H.
    + intros [HI Hex]. apply Hex. apply I4. apply in_map; auto.
Qed.
End Fields.

Lemma iter_list_eq n c : iter_list n c = Nat.iter n (fun x => CList [x]) c.
Proof.
  revert c; induction n as [|n IH]; intros c; simpl; auto. rewrite IH.
  clear. induction n as [|n IH]; simpl; auto. rewrite IH; auto.
Qed.

Lemma find_input_field_spec name ifs : forall i j f, find_input_field name ifs i = Some (j, f) ->
  exists k, j = i + k /\ nth_error ifs k = Some f /\ f_inaccessible f = false /\ f_name f = name.
Proof.
  induction ifs as [|f0 ifs IH]; simpl; intros i j f H; [discriminate|].
  destruct (f_inaccessible f0) eqn:Ia; simpl in H.
  - apply IH in H as (k & -> & H). exists (S k). split; [lia|auto].
  - destruct (String.eqb_spec (f_name f0) name) as [E|N].
    + injection H as <- <-. exists 0. auto.
    + apply IH in H as (k & -> & H). exists (S k). split; [lia|auto].
Qed.
Lemma find_input_field_complete ifs k f : NoDup (map f_name ifs) -> nth_error ifs k = Some f -> f_inaccessible f = false ->
  forall i, find_input_field (f_name f) ifs i = Some (i + k, f).
Proof.
  revert k; induction ifs as [|f0 ifs IH]; intros k N H Ia i; [destruct k; discriminate|].
  simpl in N. inversion N as [|? ? Hn N']; subst. destruct k as [|k]; simpl in *.
  - injection H as ->. rewrite Ia, String.eqb_refl. simpl. f_equal. f_equal. lia.
  - destruct (String.eqb_spec (f_name f0) (f_name f)) as [E|Ne].
    + exfalso. apply Hn. rewrite E. apply in_map. eapply nth_error_In; eauto.
    + rewrite andb_false_r. rewrite IH with (k := k); auto. f_equal. f_equal. lia.
Qed.

Section Main.
Variable sch : schema.
Hypothesis Hsch : schema_ok sch.
Notation coerces := (coerces sch code_int code_float).
Notation coerces_named := (coerces_named sch code_int code_float).
Notation coerces_in := (coerces_in sch code_int code_float).

Definition field_coercer (v : json) : coercer := input_value v (fst (coerce sch v)) (snd (coerce sch v)).

Record good (v : json) : Prop := {
  gn : forall def, def_ok sch def -> forall c, fst (coerce sch v) def = Ok c <-> coerces_named def v c;
  gnp : forall def, def_ok sch def -> fst (coerce sch v) def <> Panic;
  gt : forall def w t, def_ok sch def -> denotes w t -> forall c, snd (coerce sch v) def w = Ok c <-> coerces def t v c;
  gtp : forall def w t, def_ok sch def -> denotes w t -> snd (coerce sch v) def w <> Panic }.

Lemma not_null_spec v : is_null v = false <-> v <> JNull.
Proof. destruct v; simpl; split; congruence. Qed.

Lemma good_in v f : good v -> field_ok sch f -> forall c,
  field_coercer v (f_def f) (f_wrapping f) = Ok c <-> coerces_in f v c.
Proof.
  intros G [Hd [t Ht]] c. unfold field_coercer, input_value. rewrite (denotes_is_list _ _ Ht), (denotes_depth _ _ Ht).
  assert (Hlv : forall c, listp t = true -> is_array v = false -> is_null v = false -> ~ coerces (f_def f) t v c).
  { intros c' L A N H. destruct t; [discriminate|]. inversion H; subst; discriminate. }
  destruct (listp t && negb (is_array v) && negb (is_null v))%bool eqn:E.
  - apply andb_prop in E as [E N]. apply andb_prop in E as [L A]. apply negb_true_iff in A, N.
    rewrite bind_ok. split.
    + intros (c' & H & Eq). injection Eq as <-. rewrite iter_list_eq. eapply ci_single; eauto.
      * apply not_null_spec; auto.
      * intros l ->; discriminate.
      * apply (gn _ G); auto.
    + intros H. inversion H as [f0 t0 v0 c0 Ht0 H0|f0 t0 v0 c0 Ht0 L0 N0 A0 H0]; subst; assert (t0 = t) by (eapply denotes_fun; eauto); subst.
      * exfalso. eapply Hlv; eauto.
      * exists c0. rewrite iter_list_eq. split; auto. apply (gn _ G); auto.
  - rewrite (gt _ G _ _ t) by auto. split.
    + intros H. eapply ci_direct; eauto.
    + intros H. inversion H as [f0 t0 v0 c0 Ht0 H0|f0 t0 v0 c0 Ht0 L0 N0 A0 H0]; subst; assert (t0 = t) by (eapply denotes_fun; eauto); subst; auto.
      exfalso. rewrite L0 in E. apply not_null_spec in N0. rewrite N0 in E.
      destruct v; simpl in E; try discriminate. eapply A0; eauto.
Qed.
Lemma good_in_panic v f : good v -> field_ok sch f -> field_coercer v (f_def f) (f_wrapping f) <> Panic.
Proof.
  intros G [Hd [t Ht]]. unfold field_coercer, input_value.
  destruct (_ && _ && _)%bool.
  - apply bind_panic; [apply (gnp _ G); auto|discriminate].
  - eapply (gtp _ G); eauto.
Qed.

Lemma in_forall {A} (P : A -> Prop) l x : Forall P l -> In x l -> P x.
Proof. rewrite Forall_forall. auto. Qed.

Lemma cs_nil g fs : cs g fs = [] -> fs = [].
Proof. destruct fs; [auto|discriminate]. Qed.

Lemma fields_ok o fs : (exists id, sch id = Some o) -> NoDup (keys fs) -> Forall (fun kv => good (snd kv)) fs ->
  forall c, coerce_fields o (cs field_coercer fs) = Ok c <->
    (exists buf, c = CObj buf /\ 
     if is_one_of o then
       exists k v i f c', fs = [(k, v)] /\ nth_error (input_fields o) i = Some f /\ f_inaccessible f = false /\
         f_name f = k /\ coerces_in f v c' /\ buf = [(i, c')]
     else object_image coerces_in (input_fields o) fs buf).
Proof.
  intros [id Hid] N G c. destruct (Hsch _ _ Hid) as [Hf Nf]. unfold coerce_fields.
  assert (Hty : Forall (fun f => exists t, field_type f t) (input_fields o)).
  { apply Forall_impl with (2 := Hf). intros f [_ H]. exact H. }
  destruct (is_one_of o).
  - split.
    + destruct fs as [|[k v] [|]]; simpl; try discriminate.
      destruct (find_input_field k (input_fields o) 0) as [[i f]|] eqn:E; [|discriminate].
      rewrite bind_ok. intros (c' & H & Eq). injection Eq as <-.
      apply find_input_field_spec in E as (k' & -> & En & Ia & Nm).
      exists [(k', c')]. split; auto. exists k, v, k', f, c'. repeat split; auto.
      inversion G as [|? ? G1 _]; subst. apply good_in; auto. eapply in_forall; eauto. eapply nth_error_In; eauto.
    + intros (buf & -> & k & v & i & f & c' & -> & En & Ia & <- & H & ->). simpl.
      rewrite (find_input_field_complete _ _ _ Nf En Ia). simpl. rewrite bind_ok.
      inversion G as [|? ? G1 _]; subst. exists c'. split; auto. apply good_in; auto.
      eapply in_forall; eauto. eapply nth_error_In; eauto.
  - rewrite bind_ok. split.
    + intros ([buf rest] & H & Eq).
      destruct rest; [|discriminate]. injection Eq as <-.
      assert (Im : exists rest', [] = cs field_coercer rest' /\ image_from coerces_in 0 (input_fields o) fs buf rest').
      { apply (consume_sound field_coercer coerces_in _ _ _ _ _ N Nf Hty); auto. intros f Hin k v Hkv c Hc. apply good_in; auto; [|eapply in_forall; eauto].
        apply (in_forall _ _ _ G Hkv). }
      destruct Im as (rest' & E & Im). symmetry in E. apply cs_nil in E; subst. exists buf. split; auto.
      apply image_from_0; auto.
    + intros (buf & -> & Im). apply image_from_0 in Im; auto.
      assert (Q : exists rest', consume_fields (input_fields o) 0 (cs field_coercer fs) = Ok (buf, cs field_coercer rest') /\ (forall kv, In kv rest' <-> In kv [])).
      { apply (consume_complete field_coercer coerces_in _ _ _ _ _ N Nf Hty); auto. intros f Hin k v Hkv c Hc. apply good_in; auto; [|eapply in_forall; eauto].
        apply (in_forall _ _ _ G Hkv). }
      destruct Q as (rest' & E & Er). exists (buf, []). destruct rest' as [|kv rest']; [auto|].
      exfalso. apply (Er kv). simpl; auto.
Qed.
Lemma fields_panic o fs : (exists id, sch id = Some o) -> NoDup (keys fs) -> Forall (fun kv => good (snd kv)) fs ->
  coerce_fields o (cs field_coercer fs) <> Panic.
Proof.
  intros [id Hid] N G. destruct (Hsch _ _ Hid) as [Hf Nf]. unfold coerce_fields.
  destruct (is_one_of o).
  - destruct fs as [|[k v] [|]]; simpl; try discriminate.
    destruct (find_input_field k (input_fields o) 0) as [[i f]|] eqn:E; [|discriminate].
    apply bind_panic; [|discriminate]. apply find_input_field_spec in E as (k' & -> & En & Ia & Nm).
    inversion G as [|? ? G1 _]; subst. apply good_in_panic; auto. eapply in_forall; eauto. eapply nth_error_In; eauto.
  - apply bind_panic.
    + refine (consume_panic field_coercer coerces_in _ _ _ _ N). intros f Hin k v Hkv. apply good_in_panic; [|eapply in_forall; eauto].
      apply (in_forall _ _ _ G Hkv).
    + intros [buf rest] _. destruct rest; discriminate.
Qed.

Lemma coerce_scalar_ok s v : forall c, coerce_scalar s v = Ok c <-> coerces_named (DScalar s) v c.
Proof.
  intros c. destruct s; simpl.
  - destruct v; (split; [intros H; try discriminate; injection H as <-; constructor|intros H; inversion H; subst; auto]).
  - destruct v as [|b|n|s|l|fs]; try (split; [discriminate|intros H; inversion H]).
    destruct (as_f64_some n) as (m & e & E). rewrite E. split.
    + intros H; injection H as <-. constructor. exact E.
    + intros H; inversion H; subst. unfold code_float in *. congruence.
  - destruct v as [|b|n|s|l|fs]; try (split; [discriminate|intros H; inversion H]). split.
    + intros H. destruct (coerce_int_shape _ _ H) as [z ->]. constructor. exact H.
    + intros H; inversion H; subst. auto.
  - destruct v; (split; [intros H; try discriminate; injection H as <-; constructor|intros H; inversion H; subst; auto]).
  - rewrite coerce_unknown_ok. split; [intros H; constructor; auto|intros H; inversion H; auto].
Qed.
Lemma coerce_scalar_panic s v : coerce_scalar s v <> Panic.
Proof.
  destruct s; simpl; try (destruct v; discriminate).
  - destruct v as [|b|n|s|l|fs]; try discriminate. destruct (as_f64_some n) as (m & e & ->). discriminate.
  - destruct v as [|b|n|s|l|fs]; try discriminate. apply coerce_int_panic.
  - apply coerce_unknown_panic.
Qed.
Lemma coerce_enum_ok vs v : NoDup (map fst vs) -> forall c, coerce_enum vs v = Ok c <-> coerces_named (DEnum vs) v c.
Proof.
  intros N c. destruct v as [|b|n|s|l|fs]; simpl; try (split; [discriminate|intros H; inversion H]). split.
  - destruct (find_value_by_name s vs 0) as [[i [|]]|] eqn:E; try discriminate.
    intros H; injection H as <-. apply find_value_spec in E as (k & -> & E). econstructor; eauto.
  - intros H; inversion H as [| | | | |? i ? E| |]; subst.
    rewrite (find_value_complete _ _ _ _ N E). reflexivity.
Qed.
Lemma coerce_enum_panic vs v : coerce_enum vs v <> Panic.
Proof.
  destruct v; simpl; try discriminate. destruct find_value_by_name as [[i [|]]|]; discriminate.
Qed.

Lemma fst_coerce v def : fst (coerce sch v) def =
  match def with
  | DScalar s => coerce_scalar s v
  | DEnum vs => coerce_enum vs v
  | DObj id => match sch id with
               | None => Panic
               | Some o => match v with JObj fs => coerce_fields o (cs field_coercer fs) | _ => Err end
               end
  end.
Proof. destruct v; reflexivity. Qed.
Lemma snd_coerce v def w : snd (coerce sch v) def w =
  match W.pop_outermost_list_wrapping w with
  | None => Panic
  | Some (w', None) => if is_null v then (if W.is_non_null w' then Err else Ok CNull) else fst (coerce sch v) def
  | Some (w', Some lw) =>
      match v with
      | JNull => match lw with W.LListNonNull => Err | W.LList => Ok CNull end
      | JArr l => bind (sequence (map (fun x => snd (coerce sch x) def w') l)) (fun l' => Ok (CList l'))
      | _ => Err
      end
  end.
Proof. destruct v; reflexivity. Qed.

Definition sub_good (v : json) : Prop :=
  match v with
  | JArr l => Forall good l
  | JObj fs => NoDup (keys fs) /\ Forall (fun kv => good (snd kv)) fs
  | _ => True
  end.
Lemma good_step v : sub_good v -> good v.
Proof.
  intros HS.
  assert (HN : forall def, def_ok sch def -> forall c, fst (coerce sch v) def = Ok c <-> coerces_named def v c).
  { intros def Hd c. rewrite fst_coerce. destruct def as [s0|vs|id].
    - apply coerce_scalar_ok.
    - apply coerce_enum_ok; auto.
    - destruct Hd as [o Ho]. rewrite Ho. destruct v as [|b|n|s|l|fs];
        try (split; [discriminate|intros H; inversion H]).
      destruct HS as [N G]. rewrite (fields_ok o fs) by eauto. split.
      + intros (buf & -> & H). destruct (is_one_of o) eqn:E.
        * destruct H as (k & v & i & f & c' & -> & H1 & H2 & H3 & H4 & ->). econstructor; eauto.
        * econstructor; eauto.
      + intros H. inversion H as [| | | | | |id' o' k v i f c' E1 E2 E3 E4 E5 E6|id' o' fs' buf E1 E2 E3]; subst.
        * assert (o' = o) by congruence. subst. eexists. split; [reflexivity|]. rewrite E2.
          exists (f_name f), v, i, f, c'. auto 10.
        * assert (o' = o) by congruence. subst. eexists. split; [reflexivity|]. rewrite E2. auto. }
  assert (HP : forall def, def_ok sch def -> fst (coerce sch v) def <> Panic).
  { intros def Hd. rewrite fst_coerce. destruct def as [s0|vs|id].
    - apply coerce_scalar_panic.
    - apply coerce_enum_panic.
    - destruct Hd as [o Ho]. rewrite Ho. destruct v as [|b|n|s|l|fs]; try discriminate.
      destruct HS as [N G]. apply fields_panic; eauto. }
  split; auto.
  - intros def w t Hd Ht c. rewrite snd_coerce. pose proof (denotes_pop _ _ Ht) as Hp.
    pose proof (denotes_is_non_null _ _ Ht) as Hr. destruct t as [r|e r].
    + rewrite Hp. simpl in Hr. rewrite Hr. destruct (is_null v) eqn:N.
      * destruct v; try discriminate. destruct r; split; try discriminate.
        -- intros H; inversion H; subst; simpl in *; congruence.
        -- intros H; injection H as <-. constructor; auto.
        -- intros H; inversion H; subst; auto; congruence.
      * rewrite HN by auto. apply not_null_spec in N. split.
        -- intros H. constructor; auto.
        -- intros H; inversion H; subst; auto; congruence.
    + destruct Hp as (w' & Hp & Ht'). rewrite Hp. destruct v as [|b|n|s|l|fs];
        try (split; [discriminate|intros H; inversion H]).
      * destruct r; simpl; split; try discriminate.
        -- intros H; inversion H; subst; simpl in *; congruence.
        -- intros H; injection H as <-. constructor; auto.
        -- intros H; inversion H; subst; auto.
      * assert (E : forall l', sequence (map (fun x => snd (coerce sch x) def w') l) = Ok l' <-> Forall2 (coerces def e) l l').
        { intros l'. rewrite sequence_ok. apply Forall2_iff. simpl in HS. apply Forall_impl with (2 := HS).
          intros x G y. apply (gt _ G); auto. }
        rewrite bind_ok. split.
        -- intros (l' & H & Eq). injection Eq as <-. constructor. apply E; auto.
        -- intros H; inversion H; subst. eexists. split; [apply E; eauto|reflexivity].
  - intros def w t Hd Ht. rewrite snd_coerce. pose proof (denotes_pop _ _ Ht) as Hp. destruct t as [r|e r].
    + rewrite Hp. destruct (is_null v); auto. destruct (W.is_non_null w); discriminate.
    + destruct Hp as (w' & Hp & Ht'). rewrite Hp. destruct v as [|b|n|s|l|fs]; try discriminate.
      * destruct (lw_of r); discriminate.
      * apply bind_panic; [|discriminate]. apply sequence_panic. rewrite Forall_map.
        simpl in HS. apply Forall_impl with (2 := HS). intros x G. eapply (gtp _ G); eauto.
Qed.
Lemma good_all v : json_ok v -> good v.
Proof.
  induction v as [|b|n|s|l IH|fs IH] using json_ind'; intros Hok; apply good_step; simpl; auto.
  - inversion Hok as [| | | |? F|]; subst. rewrite Forall_forall in *. auto.
  - inversion Hok as [| | | | |? N F]; subst. split; auto. rewrite Forall_forall in *. auto.
Qed.

(** The whole: a variable is modelled as a field position. *)
Lemma coerce_variable_iff f v : json_ok v -> field_ok sch f -> forall c,
  coerce_variable sch (f_def f) (f_wrapping f) v = Ok c <-> coerces_in f v c.
Proof. intros H Hf c. apply (good_in v f (good_all v H) Hf). Qed.
Lemma coerce_variable_panic f v : json_ok v -> field_ok sch f ->
  coerce_variable sch (f_def f) (f_wrapping f) v <> Panic.
Proof. intros H Hf. apply (good_in_panic v f (good_all v H) Hf). Qed.

(** Conformance of whatever the relation produces. *)
Lemma code_int_range n z : code_int n z -> (-2147483648 <= z <= 2147483647)%Z.
Proof.
  unfold code_int, coerce_int. destruct n as [n|z0|m e].
  - destruct as_i64; [|discriminate]. unfold i32_try_from.
    destruct ((-2147483648 <=? z0)%Z && (z0 <=? 2147483647)%Z)%bool eqn:E; [|discriminate].
    intros H; injection H as <-. lia.
  - destruct as_i64; [|discriminate]. unfold i32_try_from.
    destruct ((-2147483648 <=? z1)%Z && (z1 <=? 2147483647)%Z)%bool eqn:E; [|discriminate].
    intros H; injection H as <-. lia.
  - destruct can_coerce_to_int; simpl; [|discriminate]. intros H; injection H as <-. unfold f64_as_i32. lia.
Qed.
Lemma custom_json_like v c : custom code_float v c -> json_like c.
Proof.
  revert c; induction v as [|b|n|s|l IH|fs IH] using json_ind'; intros c H; inversion H; subst; constructor.
  - match goal with F : Forall2 _ _ _ |- _ => revert IH; clear H; induction F end; constructor.
    + inversion IH; auto.
    + inversion IH; auto.
  - match goal with F : Forall2 _ _ _ |- _ => revert IH; clear H; induction F end; constructor.
    + inversion IH; subst. apply H3. tauto.
    + inversion IH; auto.
Qed.
Lemma custom_not_null v c : v <> JNull -> custom code_float v c -> c <> CNull.
Proof. intros N H; inversion H; subst; congruence. Qed.

Definition conf (v : json) : Prop :=
  (forall def c, v <> JNull -> coerces_named def v c -> conforms_named sch def c) /\
  (forall def t c, coerces def t v c -> conforms sch def t c).
Lemma iter_conforms def t c : conforms_named sch def c ->
  conforms sch def t (Nat.iter (depth t) (fun x => CList [x]) c).
Proof.
  intros H. induction t as [r|e IH r]; simpl.
  - constructor; auto.
  - constructor. constructor; auto.
Qed.
Lemma conf_in f v c : conf v -> coerces_in f v c -> conforms_field sch f c.
Proof.
  intros [C1 C2] H. inversion H; subst; econstructor; eauto.
  apply iter_conforms. apply C1; auto.
Qed.
Lemma conf_step v :
  match v with JArr l => Forall conf l | JObj fs => Forall (fun kv => conf (snd kv)) fs | _ => True end -> conf v.
Proof.
  intros HS.
  assert (C1 : forall def c, v <> JNull -> coerces_named def v c -> conforms_named sch def c).
  { intros def c Nn H. inversion H as [n z I|n m e F|s|b|v0 c0 Cu|vs i name E|id o k v0 i f c0 E1 E2 E3 E4 E5 E6|id o fs buf E1 E2 E3]; subst; try (constructor; fail).
    - constructor. eapply code_int_range; eauto.
    - constructor; [eapply custom_json_like; eauto|eapply custom_not_null; eauto].
    - econstructor; eauto.
    - eapply cfn_one_of; eauto. inversion HS; subst. eapply conf_in; eauto.
    - eapply cfn_object; eauto. destruct E3 as (I1 & I2 & I3 & I4 & I5). repeat split; auto.
      + intros i c Hi. destruct (I2 _ _ Hi) as (f & A & B & C). exists f. split; auto. split; auto.
        destruct C as [(v & Hv & R)|(X & Y & Z)]; [left|right; auto].
        eapply conf_in; eauto. rewrite Forall_forall in HS. apply (HS _ Hv).
      + intros i f t A B T Rq.
        destruct (in_dec string_dec (f_name f) (keys fs)) as [D|D]; [eapply I3; eauto|].
        destruct (f_has_default f) eqn:Df; [eapply I3; eauto|].
        destruct (I5 f) as (t' & T' & Rq'); auto; [eapply nth_error_In; eauto|].
        assert (t' = t) by (eapply denotes_fun; eauto). congruence. }
  split; auto.
  intros def t c H. inversion H as [d t0 Rq|d e r l l' F|d r v0 c0 N Hn]; subst.
  - constructor; auto.
  - constructor. clear H C1. simpl in HS. revert HS. induction F as [|x y l l' Hxy F IHF]; intros HS; constructor;
      inversion HS as [|? ? [_ C2] HS']; subst; auto.
  - constructor; auto.
Qed.
Lemma conf_all v : conf v.
Proof. induction v as [|b|n|s|l IH|fs IH] using json_ind'; apply conf_step; auto. Qed.
Lemma coerces_in_conforms f v c : coerces_in f v c -> conforms_field sch f c.
Proof. apply conf_in. apply conf_all. Qed.
End Main.
