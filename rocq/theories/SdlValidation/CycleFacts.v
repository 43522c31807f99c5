(* The search for cycles of input objects: it ends, what it finds is a cycle,
   and if it finds none there is none. *)
From Coq Require Import String List Bool Arith Lia.
From Verif.SdlValidation Require Import Model Spec Facts CheckFacts.
Import ListNotations.
Local Open Scope string_scope.
Local Open Scope list_scope.

Section Cycles.
Variable doc : document.
Let ctx := collected doc.

Lemma ref_nil : forall k n v, references_input_object ctx (S k) n [] v = Some (None, v).
Proof. reflexivity. Qed.

Lemma ref_cons : forall k n f rest v,
  references_input_object ctx (S k) n (f :: rest) v =
  match iv_type f with
  | ListOf _ _ => references_input_object ctx (S k) n rest v
  | Named ft true => references_input_object ctx (S k) n rest v
  | Named ft false =>
      if String.eqb ft n then Some (Some [iv_name f], v)
      else if existsb (String.eqb ft) v then references_input_object ctx (S k) n rest v
      else match option_map t_kind (definition_of ctx ft) with
           | Some (KInput inner) =>
               match references_input_object ctx k n inner (ft :: v) with
               | None => None
               | Some (Some chain, w) => Some (Some (chain ++ [iv_name f]), w)
               | Some (None, w) => references_input_object ctx (S k) n rest w
               end
           | _ => references_input_object ctx (S k) n rest v
           end
  end.
Proof. reflexivity. Qed.

Lemma input_of_iff : forall ft inner,
  option_map t_kind (definition_of ctx ft) = Some (KInput inner) <->
  exists t, defined doc ft t /\ t_kind t = KInput inner.
Proof.
  intros ft inner. split.
  - destruct (definition_of ctx ft) as [t|] eqn:E; cbn [option_map]; [|discriminate].
    intros H. injection H as H. apply definition_of_iff in E. eauto.
  - intros (t & Ht & K). apply definition_of_iff in Ht. fold ctx in Ht. rewrite Ht. cbn [option_map]. now rewrite K.
Qed.

(* ---------------------------------------------------------------- it ends *)

Definition unvisited (v : list name) : nat :=
  length (filter (fun k => negb (existsb (String.eqb k) v)) (map fst (definition_names ctx))).

Lemma filter_length_le : forall {A} (p q : A -> bool) l,
  (forall x, q x = true -> p x = true) -> length (filter q l) <= length (filter p l).
Proof.
  intros A p q l H. induction l as [|x l IH]; cbn [filter]; [lia|].
  destruct (q x) eqn:Q.
  - rewrite (H x Q). cbn [length]. lia.
  - destruct (p x); cbn [length]; lia.
Qed.

Lemma filter_length_lt : forall {A} (p q : A -> bool) l x,
  (forall x, q x = true -> p x = true) -> In x l -> p x = true -> q x = false ->
  length (filter q l) < length (filter p l).
Proof.
  intros A p q l x H Hin P Q. induction l as [|y l IH]; [destruct Hin|]. cbn [filter].
  destruct Hin as [->|Hin].
  - rewrite P, Q. cbn [length]. pose proof (filter_length_le p q l H). lia.
  - specialize (IH Hin). destruct (q y) eqn:Qy.
    + rewrite (H y Qy). cbn [length]. lia.
    + destruct (p y); cbn [length]; lia.
Qed.

Lemma unvisited_le : forall v w, (forall x, In x v -> In x w) -> unvisited w <= unvisited v.
Proof.
  intros v w H. apply filter_length_le. intros x. rewrite !negb_true_iff, !existsb_eqb_false. auto.
Qed.

Lemma unvisited_lt : forall v ft inner,
  option_map t_kind (definition_of ctx ft) = Some (KInput inner) ->
  existsb (String.eqb ft) v = false -> unvisited (ft :: v) < unvisited v.
Proof.
  intros v ft inner HD HV. apply filter_length_lt with (x := ft).
  - intros x. rewrite !negb_true_iff, !existsb_eqb_false. cbn [In]. tauto.
  - destruct (definition_of ctx ft) as [t|] eqn:E; [|discriminate].
    apply get_in in E. now apply (in_map fst) in E.
  - now rewrite HV.
  - rewrite negb_false_iff, existsb_eqb. now left.
Qed.

Lemma references_total : forall k n fields v,
  unvisited v < k ->
  exists r w, references_input_object ctx k n fields v = Some (r, w) /\ (forall x, In x v -> In x w).
Proof.
  induction k as [|k IHk]; intros n fields v HK; [lia|].
  revert v HK. induction fields as [|f rest IHf]; intros v HK.
  - rewrite ref_nil. exists None, v. auto.
  - rewrite ref_cons. destruct (iv_type f) as [ft [|]|t b]; try (now apply IHf).
    destruct (String.eqb ft n); [exists (Some [iv_name f]), v; auto|].
    destruct (existsb (String.eqb ft) v) eqn:EV; [now apply IHf|].
    destruct (option_map t_kind (definition_of ctx ft)) as [[|is fs|is fs|ms|vs|inner]|] eqn:ED;
      try (now apply IHf).
    pose proof (unvisited_lt v ft inner ED EV) as HL.
    destruct (IHk n inner (ft :: v)) as (r & w & HR & HW); [lia|]. rewrite HR.
    destruct r as [chain|].
    + exists (Some (chain ++ [iv_name f])), w. split; [reflexivity|]. intros x Hx. apply HW. now right.
    + destruct (IHf w) as (r & w' & HR' & HW').
      * pose proof (unvisited_le v w) as HU. specialize (HU (fun x Hx => HW x (or_intror Hx))). lia.
      * exists r, w'. split; [exact HR'|]. intros x Hx. apply HW', HW. now right.
Qed.

Lemma unvisited_nil : unvisited [] = length (definition_names ctx).
Proof.
  unfold unvisited. cbn [existsb]. rewrite <- (map_length fst (definition_names ctx)).
  induction (map fst (definition_names ctx)) as [|x l IH]; [reflexivity|].
  cbn [filter negb length]. now f_equal.
Qed.

Lemma references_ok : forall n fields,
  exists r w, references_input_object ctx (S (length (definition_names ctx))) n fields [] = Some (r, w).
Proof.
  intros n fields. destruct (references_total (S (length (definition_names ctx))) n fields []) as (r & w & H & _).
  - rewrite unvisited_nil. lia.
  - eauto.
Qed.

Lemma input_object_cycles_ok : forall n fields, input_object_cycles ctx n fields <> None.
Proof.
  intros n fields. unfold input_object_cycles. destruct (references_ok n fields) as (r & w & ->).
  destruct r; discriminate.
Qed.

(* ------------------------------------------------- what it finds is a cycle *)

Lemma input_path_cons : forall fs f chain n,
  input_path doc fs chain n -> input_path doc (f :: fs) chain n.
Proof.
  intros fs f chain n H. inversion H; subst.
  - apply path_last; [now right|assumption].
  - eapply path_step; eauto. now right.
Qed.

Lemma references_sound : forall k n fields v chain w,
  references_input_object ctx k n fields v = Some (Some chain, w) ->
  input_path doc fields (rev chain) n.
Proof.
  induction k as [|k IHk]; intros n fields v chain w; [discriminate|].
  revert v. induction fields as [|f rest IHf]; intros v.
  - rewrite ref_nil. discriminate.
  - rewrite ref_cons. destruct (iv_type f) as [ft [|]|t b] eqn:T;
      try (intros H; apply input_path_cons; now apply (IHf v)).
    destruct (String.eqb_spec ft n) as [->|D].
    + intros H. injection H as <- <-. cbn [rev app]. apply path_last; [now left|exact T].
    + destruct (existsb (String.eqb ft) v); [intros H; apply input_path_cons; now apply (IHf v)|].
      destruct (option_map t_kind (definition_of ctx ft)) as [[|is fs|is fs|ms|vs|inner]|] eqn:ED;
        try (intros H; apply input_path_cons; now apply (IHf v)).
      destruct (references_input_object ctx k n inner (ft :: v)) as [[[c|] w1]|] eqn:ER; [| |discriminate].
      * intros H. injection H as <- <-. rewrite rev_app_distr. cbn [rev app].
        apply input_of_iff in ED. destruct ED as (t & Ht & K).
        eapply path_step; eauto. now left.
      * intros H. apply input_path_cons. now apply (IHf w1).
Qed.

(* ------------------------------------------- if it finds none there is none *)

(* a non-null field leads neither to n nor to an input object outside of w *)
Definition leads_inside (n : name) (w : list name) (f : input_value) : Prop :=
  forall ft, iv_type f = Named ft false ->
    ft <> n /\ (forall t inner, defined doc ft t -> t_kind t = KInput inner -> In ft w).

Lemma leads_inside_mono : forall n v w f,
  (forall x, In x v -> In x w) -> leads_inside n v f -> leads_inside n w f.
Proof.
  intros n v w f H HL ft T. destruct (HL ft T) as [H1 H2]. split; [exact H1|]. eauto.
Qed.

Definition closed (n : name) (w : list name) (x : name) : Prop :=
  forall t inner, defined doc x t -> t_kind t = KInput inner -> Forall (leads_inside n w) inner.

Lemma closed_mono : forall n v w x, (forall y, In y v -> In y w) -> closed n v x -> closed n w x.
Proof.
  intros n v w x H HC t inner Ht K. specialize (HC t inner Ht K).
  eapply Forall_impl; [|exact HC]. intros f. now apply leads_inside_mono.
Qed.

Lemma references_complete : forall k n fields v w,
  references_input_object ctx k n fields v = Some (None, w) ->
  (forall x, In x v -> In x w) /\ Forall (leads_inside n w) fields /\
  (forall x, In x w -> ~ In x v -> closed n w x).
Proof.
  induction k as [|k IHk]; intros n fields v w; [discriminate|].
  revert v. induction fields as [|f rest IHf]; intros v.
  - rewrite ref_nil. intros H. injection H as <-. split; [auto|]. split; [constructor|]. contradiction.
  - rewrite ref_cons. destruct (iv_type f) as [ft [|]|t b] eqn:T.
    + intros H. destruct (IHf v H) as (H1 & H2 & H3). split; [exact H1|]. split; [|exact H3].
      constructor; [|exact H2]. intros ft' T'. rewrite T in T'. discriminate.
    + destruct (String.eqb_spec ft n) as [->|D]; [discriminate|].
      destruct (existsb (String.eqb ft) v) eqn:EV.
      * intros H. destruct (IHf v H) as (H1 & H2 & H3). split; [exact H1|]. split; [|exact H3].
        constructor; [|exact H2]. intros ft' T'. rewrite T in T'. injection T' as <-.
        split; [exact D|]. intros _ _ _ _. apply H1. now apply existsb_eqb.
      * destruct (option_map t_kind (definition_of ctx ft)) as [[|is fs|is fs|ms|vs|inner]|] eqn:ED.
        6: { destruct (references_input_object ctx k n inner (ft :: v)) as [[[c|] w1]|] eqn:ER;
               [discriminate| |discriminate].
             intros H. destruct (IHk n inner (ft :: v) w1 ER) as (G1 & G2 & G3).
             destruct (IHf w1 H) as (H1 & H2 & H3).
             split; [intros x Hx; apply H1, G1; now right|]. split.
             - constructor; [|exact H2]. intros ft' T'. rewrite T in T'. injection T' as <-.
               split; [exact D|]. intros _ _ _ _. apply H1, G1. now left.
             - intros x Hx HN. destruct (in_dec string_dec x w1) as [I1|N1]; [|now apply H3].
               apply (closed_mono n w1 w x H1). destruct (string_dec x ft) as [->|Dx].
               + intros t inner' Ht K. apply input_of_iff in ED. destruct ED as (t' & Ht' & K').
                 rewrite (defined_unique _ _ _ _ Ht Ht') in K. rewrite K' in K. injection K as <-. exact G2.
               + apply G3; [exact I1|]. intros [E|E]; [now apply Dx|contradiction]. }
        all: intros H; destruct (IHf v H) as (H1 & H2 & H3); split; [exact H1|]; split; [|exact H3];
          constructor; [|exact H2]; intros ft' T'; rewrite T in T'; injection T' as <-;
          (split; [exact D|]); intros t inner Ht K;
          (assert (X : option_map t_kind (definition_of ctx ft) = Some (KInput inner))
             by (apply input_of_iff; eauto)); rewrite ED in X; discriminate.
    + intros H. destruct (IHf v H) as (H1 & H2 & H3). split; [exact H1|]. split; [|exact H3].
      constructor; [|exact H2]. intros ft' T'. rewrite T in T'. discriminate.
Qed.

Lemma closed_no_path : forall n w fields chain m,
  (forall x, In x w -> closed n w x) -> Forall (leads_inside n w) fields ->
  input_path doc fields chain m -> m <> n.
Proof.
  intros n w fields chain m HC HF HP. revert HF.
  induction HP as [fs f n' Hin T|fs f ft t inner chain n' Hin T Ht K HP IH]; intros HF;
    rewrite Forall_forall in HF; specialize (HF f Hin).
  - now apply HF.
  - apply IH. destruct (HF _ T) as [_ HI]. apply (HC ft (HI t inner Ht K) t inner Ht K).
Qed.

Lemma emits_cycles_sound : forall n fields e,
  emits (input_object_cycles ctx n fields) e ->
  exists chain, e = InputCycle n chain /\ input_path doc fields chain n.
Proof.
  intros n fields e. unfold input_object_cycles.
  destruct (references_input_object ctx (S (length (definition_names ctx))) n fields []) as [[[c|] w]|] eqn:E;
    try (intros []; fail).
  rewrite emits_push_error. intros <-. exists (rev c). split; [reflexivity|].
  eapply references_sound; eauto.
Qed.

Lemma emits_cycles_complete : forall n fields chain,
  input_path doc fields chain n ->
  exists chain', emits (input_object_cycles ctx n fields) (InputCycle n chain').
Proof.
  intros n fields chain HP. unfold input_object_cycles.
  destruct (references_ok n fields) as (r & w & HR). rewrite HR. destruct r as [c|].
  - exists (rev c). now left.
  - exfalso. destruct (references_complete _ _ _ _ _ HR) as (_ & HF & HC).
    apply (closed_no_path n w fields chain n); auto.
Qed.

End Cycles.
