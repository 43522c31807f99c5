(** Arguments made of field selection maps are always written. *)
From Coq Require Import List NArith Bool Arith Lia Permutation.
From Verif Require Import Response.Model Response.Spec Response.Merge Wrapping.Spec Views.Model Views.Spec Views.Trees.
From Verif Require Import SelectionMap.Model SelectionMap.TextProperties SelectionMap.Binding SelectionMap.BindSpec.
From Verif Require Import SelectionMap.Bound SelectionMap.Filled SelectionMap.Required.
Import ListNotations.
Local Open Scope nat_scope.
Local Open Scope list_scope.

Section Serve.
  Variable g : graph.
  Variable strings : nat -> name.
  Variable T : targets.
  Variable leaf_ok : def -> out -> Prop.
  Variable sdef sid : nat -> nat.
  Notation typed := (typed g leaf_ok sdef).
  Notation key := (a_key T).
  Hypothesis H_sid : forall f, sdef (sid f) = f.

  (** ** Objects are never where a scalar is expected *)
  Definition safe (d : def) (i : inj) : Prop := forall w r t, typed (TyRef d w) r t -> ~ misfit r i t.
  Lemma json_fit t : forall x r i, json t x -> ~ misfit r i t.
  Proof.
    induction t as [v|n l IH|n o fs IH|n t IH] using tree_ind2; intros x r i J M.
    - inversion M.
    - inversion J as [|? ? xs J'|]. inversion M as [? ? ? ? t I M'| |]. subst. rewrite Forall_forall in IH.
      destruct (Forall2_in_l _ _ _ _ J' I) as (y & _ & Jy). exact (IH t I y r i Jy M').
    - inversion J.
    - inversion J. inversion M. subst. eapply IH; eassumption.
  Qed.
  Lemma safe_lift d i : (forall w r n o fs, is_composite d -> typed (TyRef d w) r (TObj n o fs) -> ~ misfit_object r i fs) -> safe d i.
  Proof.
    intros K w r t. revert w r. induction t as [v|n l IH|n o fs IH|n t IH] using tree_ind2; intros w r D M.
    - inversion M.
    - inversion D as [|? ? ? ? x C J V| |? e b ? ? ? C F|]; subst; [exact (json_fit _ _ _ _ J M)|].
      inversion M as [? ? ? ? t I M'| |]. subst. rewrite Forall_forall in IH, F. exact (IH t I _ _ (F t I) M').
    - pose proof D as D0. inversion D as [|? ? ? ? x C J V| | |? b ? ? ? ? C A B]; subst; [inversion J|].
      inversion M as [| |? ? ? ? ? M']. subst. exact (K _ _ _ _ _ C D0 M').
    - inversion M as [|? ? ? ? M'|]. subst. inversion D as [? ? ? ? D'|? ? ? ? x C J V| | |]; subst; [exact (IH _ _ D' M')|].
      exact (json_fit _ _ _ _ J M).
  Qed.
  Lemma safe_leaf d i : ~ is_composite d -> safe d i.
  Proof. intros N. apply safe_lift. intros w r n o fs C. contradiction. Qed.
  Lemma safe_default d x : safe d (IDefault x).
  Proof. apply safe_lift. intros w r n o fs _ _ M. inversion M. Qed.
  Lemma safe_select d f next : safe (t_def (f_type (gr_field g f))) next -> safe d (ISelect (sid f) next).
  Proof.
    intros S0. apply safe_lift. intros w r n o fs _ D M. inversion D as [|? ? ? ? x C J V| | |? b ? ? ? ? C A B]; subst; [inversion J|].
    inversion M as [|? ? ? ? q t I Q K M'|]. subst. specialize (B q t I K). rewrite Q, H_sid in B.
    destruct (f_type (gr_field g f)) as [df wf]. exact (S0 _ _ _ B M').
  Qed.
  Lemma safe_object d l : Forall (fun p => safe d (snd p)) l -> safe d (IObject l).
  Proof.
    intros F. apply safe_lift. intros w r n o fs _ D M. inversion M as [| |? ? ? k i I M']. subst. rewrite Forall_forall in F.
    apply (F _ I w r (TObj n o fs) D). constructor. exact M'.
  Qed.
  Lemma safe_last l f next : safe (t_def (f_type (gr_field g f))) (snd next) -> forall d, safe d (snd (create_path sid (l ++ [f]) next)).
  Proof.
    intros S0. induction l as [|h l IH]; intros d; cbn [app]; rewrite create_path_cons; apply safe_select; [exact S0|apply IH].
  Qed.
  Lemma safe_segments l : forall d w p s da next, bind_segments g l d w = Some (p, s) -> same d da ->
    (forall de, same (t_def s) de -> safe de (snd next)) -> safe da (snd (create_path sid p next)).
  Proof.
    induction l as [|x l IH]; intros d w p s da next; cbn [bind_segments]; [intros [= <- <-] Sd K; exact (K _ Sd)|].
    destruct (field_named g d (SelectionMap.Model.g_field x)) as [f|] eqn:F; [|discriminate]. rewrite bind_some. intros (d' & N & B). apply bind_some in B.
    destruct B as ([p' s'] & B & [= <- <-]). intros Sd K. rewrite create_path_cons. apply safe_select. refine (IH _ _ _ _ _ _ B _ K).
    destruct (SelectionMap.Model.g_ty x) as [n|]; [|injection N as <-; left; reflexivity].
    destruct (composite (t_def (f_type (gr_field g f)))) eqn:C; [|discriminate]. apply composite_spec in C.
    apply bind_condition_ok in N. destruct N as (_ & H & _). right. split; [exact (has_fields_composite _ H)|exact C].
  Qed.
  Lemma safe_opt src p l s da next : bind_opt g src p = Some (l, s) -> same (t_def src) da ->
    (forall de, same (t_def s) de -> safe de (snd next)) -> safe da (snd (create_path sid (opt_path l) next)).
  Proof.
    destruct p as [p|]; cbn [bind_opt]; [|intros [= <- <-] Sd K; exact (K _ Sd)].
    rewrite bind_some. intros ([l' s'] & B & [= <- <-]) Sd K. cbn [opt_path]. unfold bind_path in B.
    destruct (listp (t_wrap src)); [discriminate|]. destruct (composite (t_def src)) eqn:C; [|discriminate]. apply composite_spec in C.
    apply bind_some in B. destruct B as (d & N & B). refine (safe_segments _ _ _ _ _ _ _ B _ K).
    destruct (p_ty p) as [n|]; [|injection N as <-; exact Sd]. apply bind_condition_ok in N. destruct N as (_ & H & _).
    right. split; [exact (has_fields_composite _ H)|]. destruct Sd as [<-|[_ Ca]]; assumption.
  Qed.
  Lemma safe_all :
    (forall v src t w b, bind_selected g strings T src t w v = Some b -> forall da, same (t_def src) da ->
      forall s i, create_selected sid key b = Some (s, i) -> safe da i) /\
    (forall e src t w b, bind_entry g strings T src t w e = Some b -> forall da, same (t_def src) da ->
      forall s i, create_entry sid key b = Some (s, i) -> safe da i) /\
    (forall f src ts b ts', bind_ofield g strings T src ts f = Some (b, ts') -> forall da, same (t_def src) da ->
      forall e, create_ofield sid key b = Some e -> safe da (snd (snd e))).
  Proof.
    set (P := fun v => forall src t w b, bind_selected g strings T src t w v = Some b -> forall da, same (t_def src) da ->
      forall s i, create_selected sid key b = Some (s, i) -> safe da i).
    set (Q := fun e => forall src t w b, bind_entry g strings T src t w e = Some b -> forall da, same (t_def src) da ->
      forall s i, create_entry sid key b = Some (s, i) -> safe da i).
    set (R := fun f => forall src ts b ts', bind_ofield g strings T src ts f = Some (b, ts') -> forall da, same (t_def src) da ->
      forall e, create_ofield sid key b = Some e -> safe da (snd (snd e))).
    assert (HV : forall l, Forall Q l -> P (Value l)).
    { intros l F src t w b. rewrite bind_selected_eq, bind_some. intros (l' & B & [= <-]) da Sd s i. cbn [create_selected].
      apply bind_entries_spec in B. destruct l' as [|e' [|]]; try discriminate. inversion B as [|e ? ? ? Be Bn]. inversion Bn. subst. inversion F as [|? ? Qe _]. subst.
      exact (Qe _ _ _ _ Be _ Sd s i). }
    assert (HI : Q Identity).
    { intros src t w b. cbn [bind_entry]. destruct (compatible T src t w) eqn:K; [|discriminate]. intros [= <-] da Sd s i [= <- <-].
      apply compatible_ok in K. destruct K as (_ & _ & Lf). apply safe_leaf. destruct Sd as [<-|[C _]]; [apply leaf_not_composite, Lf|].
      destruct (leaf_not_composite _ Lf C). }
    assert (HP : forall p, Q (EPath p)).
    { intros p src t w b B da Sd s i. apply bind_path_inv in B. destruct B as (l & f & s0 & _ & K & ->). cbn [create_entry]. intros [= E].
      apply compatible_ok in K. destruct K as (_ & _ & Lf). replace i with (snd (create_path sid (l ++ [f]) ([], IIdentity))) by (rewrite E; reflexivity).
      apply safe_last, safe_leaf, leaf_not_composite, Lf. }
    assert (HO : forall p l, Forall R l -> Q (EObject p l)).
    { intros p l F src t w b B da Sd s i. apply bind_object_inv in B.
      destruct B as (l' & s0 & o & ts & bs & ts' & ds & O & _ & _ & _ & B & _ & Fl & ->).
      rewrite create_object_eq, bind_some. intros ([s1 i1] & Cn & [= E]). rewrite create_opt in E.
      apply create_fields_spec in Cn. destruct Cn as (es & Fe & Ei & _). cbn [app] in Ei.
      replace i with (snd (create_path sid (opt_path l') (s1, i1))) by (rewrite E; reflexivity).
      refine (safe_opt _ _ _ _ _ _ O Sd _). intros de Se. cbn [snd]. rewrite Ei. apply safe_object.
      rewrite Forall_forall. intros q Iq. apply (Permutation_in _ (Permutation_sym (sort_perm _))) in Iq. apply in_map_iff in Iq. destruct Iq as (e & <- & Ie). cbn [snd].
      destruct (bind_fields_spec _ _ _ _ _ _ _ _ B) as [_ F2].
      destruct (fill_ok _ bo_id (fun t x => BOField t (BFDefault x)) (fun _ _ => eq_refl) _ _ _ Fl) as (ds' & Ed & Dd & _).
      apply app_inv_head in Ed. subst ds'. destruct (Forall2_in_r _ _ _ _ Fe Ie) as (f & If & Ce). apply in_app_or in If. destruct If as [If|If].
      - destruct (Forall2_in_r _ _ _ _ F2 If) as (f0 & I0 & ts1 & ts2 & Bf). rewrite Forall_forall in F. exact (F f0 I0 _ _ _ _ Bf _ Se _ Ce).
      - rewrite Forall_forall in Dd. destruct (Dd f If) as (t0 & x & -> & _). cbn in Ce. injection Ce as <-. apply safe_default. }
    assert (HL : forall p v, P v -> Q (EList p v)).
    { intros p v Pv src t w b B da Sd s i. apply bind_list_inv in B. destruct B as (l & s0 & ew & rw & es & rs & bv & O & -> & Ws & Rq & B & ->).
      cbn [create_entry]. rewrite bind_some. intros ([s1 i1] & Cn & [= E]). rewrite create_opt in E.
      replace i with (snd (create_path sid (opt_path l) (s1, i1))) by (rewrite E; reflexivity).
      refine (safe_opt _ _ _ _ _ _ O Sd _). intros de Se. exact (Pv _ _ _ _ B _ Se _ _ Cn). }
    assert (HN : forall k, R (OField k None)).
    { intros k src ts b ts' B da Sd e Ce. apply bind_ofield_inv in B. destruct B as (t & E & f & _ & _ & K & ->).
      apply create_ofield_some in Ce. destruct Ce as [_ Ce]. cbn in Ce. injection Ce as Ce. rewrite <- Ce. cbn [snd].
      apply compatible_ok in K. destruct K as (_ & _ & Lf). apply safe_select, safe_leaf, leaf_not_composite, Lf. }
    assert (HS : forall k v, P v -> R (OField k (Some v))).
    { intros k v Pv src ts b ts' B da Sd e Ce. apply bind_ofield_inv in B. destruct B as (t & E & bv & B & ->).
      apply create_ofield_some in Ce. destruct Ce as [_ Ce]. cbn [create_field] in Ce. destruct (snd e) as [s1 i1]. exact (Pv _ _ _ _ B _ Sd _ _ Ce). }
    split; [exact (value_rec_ P Q R HV HI HP HO HL HN HS)|].
    split; [exact (entry_rec_ P Q R HV HI HP HO HL HN HS)|exact (field_rec_ P Q R HV HI HP HO HL HN HS)].
  Qed.

  (** ** All that is required is there *)
  Lemma json_filled t : forall r i x, json t x -> fills r i t x.
  Proof.
    induction t as [v|n l IH|n o fs IH|n t IH] using tree_ind2; intros r i x J.
    - inversion J. constructor. assumption.
    - inversion J as [|? ? xs J'|]. subst. constructor. clear J. revert xs J'.
      induction IH as [|t l Ht _ IHl]; intros xs J'; inversion J'; subst; constructor; auto.
    - inversion J.
    - inversion J. subst. constructor. auto.
  Qed.
  Lemma filled_total t : forall d w r i, typed (TyRef d w) r t -> within r i -> ~ misfit r i t -> exists x, fills r i t x.
  Proof.
    induction t as [v|n l IH|n o fs IH|n t IH] using tree_ind2; intros d w r i D W M.
    - inversion D as [|? ? ? ? x C J V|? ? ? C R| |]; subst; [exists x; apply json_filled, J|exists ONull; constructor; constructor].
    - inversion D as [|? ? ? ? x C J V| |? e b ? ? ? C F|]; subst; [exists x; apply json_filled, J|].
      assert (M' : forall t, In t l -> ~ misfit r i t) by (intros t I K; apply M; apply MfList with (t := t); assumption).
      assert (X : exists xs, Forall2 (fills r i) l xs).
      { clear D M. revert F M'. induction IH as [|t l Ht _ IHl]; intros F M'; [exists []; constructor|]. inversion F as [|? ? Ft Fl]. subst.
        destruct (Ht _ _ _ _ Ft W (M' t (or_introl eq_refl))) as (x & X). destruct (IHl Fl (fun t I => M' t (or_intror I))) as (xs & Xs).
        exists (x :: xs). constructor; assumption. }
      destruct X as (xs & X). exists (OList xs). constructor. exact X.
    - inversion D as [|? ? ? ? x C J V| | |? b ? ? ? ? C A B]; subst; [inversion J|].
      assert (M' : ~ misfit_object r i fs) by (intros K; apply M; constructor; exact K).
      assert (X : exists x, fills_object r i o fs x).
      { clear D M. revert W M'. induction i as [f next _|kvs IHi|x|] using inj_ind2; intros W M'.
        - inversion W as [| |? ? ? q I Q W'|]. subst. destruct (A q I) as (t & K). pose proof (B q t I K) as Dt.
          assert (It : In t (map snd fs)). { destruct K as (p & K). apply in_map_iff. exists ((p, q_key q), t). split; [reflexivity|exact K]. }
          rewrite Forall_forall in IH. destruct (f_type (gr_field g (sdef (q_field q)))) as [dt wt].
          destruct (IH t It dt wt (q_sub q) next Dt W') as (x & X); [intros K'; apply M'; apply MoSelect with (q := q) (t := t); auto|].
          exists x. apply FoSelect with (q := q) (t := t); auto.
        - inversion W as [| | |? ? O F]. subst. assert (E : exists es, fills_entries r kvs o fs es).
          { assert (M2 : forall k i, In (k, i) kvs -> ~ misfit_object r i fs) by (intros k i I K; apply M'; apply MoObject with (k := k) (i := i); assumption).
            clear W M' O. revert F M2. induction IHi as [|[k i] kvs Hi _ IHk]; intros F M2; [exists []; constructor|]. cbn [map snd] in F. inversion F as [|? ? Fi Fk]. subst.
            destruct (Hi Fi (M2 k i (or_introl eq_refl))) as (x & X). destruct (IHk Fk (fun k i I => M2 k i (or_intror I))) as (es & Es).
            exists ((k, x) :: es). constructor; assumption. }
          destruct E as (es & E). exists (OObj es). constructor. exact E.
        - exists x. constructor.
        - destruct M'. constructor. }
      destruct X as (x & X). exists x. constructor. exact X.
    - assert (D' : typed (TyRef d w) r t).
      { inversion D as [? ? ? ? D'|? ? ? ? x C J V| | |]; subst; [exact D'|]. inversion J. subst. apply TdLeaf with (x := x); assumption. }
      destruct (IH _ _ _ _ D' W) as (x & X); [intros K; apply M; constructor; exact K|]. exists x. constructor. exact X.
  Qed.

  (** ** Arguments *)
  Section AInd.
    Variable P : ainj -> Prop.
    Hypothesis H1 : forall i, P (AInject i).
    Hypothesis H2 : forall l, Forall (fun p => P (snd p)) l -> P (AInput l).
    Fixpoint ainj_rec_ (a : ainj) : P a :=
      match a with
      | AInject i => H1 i
      | AInput l => H2 l ((fix go l := match l return Forall (fun p => P (snd p)) l with [] => Forall_nil _ | p :: l => Forall_cons p (ainj_rec_ (snd p)) (go l) end) l)
      end.
  End AInd.
  Section FInd.
    Variable P : aofield -> Prop.
    Hypothesis H1 : forall i v, P (AOField i (AFValue v)).
    Hypothesis H2 : forall i l, Forall P l -> P (AOField i (AFObject l)).
    Fixpoint aofield_rec_ (f : aofield) : P f :=
      match f with
      | AOField i (AFValue v) => H1 i v
      | AOField i (AFObject l) => H2 i l ((fix go l := match l return Forall P l with [] => Forall_nil _ | f :: l => Forall_cons f (aofield_rec_ f) (go l) end) l)
      end.
  End FInd.

  Definition aexact (s : list item) (a : ainj) : Prop :=
    ordered_set s /\ (forall p, aselects a p <-> in_set s p) /\ forall r, has_set r s -> awithin r a.
  Lemma field_exact v s i : create_field sid key v = Some (s, i) -> exact s i.
  Proof.
    intros C. apply (proj2 (proj2 (exact_all sid key)) (BOField 0 v) (key 0, (s, i))).
    change (bind (create_field sid key v) (fun r => Some (key 0, r)) = Some (key 0, (s, i))). rewrite C. reflexivity.
  Qed.
  Lemma argument_exact f : forall e, create_argument sid key f = Some e -> aexact (fst (snd e)) (snd (snd e)).
  Proof.
    induction f as [id v|id l IH] using aofield_rec_; intros e C.
    - apply create_argument_value in C. destruct C as (s & i & C & ->). cbn [fst snd]. apply field_exact in C. destruct C as (O & S' & W). split; [exact O|]. split.
      + intros p. rewrite <- S'. split; [intros H; inversion H; subst; [assumption|constructor]|]. intros H. apply AsInject, H.
      + intros r H. constructor. exact (W r H).
    - rewrite create_aobject_eq in C. apply create_afields_spec in C. destruct C as (es & Fe & ->). cbn [fst snd app].
      assert (F : Forall (fun e => aexact (fst (snd e)) (snd (snd e))) es).
      { clear - IH Fe. revert IH. induction Fe; intros IH; inversion IH; subst; constructor; auto. }
      assert (Fo : Forall (fun e : nat * (list item * ainj) => ordered_set (fst (snd e))) es) by (eapply Forall_impl; [|exact F]; intros e (O & _); exact O).
      destruct (unions_ok (fun e : nat * (list item * ainj) => fst (snd e)) es Fo [] ordered_nil) as [O S']. split; [exact O|]. rewrite Forall_forall in F. split.
      + intros p. rewrite S', in_set_nil. split.
        * intros H. inversion H as [|? k i ? I K|]; subst; [right|left; reflexivity].
          apply in_map_iff in I. destruct I as (e & [= <- <-] & I). exists e. split; [exact I|]. apply (F e I), K.
        * intros [->|(e & I & H)]; [apply AsNil|]. apply AsInput with (k := fst e) (i := snd (snd e)); [|apply (F e I), H].
          apply in_map_iff. exists e. split; [reflexivity|exact I].
      + intros r H. constructor. rewrite map_map. cbn [snd]. rewrite Forall_forall. intros a I. apply in_map_iff in I. destruct I as (e & <- & I).
        destruct (F e I) as (Oe & _ & W). apply W. apply (has_subset (S (lsize (fst (snd e)))) _ _ r (Nat.lt_succ_diag_r _) Oe H).
        intros p Hp. apply S'. right. exists e. split; assumption.
  Qed.

  Inductive asafe (d : def) : ainj -> Prop :=
  | AsfInject i : safe d i -> asafe d (AInject i)
  | AsfInput l : Forall (fun p => asafe d (snd p)) l -> asafe d (AInput l).
  Lemma argument_safe src da : same (t_def src) da -> forall v t b, bind_value g strings T src t v = Some b ->
    forall e, create_value sid key t b = Some e -> asafe da (snd (snd e)).
  Proof.
    intros Sd. destruct safe_all as (FV & _ & FF).
    assert (Val : forall v t w bv, bind_selected g strings T src t w v = Some bv ->
      forall e, create_argument sid key (AOField t (AFValue (BFValue bv))) = Some e -> asafe da (snd (snd e))).
    { intros v t w bv B e C. apply create_argument_value in C. destruct C as (s & i & C & ->). constructor. exact (FV _ _ _ _ _ B _ Sd _ _ C). }
    set (P := fun v => forall t b, bind_value g strings T src t v = Some b -> forall e, create_value sid key t b = Some e -> asafe da (snd (snd e))).
    set (Q := fun e => forall fields, e = EObject None fields -> P (Value [e])).
    set (R := fun f => forall ts b ts', bind_afield g strings T src ts f = Some (b, ts') ->
      forall e, create_argument sid key b = Some e -> asafe da (snd (snd e))).
    assert (HV : forall l, Forall Q l -> P (Value l)).
    { intros l F t b B. destruct (bind_value_cases _ _ _ _ _ _ _ B) as [(fields & [= ->] & _)|(bv & B' & ->)].
      - inversion F as [|? ? H _]. subst. exact (H fields eq_refl t b B).
      - exact (Val _ _ _ _ B'). }
    refine (value_rec_ P Q R HV _ _ _ _ _ _).
    - intros ? E. discriminate.
    - intros ? ? E. discriminate.
    - intros p l F fields [= -> ->] t b B e C. destruct (bind_value_cases _ _ _ _ _ _ _ B) as [(fields' & [= <-] & B')|(bv & B' & ->)].
      2: exact (Val _ _ _ _ B' e C).
      apply bind_one_inv in B'. destruct B' as (o & ts & bs & ts' & ds & A & B' & _ & Fl & ->).
      unfold create_value in C. rewrite create_aobject_eq in C. apply create_afields_spec in C. destruct C as (es & Fe & ->). cbn [snd app].
      destruct (bind_afields_spec _ _ _ _ _ _ _ _ B') as [_ F2].
      destruct (fill_ok _ ao_id (fun t x => AOField t (AFValue (BFDefault x))) (fun _ _ => eq_refl) _ _ _ Fl) as (ds' & Ed & Dd & _).
      apply app_inv_head in Ed. subst ds'. constructor. rewrite Forall_forall. intros q Iq. apply in_map_iff in Iq. destruct Iq as (e & <- & Ie). cbn [snd].
      destruct (Forall2_in_r _ _ _ _ Fe Ie) as (f & If & Ce). apply in_app_or in If. destruct If as [If|If].
      + destruct (Forall2_in_r _ _ _ _ F2 If) as (f0 & I0 & ts1 & ts2 & Bf). rewrite Forall_forall in F. exact (F f0 I0 _ _ _ Bf _ Ce).
      + rewrite Forall_forall in Dd. destruct (Dd f If) as (t0 & x & -> & _). cbn in Ce. injection Ce as <-. constructor. apply safe_default.
    - intros ? ? ? ? E. discriminate.
    - intros k ts b ts' B e C. apply bind_afield_inv in B. destruct B as (t & bf & B & ->).
      apply create_argument_value in C. destruct C as (s & i & C & ->). constructor.
      apply (FF _ _ _ _ _ B _ Sd (key t, (s, i))).
      change (bind (create_field sid key bf) (fun r => Some (key t, r)) = Some (key t, (s, i))). rewrite C. reflexivity.
    - intros k v Pv ts b ts' B e C. apply bind_afield_inv in B. destruct B as (t & bv & _ & B & ->).
      destruct bv as [l|bv]; cbn [as_afield] in *; exact (Pv t _ B e C).
  Qed.

  Lemma argument_total d w r t : typed (TyRef d w) r t -> forall a, awithin r a -> asafe d a -> exists x, afills T r t a x.
  Proof.
    intros D. induction a as [i|l IH] using ainj_rec_; intros W K.
    - inversion W as [? Wi|]. inversion K as [? Ki|]. subst. destruct (filled_total _ _ _ _ _ D Wi (Ki _ _ _ D)) as (x & X). exists x. constructor. exact X.
    - inversion W as [|? Wl]. inversion K as [|? Kl]. subst.
      assert (X : exists es, Forall2 (fun p e => a_key T (fst p) = fst e /\ afills T r t (snd p) (snd e)) l es).
      { clear W K. revert Wl Kl. induction IH as [|[id a] l Ha _ IHl]; intros Wl Kl; [exists []; constructor|].
        cbn [map snd] in Wl. inversion Wl. inversion Kl. subst. cbn [snd] in *. destruct Ha as (x & X); [assumption..|]. destruct IHl as (es & Es); [assumption..|].
        exists ((key id, x) :: es). constructor; [split; [reflexivity|exact X]|exact Es]. }
      destruct X as (es & X). exists (OObj es). constructor. exact X.
  Qed.
  Lemma argument_viewed r t view : forall a, awithin r a -> (forall i x, within r i -> (view i = VOk x <-> fills r i t x)) ->
    forall x, view_argument key view a = VOk x <-> afills T r t a x.
  Proof.
    intros a W V. revert W. induction a as [i|l IH] using ainj_rec_; intros W x.
    - inversion W as [? Wi|]. subst. cbn [view_argument]. rewrite (V _ _ Wi). split; [intros F; constructor; exact F|intros F; inversion F; assumption].
    - inversion W as [|? Wl]. subst. cbn [view_argument].
      set (go := fix go (l : list (nat * ainj)) := match l with
                            | [] => VOk []
                            | (id, a) :: l => vbind (view_argument key view a) (fun x => vbind (go l) (fun es => VOk ((key id, x) :: es)))
                            end).
      assert (G : forall es, go l = VOk es <-> Forall2 (fun p e => a_key T (fst p) = fst e /\ afills T r t (snd p) (snd e)) l es).
      { clear W x. revert Wl. induction IH as [|[id a] l Ha _ IHl]; intros Wl es.
        - cbn. split; [intros [= <-]; constructor|intros F; inversion F; reflexivity].
        - cbn [map snd] in *. inversion Wl as [|? ? Wa Wl']. subst. specialize (Ha Wa). specialize (IHl Wl').
          change (go ((id, a) :: l)) with (vbind (view_argument key view a) (fun x => vbind (go l) (fun es => VOk ((key id, x) :: es)))). split.
          + destruct (view_argument key view a) as [x| | |] eqn:E; try discriminate. cbn [vbind]. destruct (go l) as [es'| | |] eqn:E'; try discriminate.
            cbn [vbind]. intros [= <-]. constructor; [split; [reflexivity|]; apply Ha; reflexivity|apply IHl; reflexivity].
          + intros F. inversion F as [|? [k y] ? es' [Ek Fy] F']. subst. cbn [fst snd] in *. apply Ha in Fy. apply IHl in F'. rewrite Fy. cbn [vbind]. rewrite F'. cbn [vbind].
            rewrite Ek. reflexivity. }
      destruct (go l) as [es| | |] eqn:E; cbn [vbind]; split; try discriminate.
      + intros [= <-]. constructor. apply G. reflexivity.
      + intros F. inversion F as [|? es' F']. subst. apply G in F'. injection F' as <-. reflexivity.
      + intros F. inversion F as [|? es' F']. subst. apply G in F'. discriminate.
      + intros F. inversion F as [|? es' F']. subst. apply G in F'. discriminate.
      + intros F. inversion F as [|? es' F']. subst. apply G in F'. discriminate.
  Qed.
End Serve.
