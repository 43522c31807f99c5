(** C104, C105: what accepted field selection maps stand for, and what they give. *)
From Coq Require Import List NArith Bool Arith Lia String.
From Coq Require Import List.
From Verif Require Import Response.Model Response.Spec Response.Merge Wrapping.Spec Views.Model Views.Spec Views.Trees Views.Properties.
From Verif Require Import SelectionMap.Model SelectionMap.Spec SelectionMap.TextProperties SelectionMap.Binding SelectionMap.BindSpec.
From Verif Require Import SelectionMap.Bound SelectionMap.Filled SelectionMap.Required SelectionMap.Served.
Import ListNotations.
Local Open Scope nat_scope.
Local Open Scope list_scope.

(** ** C104: names *)

(** What is bound is what the text says: fields by their names in the types reached. *)
Theorem C104_names : forall g strings T src t v b, bind_value g strings T src t v = Some b ->
  resolves_argument g strings T (t_def src) v b.
Proof. intros g strings T src t v b. exact (resolves_argument_all g strings T src v t b). Qed.

(** Where types have their fields once and know their objects in order, every path that can be
    followed is accepted. *)
Theorem C104_path : forall g src p l e,
  (forall d, increasing (gr_possible g d)) ->
  (forall d f h, In f (gr_fields g d) -> In h (gr_fields g d) -> f_name (gr_field g f) = f_name (gr_field g h) -> f = h) ->
  ((exists s, bind_path g src p = Some (l, s) /\ t_def s = e) <-> listp (t_wrap src) = false /\ leads_path g (t_def src) p l e).
Proof.
  intros g src p l e Inc Once. split.
  - intros (s & B & <-). split; [|apply path_leads, B]. unfold bind_path in B. destruct (listp (t_wrap src)); [discriminate|reflexivity].
  - assert (Cond : forall d n d', gr_type g n = Some d' -> has_fields d' -> overlap g d d' -> bind_condition g d n = Some d').
    { intros d n d' E H (o & A & B). unfold bind_condition. rewrite E.
      assert (D : disjoint (gr_possible g d) (gr_possible g d') = false).
      { destruct (disjoint _ _) eqn:D; [|reflexivity]. destruct (disjoint_true _ _ (Inc _) (Inc _) D o A B). }
      destruct d'; try destruct H; rewrite D; reflexivity. }
    assert (Named_ : forall d f, has_fields d -> In f (gr_fields g d) -> field_named g d (f_name (gr_field g f)) = Some f).
    { intros d f H I. assert (F : exists h, find (fun h => name_eqb (f_name (gr_field g h)) (f_name (gr_field g f))) (gr_fields g d) = Some h).
      { destruct (find _ _) as [h|] eqn:F; [exists h; reflexivity|]. pose proof (find_none _ _ F f I) as N. cbn beta in N.
        rewrite (proj2 (name_eqb_eq _ _) eq_refl) in N. discriminate. }
      destruct F as (h & F). pose proof (find_some _ _ F) as [Ih E]. apply name_eqb_eq in E. rewrite (Once d h f Ih I E) in F. destruct d; try destruct H; exact F. }
    assert (Seg : forall d l0 fs e0, leads g d l0 fs e0 -> forall w, exists s, bind_segments g l0 d w = Some (fs, s) /\ t_def s = e0).
    { induction 1 as [d|d x l0 f fs d' e0 H I N Na _ IH]; intros w; cbn [bind_segments]; [exists (TyRef d w); split; reflexivity|].
      rewrite <- N, (Named_ d f H I).
      destruct (IH (if required w then t_wrap (f_type (gr_field g f)) else make_nullable (t_wrap (f_type (gr_field g f))))) as (s & B & E).
      exists s. split; [|exact E]. inversion Na as [E1 E2|n d'' C Ty H' Ov E1 E2]; subst.
      - cbn [bind]. rewrite B. reflexivity.
      - rewrite (proj2 (composite_spec _) C), (Cond _ _ _ Ty H' Ov). cbn [bind]. rewrite B. reflexivity. }
    intros [L (d' & C & Na & Ld)]. destruct (Seg _ _ _ _ Ld (t_wrap src)) as (s & B & E). exists s. split; [|exact E].
    unfold bind_path. rewrite L, (proj2 (composite_spec _) C). inversion Na as [E1 E2|n d'' _ Ty H' Ov E1 E2]; subst.
    + cbn [bind]. exact B.
    + rewrite (Cond _ _ _ Ty H' Ov). cbn [bind]. exact B.
Qed.

(** Alternatives may be written, but nothing with them is ever accepted. *)
Theorem C104_alternatives : forall sid key id l, List.length l <> 1 -> create_value sid key id (AValue (BValue l)) = None.
Proof. intros sid key id [|e [|e' l]] H; [reflexivity|destruct (H eq_refl)|reflexivity]. Qed.

(** ** C104: values *)

(** An argument made of data of the source's type is what the target takes, where paths to
    values pass through required objects, objects are made of objects, lists of lists and, of
    the parents of a batch, no input object with defaults. *)
Theorem C104_valid : forall g strings T leaf_ok sdef sid src t v b id s a r tree x,
  (forall f, sdef (sid f) = f) ->
  (forall i y, a_missing T i = MDefault y -> valid T leaf_ok i (t_wrap (a_type T i)) y) ->
  (forall i o ts, a_object T i = Some (o, ts) -> NoDup (map (a_key T) ts)) ->
  bind_value g strings T src t v = Some b -> create_value sid (a_key T) t b = Some (id, (s, a)) ->
  clear_argument g T src t b -> typed g leaf_ok sdef src r tree -> afills T r tree a x ->
  valid T leaf_ok t (t_wrap (a_type T t)) x.
Proof.
  intros g strings T leaf_ok sdef sid src t v b id s a r tree x Hs Hd Hk B C Cl D F.
  assert (Hi : forall i o ts, a_object T i = Some (o, ts) -> NoDup ts) by (intros i o ts A; exact (NoDup_map_inv _ _ (Hk i o ts A))).
  assert (Cs : close src src) by (split; [left; reflexivity|apply lenb_refl]).
  exact (argument_filled g strings T leaf_ok sdef sid Hs Hd Hk Hi src r tree D src Cs v t b B Cl _ x C F).
Qed.

(** ** C105: requirements *)

(** The requirements of an argument are ordered, exactly what it selects, and all it needs. *)
Theorem C105_required : forall sid key t b id s a, create_value sid key t b = Some (id, (s, a)) ->
  ordered_set s /\ (forall p, aselects a p <-> in_set s p) /\ forall r, has_set r s -> awithin r a.
Proof.
  intros sid key t b id s a C.
  exact (argument_exact (Targets key (fun _ => TyRef (DScalar 0) (Named false)) (fun _ => None) (fun _ => MNone)) sid _ _ C).
Qed.

Lemma create_all_spec sid key l : forall s0 args0 s args,
  fold_left (fun o '(id, v) => bind o (fun '(s, args) => bind (create_value sid key id v) (fun '(k, (r, i)) => Some (union s r, args ++ [(k, i)])))) l (Some (s0, args0)) = Some (s, args) ->
  exists es, Forall2 (fun p e => create_value sid key (fst p) (snd p) = Some e) l es /\
    s = fold_left (fun s e => union s (fst (snd e))) es s0 /\ args = args0 ++ map (fun e => (fst e, snd (snd e))) es.
Proof.
  assert (None_ : forall l, fold_left (fun o '(id, v) => bind o (fun '(s, args) => bind (create_value sid key id v) (fun '(k, (r, i)) => Some (union s r, args ++ [(k, i)])))) l None = None).
  { induction l0 as [|[id v] l0 IH]; [reflexivity|exact IH]. }
  induction l as [|[id v] l IH]; intros s0 args0 s args.
  - cbn. intros [= <- <-]. exists []. split; [constructor|]. rewrite app_nil_r. split; reflexivity.
  - cbn [fold_left bind]. destruct (create_value sid key id v) as [[k [r i]]|] eqn:C; cbn [bind]; [|rewrite None_; discriminate].
    intros H. destruct (IH _ _ _ _ H) as (es & F & -> & ->). exists ((k, (r, i)) :: es). split; [constructor; [exact C|exact F]|].
    cbn [fold_left map fst snd]. rewrite <- app_assoc. split; reflexivity.
Qed.
(** What [require] accepts: one source for all, every argument with its map. *)
Lemma require_spec g strings T sid parent args src s l : require g strings T sid parent args = Some (src, (s, l)) ->
  (src = TyRef parent (Named true) \/ src = TyRef parent (ListOf (Named true) true)) /\
  exists es, Forall2 (fun p e => exists v b, parse (snd p) = Some v /\ bind_value g strings T src (fst p) v = Some b /\ create_value sid (a_key T) (fst p) b = Some e) args es /\
    s = fold_left (fun s e => union s (fst (snd e))) es [] /\ l = map (fun e => (fst e, snd (snd e))) es.
Proof.
  destruct args as [|[id t] rest]; [discriminate|]. cbn [require]. rewrite bind_some. intros ([src' v] & In_ & R). apply bind_some in R.
  destruct R as (vs & Vs & R). apply bind_some in R. destruct R as ([s' l'] & C & [= -> -> ->]).
  assert (First : bind_text g strings T src id t = Some v /\ (src = single_source parent \/ src = batch_source parent)).
  { unfold infer in In_. destruct (has_bracket t);
      (destruct (bind_text g strings T _ id t) eqn:E1; [injection In_ as <- <-; split; [exact E1|auto]|];
       destruct (bind_text g strings T _ id t) eqn:E2 in In_; [injection In_ as <- <-; split; [exact E2|auto]|discriminate]). }
  destruct First as [B Src]. split; [exact Src|].
  assert (All : Forall2 (fun p q => fst q = fst p /\ bind_text g strings T src (fst p) (snd p) = Some (snd q)) ((id, t) :: rest) ((id, v) :: vs)).
  { constructor; [split; [reflexivity|exact B]|]. clear - Vs. revert vs Vs. induction rest as [|[id t] rest IH]; intros vs.
    - cbn. intros [= <-]. constructor.
    - cbn [fold_right]. rewrite bind_some. intros (v & B & R). apply bind_some in R. destruct R as (l & L & [= <-]).
      constructor; [split; [reflexivity|exact B]|apply IH, L]. }
  apply create_all_spec in C. destruct C as (es & F & -> & ->). exists es. cbn [app]. split; [|split; reflexivity].
  clear - All F. revert es F. induction All as [|p q ps qs [E Bt] _ IH]; intros es F; inversion F as [|? e ? es' Ce F']; subst; [constructor|].
  constructor; [|apply IH, F']. unfold bind_text in Bt. apply bind_some in Bt. destruct Bt as (v1 & P & B1). exists v1, (snd q).
  split; [exact P|]. split; [exact B1|]. rewrite <- E. exact Ce.
Qed.

(** Together: what the plan requires for the field is what its arguments select, no more. *)
Theorem C105_all : forall g strings T sid parent args src s l, require g strings T sid parent args = Some (src, (s, l)) ->
  map fst l = map fst args /\ ordered_set s /\
  (forall p, in_set s p <-> p = [] \/ exists a, In a (map snd l) /\ aselects a p) /\
  forall r, has_set r s -> Forall (awithin r) (map snd l).
Proof.
  intros g strings T sid parent args src s l R. apply require_spec in R. destruct R as (_ & es & F & -> & ->).
  assert (X : Forall (fun e => aexact (fst (snd e)) (snd (snd e))) es).
  { clear - F. induction F as [|p e args es (v & b & _ & _ & C) _ IH]; constructor; [exact (argument_exact T sid _ _ C)|exact IH]. }
  assert (Xo : Forall (fun e : nat * (list item * ainj) => ordered_set (fst (snd e))) es) by (eapply Forall_impl; [|exact X]; intros e (O & _); exact O).
  destruct (unions_ok (fun e : nat * (list item * ainj) => fst (snd e)) es Xo [] ordered_nil) as [O S']. rewrite Forall_forall in X. split; [|split; [exact O|split]].
  - rewrite map_map. cbn [fst]. clear - F. induction F as [|p e args es (v & b & _ & _ & C) _ IH]; [reflexivity|]. cbn [map]. rewrite IH. f_equal.
    unfold create_value in C. apply create_argument_id in C. exact C.
  - intros p. rewrite S', in_set_nil, map_map. cbn [snd]. split.
    + intros [->|(e & I & H)]; [left; reflexivity|right]. exists (snd (snd e)). split; [apply in_map_iff; exists e; split; [reflexivity|exact I]|apply (X e I), H].
    + intros [->|(a & I & H)]; [left; reflexivity|right]. apply in_map_iff in I. destruct I as (e & <- & I). exists e. split; [exact I|apply (X e I), H].
  - intros r H. rewrite map_map. cbn [snd]. rewrite Forall_forall. intros a I. apply in_map_iff in I. destruct I as (e & <- & I).
    destruct (X e I) as (Oe & _ & W). apply W. apply (has_subset (S (lsize (fst (snd e)))) _ _ r (Nat.lt_succ_diag_r _) Oe H).
    intros p Hp. apply S'. right. exists e. split; assumption.
Qed.

(** Once what is required is there, of its type, every argument is written. *)
Theorem C105_written : forall g strings T leaf_ok sdef sid parent args src s l r ps fuel v tree,
  (forall f, sdef (sid f) = f) -> require g strings T sid parent args = Some (src, (s, l)) ->
  sorted_reqs r -> has_set r s -> typed g leaf_ok sdef src r tree ->
  rep ps v tree -> distinct tree -> Response.Spec.depth tree < fuel ->
  forall id a, In (id, a) l -> exists x,
    view_argument (a_key T) (fun i => view_injection ps fuel (r, i) v) a = VOk x /\ afills T r tree a x.
Proof.
  intros g strings T leaf_ok sdef sid parent args src s l r ps fuel v tree Hs R Sr Hr D Rp Ds Dp id a I.
  pose proof (C105_all _ _ _ _ _ _ _ _ _ R) as (_ & _ & _ & W). specialize (W r Hr). rewrite Forall_forall in W.
  assert (Wa : awithin r a) by (apply W; exact (in_map snd _ _ I)).
  apply require_spec in R. destruct R as (_ & es & F & _ & ->). apply in_map_iff in I. destruct I as (e & [= <- <-] & I).
  destruct (Forall2_in_r _ _ _ _ F I) as (p & _ & v0 & b & _ & B & C). destruct src as [d w].
  assert (Sf : asafe g leaf_ok sdef d (snd (snd e))) by (apply (argument_safe g strings T leaf_ok sdef sid Hs (TyRef d w) d (or_introl eq_refl) _ _ _ B _ C)).
  destruct (argument_total g T leaf_ok sdef d w r tree D _ Wa Sf) as (x & X). exists x. split; [|exact X].
  apply (argument_viewed T r tree); [exact Wa| |exact X]. intros i y Wi. apply (C93_injected ps fuel r i v tree Rp Ds Dp Sr Wi).
Qed.

(** A map understood for a single parent and for many selects nothing: trying one or the other
    first makes no difference. *)
Theorem C105_batch : forall g strings T parent w e t u v b b' sid id s a,
  listp w = false -> listp e = true ->
  is_composite parent ->
  bind_value g strings T (TyRef parent w) t v = Some b -> bind_value g strings T (TyRef parent e) u v = Some b' ->
  create_value sid (a_key T) t b = Some (id, (s, a)) -> s = [].
Proof.
  intros g strings T parent w e t u v b b' sid id s a Lw Ll Cp.
  assert (Opt : forall p l s, bind_opt g (TyRef parent e) p = Some (l, s) -> p = None).
  { intros [p|] l s0; [|reflexivity]. cbn [bind_opt]. unfold bind_path. cbn [t_wrap]. rewrite Ll. discriminate. }
  assert (Uni : forall (A : Type) (l : list (nat * (list item * A))), Forall (fun e => fst (snd e) = []) l -> fold_left (fun s e => union s (fst (snd e))) l [] = []).
  { induction 1 as [|x l E _ IH]; [reflexivity|]. cbn [fold_left]. rewrite E. exact IH. }
  set (P := fun v => forall t w1 b u w2 b', bind_selected g strings T (TyRef parent w) t w1 v = Some b -> bind_selected g strings T (TyRef parent e) u w2 v = Some b' ->
    forall s i, create_selected sid (a_key T) b = Some (s, i) -> s = []).
  set (Q := fun x => forall t w1 b u w2 b', bind_entry g strings T (TyRef parent w) t w1 x = Some b -> bind_entry g strings T (TyRef parent e) u w2 x = Some b' ->
    forall s i, create_entry sid (a_key T) b = Some (s, i) -> s = []).
  set (R := fun f => forall ts b ts' us b' us', bind_ofield g strings T (TyRef parent w) ts f = Some (b, ts') -> bind_ofield g strings T (TyRef parent e) us f = Some (b', us') ->
    forall e, create_ofield sid (a_key T) b = Some e -> fst (snd e) = []).
  assert (Zip : forall {A B C} (F : A -> B -> Prop) (G : A -> C -> Prop) (K : A -> Prop) l bs cs (E : B -> Prop), Forall K l -> Forall2 F l bs -> Forall2 G l cs ->
    (forall a b c, K a -> F a b -> G a c -> E b) -> Forall E bs).
  { intros A B C F G K l bs cs E HK HF. revert HK cs. induction HF; intros HK cs HG Im; [constructor|]. inversion HK. inversion HG. subst. constructor; [eauto|eapply IHHF; eauto]. }
  assert (HV : forall l, Forall Q l -> P (Value l)).
  { intros l F t0 w1 b0 u0 w2 b0'. rewrite !bind_selected_eq, !bind_some. intros (l1 & B1 & [= <-]) (l2 & B2 & _) s0 i. cbn [create_selected].
    apply bind_entries_spec in B1, B2. destruct l1 as [|e1 [|]]; try discriminate. inversion B1 as [|x ? ? ? Be Bn]. inversion Bn. subst.
    inversion B2 as [|? y ? ? Be' _]. inversion F as [|? ? Qx _]. subst. exact (Qx _ _ _ _ _ _ Be Be' s0 i). }
  assert (HI : Q Identity).
  { intros t0 w1 b0 u0 w2 b0' B1. cbn [bind_entry] in B1. destruct (compatible T _ t0 w1) eqn:K; [|discriminate]. apply compatible_ok in K. destruct K as (_ & _ & Lf).
    destruct (leaf_not_composite _ Lf Cp). }
  assert (HP : forall p, Q (EPath p)).
  { intros p t0 w1 b0 u0 w2 b0' _ B2. cbn [bind_entry] in B2. unfold bind_path in B2. cbn [t_wrap] in B2. rewrite Ll in B2. discriminate. }
  assert (HO : forall p l, Forall R l -> Q (EObject p l)).
  { intros p l F t0 w1 b0 u0 w2 b0' B1 B2 s0 i C. apply bind_object_inv in B1, B2.
    destruct B1 as (l1 & s1 & o1 & ts1 & bs1 & ts1' & ds1 & O1 & _ & _ & _ & B1 & _ & Fl1 & ->).
    destruct B2 as (l2 & s2 & o2 & ts2 & bs2 & ts2' & ds2 & O2 & _ & _ & _ & B2 & _ & _ & ->).
    pose proof (Opt _ _ _ O2) as ->. injection O1 as <- <-. injection O2 as <- <-.
    rewrite create_object_eq in C. apply bind_some in C. destruct C as ([s3 i3] & C & [= <- <-]).
    apply create_fields_spec in C. destruct C as (es & Fe & _ & ->). apply Uni.
    destruct (bind_fields_spec _ _ _ _ _ _ _ _ B1) as [_ F1]. destruct (bind_fields_spec _ _ _ _ _ _ _ _ B2) as [_ F2].
    destruct (fill_ok _ bo_id (fun t x => BOField t (BFDefault x)) (fun _ _ => eq_refl) _ _ _ Fl1) as (ds' & Ed & Dd & _). apply app_inv_head in Ed. subst ds'.
    assert (E : Forall (fun b => forall e, create_ofield sid (a_key T) b = Some e -> fst (snd e) = []) (bs1 ++ ds1)).
    { apply Forall_app. split.
      - eapply (Zip _ _ _ _ _ R); [exact F|exact F1|exact F2|]. cbn beta. intros f b1 b2 Rf (? & ? & H1) (? & ? & H2). exact (Rf _ _ _ _ _ _ H1 H2).
      - eapply Forall_impl; [|exact Dd]. intros d (t1 & x & -> & _) e0 Ce. cbn in Ce. injection Ce as <-. reflexivity. }
    rewrite Forall_forall in *. intros e0 Ie. destruct (Forall2_in_r _ _ _ _ Fe Ie) as (f & If & Ce). exact (E f If e0 Ce). }
  assert (HL : forall p v, P v -> Q (EList p v)).
  { intros p v0 _ t0 w1 b0 u0 w2 b0' B1 B2. apply bind_list_inv in B1, B2.
    destruct B1 as (l1 & s1 & ew1 & rw1 & es1 & rs1 & bv1 & O1 & _ & W1 & _). destruct B2 as (l2 & s2 & ew2 & rw2 & es2 & rs2 & bv2 & O2 & _).
    pose proof (Opt _ _ _ O2) as ->. injection O1 as <- <-. cbn [t_wrap] in W1. rewrite W1 in Lw. discriminate. }
  assert (HN : forall k, R (OField k None)).
  { intros k ts b0 ts' us b0' us' _ B2. apply bind_ofield_inv in B2. destruct B2 as (t0 & _ & f & L & _). cbn [t_wrap] in L. rewrite Ll in L. discriminate. }
  assert (HS : forall k v, P v -> R (OField k (Some v))).
  { intros k v0 Pv ts b0 ts' us b0' us' B1 B2 e0 Ce. apply bind_ofield_inv in B1, B2. destruct B1 as (t1 & _ & bv1 & B1 & ->). destruct B2 as (t2 & _ & bv2 & B2 & ->).
    apply create_ofield_some in Ce. destruct Ce as [_ Ce]. cbn [create_field] in Ce. destruct (snd e0) as [s1 i1]. exact (Pv _ _ _ _ _ _ B1 B2 _ _ Ce). }
  pose proof (value_rec_ P Q R HV HI HP HO HL HN HS) as AP. pose proof (field_rec_ P Q R HV HI HP HO HL HN HS) as AR.
  set (P' := fun v => forall t b u b', bind_value g strings T (TyRef parent w) t v = Some b -> bind_value g strings T (TyRef parent e) u v = Some b' ->
    forall x, create_value sid (a_key T) t b = Some x -> fst (snd x) = []).
  set (Q' := fun x => forall fields, x = EObject None fields -> P' (Value [x])).
  set (R' := fun f => forall ts b ts' us b' us', bind_afield g strings T (TyRef parent w) ts f = Some (b, ts') -> bind_afield g strings T (TyRef parent e) us f = Some (b', us') ->
    forall x, create_argument sid (a_key T) b = Some x -> fst (snd x) = []).
  assert (Val : forall v t bv u bv', bind_selected g strings T (TyRef parent w) t (t_wrap (a_type T t)) v = Some bv -> bind_selected g strings T (TyRef parent e) u (t_wrap (a_type T u)) v = Some bv' ->
    forall x, create_value sid (a_key T) t (AValue bv) = Some x -> fst (snd x) = []).
  { intros v0 t0 bv u0 bv' B1 B2 x C. unfold create_value in C. apply create_argument_value in C. destruct C as (s0 & i & C & ->). exact (AP v0 _ _ _ _ _ _ B1 B2 _ _ C). }
  assert (Obj : forall src t0 fields b0, bind_value g strings T src t0 (Value [EObject None fields]) = Some b0 -> bind_one g strings T src t0 (EObject None fields) = Some b0) by (intros; assumption).
  assert (AP' : forall v, P' v).
  { refine (value_rec_ P' Q' R' _ _ _ _ _ _ _).
    - intros l F t0 b0 u0 b0' B1 B2. destruct (bind_value_cases _ _ _ _ _ _ _ B1) as [(fields & [= ->] & _)|(bv & B1' & ->)].
      + inversion F as [|? ? H _]. subst. exact (H fields eq_refl _ _ _ _ B1 B2).
      + destruct (bind_value_cases _ _ _ _ _ _ _ B2) as [(fields & [= ->] & _)|(bv' & B2' & ->)].
        * inversion F as [|? ? H _]. subst. exact (H fields eq_refl _ _ _ _ B1 B2).
        * exact (Val _ _ _ _ _ B1' B2').
    - intros ? E. discriminate.
    - intros ? ? E. discriminate.
    - intros p l F fields [= -> ->] t0 b0 u0 b0' B1 B2 x C. apply Obj, bind_one_inv in B1. apply Obj, bind_one_inv in B2.
      destruct B1 as (o1 & ts1 & bs1 & ts1' & ds1 & _ & B1 & _ & Fl1 & ->). destruct B2 as (o2 & ts2 & bs2 & ts2' & ds2 & _ & B2 & _ & _ & ->).
      unfold create_value in C. rewrite create_aobject_eq in C. apply create_afields_spec in C. destruct C as (es & Fe & ->). cbn [fst snd]. apply Uni.
      destruct (bind_afields_spec _ _ _ _ _ _ _ _ B1) as [_ F1]. destruct (bind_afields_spec _ _ _ _ _ _ _ _ B2) as [_ F2].
      destruct (fill_ok _ ao_id (fun t x => AOField t (AFValue (BFDefault x))) (fun _ _ => eq_refl) _ _ _ Fl1) as (ds' & Ed & Dd & _). apply app_inv_head in Ed. subst ds'.
      assert (E : Forall (fun b => forall e, create_argument sid (a_key T) b = Some e -> fst (snd e) = []) (bs1 ++ ds1)).
      { apply Forall_app. split.
        - eapply (Zip _ _ _ _ _ R'); [exact F|exact F1|exact F2|]. cbn beta. intros f b1 b2 Rf (? & ? & H1) (? & ? & H2). exact (Rf _ _ _ _ _ _ H1 H2).
        - eapply Forall_impl; [|exact Dd]. intros d (t1 & x & -> & _) e0 Ce. cbn in Ce. injection Ce as <-. reflexivity. }
      rewrite Forall_forall in *. intros e0 Ie. destruct (Forall2_in_r _ _ _ _ Fe Ie) as (f & If & Ce). exact (E f If e0 Ce).
    - intros ? ? ? ? E. discriminate.
    - intros k ts b0 ts' us b0' us' _ B2. apply bind_afield_inv in B2. destruct B2 as (t0 & x & B2 & _). apply bind_ofield_inv in B2.
      destruct B2 as (t1 & _ & f & L & _). cbn [t_wrap] in L. rewrite Ll in L. discriminate.
    - intros k v0 Pv ts b0 ts' us b0' us' B1 B2 x C. apply bind_afield_inv in B1, B2. destruct B1 as (t1 & bv1 & _ & B1 & ->). destruct B2 as (t2 & bv2 & _ & B2 & _).
      destruct bv1 as [l1|bv1]; cbn [as_afield] in C; exact (Pv _ _ _ _ B1 B2 x C). }
  intros B1 B2 C. exact (AP' v _ _ _ _ B1 B2 _ C).
Qed.

(** ** Examples
    An object P with fields i: ID!, n: String, o: O and l: [L!]!; O has i: ID!, L has s: ID!. *)
Local Open Scope string_scope.
Definition ex_graph : graph :=
  Graph
    (fun f => match f with
              | 0 => Field [105%N] (TyRef (DScalar 0) (Named true))
              | 1 => Field [110%N] (TyRef (DScalar 1) (Named false))
              | 2 => Field [111%N] (TyRef (DObject 1) (Named false))
              | 3 => Field [108%N] (TyRef (DObject 2) (ListOf (Named true) true))
              | 4 => Field [105%N] (TyRef (DScalar 0) (Named true))
              | _ => Field [115%N] (TyRef (DScalar 0) (Named true))
              end)
    (fun d => match d with DObject 0 => [0; 1; 2; 3] | DObject 1 => [4] | DObject 2 => [5] | _ => [] end)
    (fun d => match d with DObject n => [n] | _ => [] end)
    (fun n => match n with [80%N] => Some (DObject 0) | [79%N] => Some (DObject 1) | [76%N] => Some (DObject 2) | _ => None end).
(** ID!; an input object, required or in a list, with fields s: ID! and d: String = "x"; one
    with t: [ID!]! and d. *)
Definition ex_targets : targets :=
  Targets (fun t => t)
    (fun t => match t with
              | 0 => TyRef (DScalar 0) (Named true)
              | 1 => TyRef (DInput 0) (Named true)
              | 2 => TyRef (DScalar 0) (Named true)
              | 3 => TyRef (DScalar 1) (Named false)
              | 4 => TyRef (DInput 0) (ListOf (Named true) true)
              | 5 => TyRef (DInput 1) (Named true)
              | _ => TyRef (DScalar 0) (ListOf (Named true) true)
              end)
    (fun t => match t with 1 | 4 => Some (false, [2; 3]) | 5 => Some (false, [6; 3]) | _ => None end)
    (fun t => match t with 3 => MDefault (OStr "x") | _ => MNone end).
Definition ex_strings (k : nat) : name := match k with 2 => [115%N] | 3 => [100%N] | 6 => [116%N] | _ => [] end.
Definition ex_sid (f : nat) := f + 10.
Definition ex_sdef (f : nat) := f - 10.
Definition ex_ok (d : def) (x : out) : Prop := exists s, x = OStr s.
Definition ex_typed := typed ex_graph ex_ok ex_sdef.
Definition one : tyref := TyRef (DObject 0) (Named true).
Definition many : tyref := TyRef (DObject 0) (ListOf (Named true) true).
Lemma ex_sids : forall f, ex_sdef (ex_sid f) = f.
Proof. intros f. unfold ex_sdef, ex_sid. lia. Qed.
Lemma ex_leaf v s d w r : plain v (OStr s) -> ~ is_composite d -> ex_typed (TyRef d (Named w)) r (TLeaf v).
Proof. intros P C. apply TdLeaf with (x := OStr s); [exact C|constructor; exact P|]. constructor; [discriminate|exists s; reflexivity]. Qed.

(** [l[{ s }]] into the list of input objects. *)
Definition ex_list : text := [108;91;123;32;115;32;125;93]%N.
Definition ex_list_bound : avalue :=
  AValue (BValue [BList (Some [3]) (BValue [BObject None [BOField 2 (BFField 5); BOField 3 (BFDefault (OStr "x"))]])]).
Definition ex_list_reqs : list req := [Req 13 1 0 (EObj 0) [Req 15 2 0 (EObj 2) []]].
Definition ex_list_tree : tree :=
  TObj (0, 0) (Some 0) [((0, 1), TList (0, 0) [TObj (0, 1) (Some 2) [((0, 2), TLeaf (VStr "a"))]; TObj (0, 2) (Some 2) [((0, 2), TLeaf (VStr "b"))]])].
Definition ex_list_store : list part :=
  [ {| p_objs := [MkObj (Some 0) [((0, 1), VList (0, 0))]; MkObj (Some 2) [((0, 2), VStr "a")]; MkObj (Some 2) [((0, 2), VStr "b")]];
       p_lists := [[VObj (0, 1); VObj (0, 2)]]; p_inacc := [] |} ].
Lemma ex_list_typed : ex_typed one ex_list_reqs ex_list_tree.
Proof.
  apply TdObj; [exact Logic.I| |].
  - intros q [<-|[]]. exists (TList (0, 0) [TObj (0, 1) (Some 2) [((0, 2), TLeaf (VStr "a"))]; TObj (0, 2) (Some 2) [((0, 2), TLeaf (VStr "b"))]]). exists 0. left. reflexivity.
  - intros q t [<-|[]] (p & [[= <- <-]|[]]). cbn. apply TdList; [exact Logic.I|].
    constructor; [|constructor; [|constructor]]; (apply TdObj; [exact Logic.I| |]).
    + intros q [<-|[]]. exists (TLeaf (VStr "a")). exists 0. left. reflexivity.
    + intros q t [<-|[]] (p & [[= <- <-]|[]]). apply (ex_leaf _ "a"); [constructor|intros []].
    + intros q [<-|[]]. exists (TLeaf (VStr "b")). exists 0. left. reflexivity.
    + intros q t [<-|[]] (p & [[= <- <-]|[]]). apply (ex_leaf _ "b"); [constructor|intros []].
Qed.
Example C105_ex :
  require ex_graph ex_strings ex_targets ex_sid (DObject 0) [(4, ex_list)] =
    Some (one, ([Item 13 [Item 15 []]], [(4, AInject (ISelect 13 (IObject [(3, IDefault (OStr "x")); (2, ISelect 15 IIdentity)])))])) /\
  view_argument (a_key ex_targets) (fun i => view_injection ex_list_store 9 (ex_list_reqs, i) (VObj (0, 0)))
    (AInject (ISelect 13 (IObject [(3, IDefault (OStr "x")); (2, ISelect 15 IIdentity)]))) =
    VOk (OList [OObj [(3, OStr "x"); (2, OStr "a")]; OObj [(3, OStr "x"); (2, OStr "b")]]).
Proof. split; vm_compute; reflexivity. Qed.
Example C104_ex :
  bind_text ex_graph ex_strings ex_targets one 4 ex_list = Some ex_list_bound /\ clear_argument ex_graph ex_targets one 4 ex_list_bound /\
  (forall i y, a_missing ex_targets i = MDefault y -> valid ex_targets ex_ok i (t_wrap (a_type ex_targets i)) y) /\
  (forall i o ts, a_object ex_targets i = Some (o, ts) -> NoDup (map (a_key ex_targets) ts)).
Proof.
  split; [vm_compute; reflexivity|]. split; [|split].
  - constructor. constructor. constructor; [|constructor]. apply ClList with (d := DObject 2) (e := Named true) (b := true).
    + cbn [opt_path]. apply (ThCons ex_graph (DObject 0) true 3 [] _ Logic.I). constructor.
    + constructor. constructor; [|constructor]. apply ClObject with (d := DObject 2) (b := true); [constructor|exact Logic.I|].
      constructor; [constructor|]. constructor; [constructor|]. constructor.
  - intros [|[|[|[|i]]]] y; try discriminate. intros [= <-]. apply VdLeaf; [exact Logic.I|]. constructor; [discriminate|eexists; reflexivity].
  - intros [|[|[|[|[|[|i]]]]]] o ts; try discriminate; intros [= <- <-]; cbn;
      (constructor; [intros [K|[]]; discriminate|]; constructor; [intros []|constructor]).
Qed.

(** ** Where what is accepted is not what the target takes *)
Definition accepted_wrong (src : tyref) (t : nat) (m : text) : Prop :=
  exists b id s a r tree x,
    bind_text ex_graph ex_strings ex_targets src t m = Some b /\ create_value ex_sid (a_key ex_targets) t b = Some (id, (s, a)) /\
    has_set r s /\ ex_typed src r tree /\ afills ex_targets r tree a x /\ ~ valid ex_targets ex_ok t (t_wrap (a_type ex_targets t)) x.
Lemma has_one f k n p sub s : has_set sub s -> has_set [Req f k n p sub] [Item f s].
Proof.
  intros H. constructor; [cbn; constructor; constructor|]. intros i [<-|[]]. exists (Req f k n p sub). split; [split; [left; reflexivity|reflexivity]|exact H].
Qed.
Lemma has_none r : has_set r [].
Proof. constructor; [constructor|intros i []]. Qed.
Lemma ex_obj d r n o k t : is_composite d -> (exists f nm p sub, r = [Req f k nm p sub] /\ ex_typed (f_type (gr_field ex_graph (ex_sdef f))) sub t) ->
  forall w, ex_typed (TyRef d (Named w)) r (TObj n o [((0, k), t)]).
Proof.
  intros C (f & nm & p & sub & -> & D) w. apply TdObj; [exact C| |].
  - intros q [<-|[]]. exists t, 0. left. reflexivity.
  - intros q t' [<-|[]] (p' & [[= <- <-]|[]]). exact D.
Qed.
Lemma ex_pick r f k nm p sub next n o t x : r = [Req f k nm p sub] -> fills sub next t x -> fills r (ISelect f next) (TObj n o [((0, k), t)]) x.
Proof.
  intros -> F. constructor. eapply FoSelect; [left; reflexivity|reflexivity| |exact F]. exists 0. left. reflexivity.
Qed.
(** [o.i] into ID!: null if there is no o. *)
Theorem C104_nullable_refuted : accepted_wrong one 0 [111;46;105]%N.
Proof.
  exists (AValue (BValue [BPath [2; 4]])), 0, [Item 12 [Item 14 []]], (AInject (ISelect 12 (ISelect 14 IIdentity))).
  exists [Req 12 1 0 (EObj 0) [Req 14 2 0 (EObj 1) []]], (TObj (0, 0) (Some 0) [((0, 1), TLeaf VNull)]), ONull.
  split; [vm_compute; reflexivity|]. split; [vm_compute; reflexivity|]. split; [apply has_one, has_one, has_none|]. split; [|split].
  - apply ex_obj; [exact Logic.I|]. do 4 eexists. split; [reflexivity|]. apply TdNull; [exact Logic.I|reflexivity].
  - constructor. eapply ex_pick; [reflexivity|]. constructor. constructor.
  - intros V. inversion V as [? ? R|? ? ? _ L| |]; [discriminate|]. subst. inversion L as [? R|? ? N _|]; [discriminate|]. apply N. reflexivity.
Qed.
(** [l.s] into ID!: a list. *)
Theorem C104_list_refuted : accepted_wrong one 0 [108;46;115]%N.
Proof.
  exists (AValue (BValue [BPath [3; 5]])), 0, [Item 13 [Item 15 []]], (AInject (ISelect 13 (ISelect 15 IIdentity))).
  exists ex_list_reqs, ex_list_tree, (OList [OStr "a"; OStr "b"]).
  split; [vm_compute; reflexivity|]. split; [vm_compute; reflexivity|]. split; [apply has_one, has_one, has_none|]. split; [exact ex_list_typed|split].
  - constructor. eapply ex_pick; [reflexivity|]. constructor.
    constructor; [|constructor; [|constructor]]; (eapply ex_pick; [reflexivity|]; constructor; constructor).
  - intros V. inversion V as [|? ? ? _ L| |]. subst. inversion L as [|? ? _ (s & E)|]. discriminate.
Qed.
(** [l.{ t: [s] }] into an input object: a list of them, in each what is not a list. *)
Theorem C104_object_refuted : accepted_wrong one 5 [108;46;123;32;116;58;32;91;115;93;32;125]%N.
Proof.
  exists (AValue (BValue [BObject (Some [3]) [BOField 6 (BFValue (BValue [BList None (BValue [BPath [5]])])); BOField 3 (BFDefault (OStr "x"))]])), 5, [Item 13 [Item 15 []]],
    (AInject (ISelect 13 (IObject [(3, IDefault (OStr "x")); (6, ISelect 15 IIdentity)]))).
  exists ex_list_reqs, ex_list_tree, (OList [OObj [(3, OStr "x"); (6, OStr "a")]; OObj [(3, OStr "x"); (6, OStr "b")]]).
  split; [vm_compute; reflexivity|]. split; [vm_compute; reflexivity|]. split; [apply has_one, has_one, has_none|]. split; [exact ex_list_typed|split].
  - constructor. eapply ex_pick; [reflexivity|]. constructor.
    constructor; [|constructor; [|constructor]]; (constructor; constructor; constructor; [constructor|]; constructor; [|constructor];
      eapply FoSelect; [left; reflexivity|reflexivity|exists 0; left; reflexivity|constructor; constructor]).
  - intros V. inversion V as [|? ? ? D _| |]. destruct D.
Qed.
(** [{ s: i }] into a list of input objects: one of them. *)
Theorem C104_argument_refuted : accepted_wrong one 4 [123;32;115;58;32;105;32;125]%N.
Proof.
  exists (AObject [AOField 2 (AFValue (BFValue (BValue [BPath [0]]))); AOField 3 (AFValue (BFDefault (OStr "x")))]), 4, [Item 10 []],
    (AInput [(2, AInject (ISelect 10 IIdentity)); (3, AInject (IDefault (OStr "x")))]).
  exists [Req 10 1 0 (EObj 0) []], (TObj (0, 0) (Some 0) [((0, 1), TLeaf (VStr "a"))]), (OObj [(2, OStr "a"); (3, OStr "x")]).
  split; [vm_compute; reflexivity|]. split; [vm_compute; reflexivity|]. split; [apply has_one, has_none|]. split; [|split].
  - apply ex_obj; [exact Logic.I|]. do 4 eexists. split; [reflexivity|]. apply (ex_leaf _ "a"); [constructor|intros []].
  - constructor. constructor; [|constructor; [|constructor]]; (split; [reflexivity|]); constructor.
    + eapply ex_pick; [reflexivity|]. constructor. constructor.
    + constructor. constructor.
  - intros V. inversion V as [|? ? ? D _| |]. destruct D.
Qed.
(** [{ t: [i] }] of many parents: a default for each of them instead of one. *)
Theorem C104_defaults_refuted : accepted_wrong many 5 [123;32;116;58;32;91;105;93;32;125]%N.
Proof.
  exists (AObject [AOField 6 (AFValue (BFValue (BValue [BList None (BValue [BPath [0]])]))); AOField 3 (AFValue (BFDefault (OStr "x")))]), 5, [Item 10 []],
    (AInput [(6, AInject (ISelect 10 IIdentity)); (3, AInject (IDefault (OStr "x")))]).
  exists [Req 10 1 0 (EObj 0) []], (TList (0, 0) [TObj (0, 0) (Some 0) [((0, 1), TLeaf (VStr "a"))]]), (OObj [(6, OList [OStr "a"]); (3, OList [OStr "x"])]).
  split; [vm_compute; reflexivity|]. split; [vm_compute; reflexivity|]. split; [apply has_one, has_none|]. split; [|split].
  - apply TdList; [exact Logic.I|]. constructor; [|constructor]. apply ex_obj; [exact Logic.I|]. do 4 eexists. split; [reflexivity|]. apply (ex_leaf _ "a"); [constructor|intros []].
  - constructor. constructor; [|constructor; [|constructor]]; (split; [reflexivity|]); constructor; constructor; (constructor; [|constructor]).
    + eapply ex_pick; [reflexivity|]. constructor. constructor.
    + constructor. constructor.
  - intros V. inversion V as [|t w y D L E1 E2 E3| |t w o ts es A ND K Rq E1 E2 E3]; [destruct D|]. subst. injection A as <- <-.
    destruct (K 3 (OList [OStr "x"])) as (i & I & E & V'); [right; left; reflexivity|]. cbn in E. subst i.
    inversion V' as [|? ? ? _ L| |]. subst. inversion L as [|? ? _ (s & E)|]. discriminate.
Qed.

(** ** C104: the targets *)

(** The fields of an input object that a map may give: those of the public schema and those only this
    subgraph has. *)
Theorem C104_targets : forall inputs objects subgraph i,
  (forall n, t_def (ii_type (inputs i)) = DInput n ->
     exists l, a_object (argument_targets inputs objects subgraph) i = Some (fst (objects n), l) /\
       forall j, In j l <-> In j (snd (objects n)) /\ (ii_internal (inputs j) = None \/ ii_internal (inputs j) = Some subgraph)) /\
  ((forall n, t_def (ii_type (inputs i)) <> DInput n) -> a_object (argument_targets inputs objects subgraph) i = None).
Proof.
  intros inputs objects s i. split.
  - intros n E. unfold argument_targets. cbn [a_object]. rewrite E. eexists. split; [reflexivity|].
    intro j. rewrite filter_In. split; intros [I C]; (split; [exact I|]).
    + destruct (ii_internal (inputs j)) as [x|]; [|now left]. right. f_equal. now apply Nat.eqb_eq.
    + destruct C as [-> | ->]; [reflexivity|apply Nat.eqb_refl].
  - intros N. unfold argument_targets. cbn [a_object]. destruct (t_def (ii_type (inputs i))) as [n|n|n|n|n|n]; try reflexivity. contradiction (N n eq_refl).
Qed.

(** The fields of an output type that a map may give: those of this subgraph. *)
Theorem C104_target_fields : forall g key exists_in provided_by subgraph f l,
  a_object (field_targets g key exists_in provided_by subgraph) f = Some (false, l) ->
  forall j, In j l <-> In j (gr_fields g (t_def (f_type (gr_field g f)))) /\ In subgraph (exists_in j).
Proof.
  intros g key ex pr s f l H j. unfold field_targets in H. cbn [a_object] in H.
  assert (X : forall L, In j (filter (fun j => existsb (Nat.eqb s) (ex j)) L) <-> In j L /\ In s (ex j)).
  { intro L. rewrite filter_In, existsb_exists. split; intros [I C]; (split; [exact I|]).
    - destruct C as (x & J & E). apply Nat.eqb_eq in E. now subst x.
    - exists s. split; [exact C|apply Nat.eqb_refl]. }
  destruct (t_def (f_type (gr_field g f))) as [n|n|n|n|n|n]; try discriminate H; injection H as <-; apply X.
Qed.

Example C104_ex_targets :
  let inputs i := match i with
    | 0 => Input 0 (TyRef (DInput 0) (Named false)) None None
    | 1 => Input 1 (TyRef (DScalar 0) (Named false)) None None
    | 2 => Input 2 (TyRef (DScalar 0) (Named false)) None (Some 7)
    | _ => Input 3 (TyRef (DScalar 0) (Named false)) None (Some 8) end in
  a_object (argument_targets inputs (fun _ => (false, [1; 2; 3])) 7) 0 = Some (false, [1; 2]).
Proof. reflexivity. Qed.
