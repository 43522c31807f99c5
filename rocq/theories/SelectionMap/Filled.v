(** What bound field selection maps make of data. *)
From Coq Require Import List NArith Bool Arith Lia Permutation.
From Verif Require Import Response.Model Response.Spec Response.Merge Wrapping.Spec Views.Model Views.Spec.
From Verif Require Import SelectionMap.Model SelectionMap.TextProperties SelectionMap.Binding SelectionMap.BindSpec SelectionMap.Bound.
Import ListNotations.
Local Open Scope nat_scope.
Local Open Scope list_scope.

Lemma lenb_refl w : lenb w w = true.
Proof. induction w as [b|w IH b]; cbn [lenb]; [destruct b; reflexivity|]. rewrite IH. destruct b; reflexivity. Qed.
Lemma lenb_trans a : forall b c, lenb a b = true -> lenb b c = true -> lenb a c = true.
Proof.
  induction a as [x|a IH x]; intros [y|b y] [z|c z]; cbn [lenb]; try discriminate.
  - destruct x, y, z; cbn; auto.
  - rewrite !andb_true_iff. intros [A B] [C D]. split; [destruct x, y, z; cbn in *; auto|exact (IH _ _ B D)].
Qed.
Lemma lenb_required a b : lenb a b = true -> required a = true -> required b = true.
Proof.
  destruct a as [x|a x], b as [y|b y]; cbn; try discriminate; [|rewrite andb_true_iff; intros [L _]; revert L]; destruct x, y; cbn; auto.
Qed.
Lemma lenb_nullable w : lenb (make_nullable w) w = true.
Proof. destruct w as [b|w b]; cbn [make_nullable lenb]; [reflexivity|apply lenb_refl]. Qed.
Lemma lenb_nullable_both a b : lenb a b = true -> lenb (make_nullable a) (make_nullable b) = true.
Proof. destruct a, b; cbn [make_nullable lenb]; try discriminate; [reflexivity|]. rewrite andb_true_iff. intros [_ L]. exact L. Qed.

Section Fill.
  Variable g : graph.
  Variable strings : nat -> name.
  Variable T : targets.
  Variable leaf_ok : def -> out -> Prop.
  Variable sdef sid : nat -> nat.
  Notation leaf_value := (leaf_value leaf_ok).
  Notation typed := (typed g leaf_ok sdef).
  Notation valid := (valid T leaf_ok).

  Lemma leaf_lenient d : forall w w' x, lenb w' w = true -> leaf_value d w x -> leaf_value d w' x.
  Proof.
    induction w as [b|w IH b]; intros w' x L H; inversion H as [? R|? ? N K|? ? l F]; subst.
    - destruct w' as [b'|]; [|discriminate]. constructor. destruct (required (Named b')) eqn:E; [|reflexivity]. rewrite (lenb_required _ _ L E) in R. discriminate.
    - destruct w'; [|discriminate]. constructor; assumption.
    - destruct w' as [|w' b']; [discriminate|]. constructor. destruct (required (ListOf w' b')) eqn:E; [|reflexivity]. rewrite (lenb_required _ _ L E) in R. discriminate.
    - destruct w' as [|w' b']; [discriminate|]. cbn [lenb] in L. apply andb_true_iff in L. destruct L as [_ L]. constructor.
      eapply Forall_impl; [|exact F]. intros y. apply IH, L.
  Qed.
  Lemma typed_lenient t : forall d w w' r, lenb w' w = true -> typed (TyRef d w) r t -> typed (TyRef d w') r t.
  Proof.
    induction t as [v|i l IH|i o fs IH|i t IH] using tree_ind2; intros d w w' r L H.
    - inversion H as [|? ? ? ? x C J V|? ? ? C R| |]; subst.
      + apply TdLeaf with (x := x); [exact C|exact J|exact (leaf_lenient _ _ _ _ L V)].
      + apply TdNull; [exact C|]. destruct (required w') eqn:E; [|reflexivity]. rewrite (lenb_required _ _ L E) in R. discriminate.
    - inversion H as [|? ? ? ? x C J V| |? e b ? ? ? C F|]; subst.
      + apply TdLeaf with (x := x); [exact C|exact J|exact (leaf_lenient _ _ _ _ L V)].
      + destruct w' as [|w' b']; [discriminate|]. cbn [lenb] in L. apply andb_true_iff in L. destruct L as [_ L].
        apply TdList; [exact C|]. rewrite Forall_forall in *. intros t I. exact (IH t I _ _ _ _ L (F t I)).
    - inversion H as [|? ? ? ? x C J V| | |? b ? ? ? ? C A B]; subst.
      + apply TdLeaf with (x := x); [exact C|exact J|exact (leaf_lenient _ _ _ _ L V)].
      + destruct w' as [b'|]; [|discriminate]. apply TdObj; assumption.
    - inversion H as [? ? ? ? H'|? ? ? ? x C J V| | |]; subst.
      + apply TdInacc. exact (IH _ _ _ _ L H').
      + apply TdLeaf with (x := x); [exact C|exact J|exact (leaf_lenient _ _ _ _ L V)].
  Qed.

  Definition unwrapped (t : tree) : Prop := match t with TInacc _ _ => False | _ => True end.
  Lemma bare t : forall s r i x, typed s r t -> fills r i t x -> exists t', unwrapped t' /\ typed s r t' /\ fills r i t' x.
  Proof.
    induction t as [v|n l|n o fs|n t IH]; intros s r i x H F.
    - exists (TLeaf v). split; [exact Logic.I|split; assumption].
    - exists (TList n l). split; [exact Logic.I|split; assumption].
    - exists (TObj n o fs). split; [exact Logic.I|split; assumption].
    - inversion F as [| |? ? ? ? ? F'|]; subst. apply (IH s r i x); [|exact F']. inversion H as [? ? ? ? H'|? ? ? ? y C J V| | |]; subst; [exact H'|].
      inversion J as [| |? ? ? J']. subst. apply TdLeaf with (x := y); assumption.
  Qed.
  Lemma plain_one v x y : plain v x -> plain v y -> x = y.
  Proof. intros A B. inversion A; subst; inversion B; subst; reflexivity. Qed.
  Lemma json_fills t : forall r i x y, json t x -> fills r i t y -> y = x.
  Proof.
    induction t as [v|n l IH|n o fs IH|n t IH] using tree_ind2; intros r i x y J F.
    - inversion J. inversion F. subst. eapply plain_one; eassumption.
    - inversion J as [|? ? xs J'|]. inversion F as [|? ? ? ? ys F'| |]. subst. f_equal.
      clear J F. revert xs ys J' F'. induction IH as [|t l H _ IHl]; intros xs ys J' F'; inversion J'; inversion F'; subst; [reflexivity|].
      f_equal; [eapply H; eassumption|]. apply IHl; assumption.
    - inversion J.
    - inversion J. inversion F. subst. eapply IH; eassumption.
  Qed.
  Lemma leaf_filled s r i t x : ~ is_composite (t_def s) -> typed s r t -> fills r i t x -> leaf_value (t_def s) (t_wrap s) x.
  Proof.
    intros C H. revert i x. induction H as [s r n t H IH|d w r t y _ J V|d w r C'|d e b r n l C'|d b r n o fs C']; intros i x F; try contradiction.
    - inversion F. subst. eapply IH; eassumption.
    - rewrite (json_fills _ _ _ _ _ J F). exact V.
  Qed.

  (** ** Paths *)
  Hypothesis H_sid : forall f, sdef (sid f) = f.
  Lemma through_nullable s p s' : through g s p s' -> required (t_wrap s) = false -> required (t_wrap s') = false.
  Proof.
    induction 1 as [s|d b f l s C H IH]; intros R; [exact R|]. cbn in R. subst b. apply IH. cbn [t_wrap].
    destruct (t_wrap (f_type (gr_field g f))); reflexivity.
  Qed.
  Lemma create_path_cons f l next : snd (create_path sid (f :: l) next) = ISelect (sid f) (snd (create_path sid l next)).
  Proof. unfold create_path. cbn [fold_right]. destruct (fold_right _ next l). reflexivity. Qed.
  Lemma given s p s' : through g s p s' -> forall r t next x, typed s r t -> fills r (snd (create_path sid p next)) t x ->
    (x = ONull /\ required (t_wrap s') = false) \/ exists r' t', typed s' r' t' /\ fills r' (snd next) t' x.
  Proof.
    induction 1 as [s|d b f l s C H IH]; intros r t next x D F; [right; exists r, t; split; [exact D|exact F]|].
    destruct (bare _ _ _ _ _ D F) as (t' & U & D' & F'). clear t D F. rewrite create_path_cons in F'.
    inversion D' as [| ? ? ? ? ? NC|? ? ? _ R|? ? ? ? ? ? C' X|? ? ? n o fs _ A B]; subst; try contradiction.
    - left. inversion F' as [? ? ? ? P| | |]. subst. inversion P. subst. split; [reflexivity|].
      cbn in R. subst b. apply (through_nullable _ _ _ H). destruct (t_wrap (f_type (gr_field g f))); reflexivity.
    - inversion F' as [| | |? ? ? ? ? ? FO]. subst. inversion FO as [|? ? ? ? ? q t0 ? I Q K F0|]. subst.
      specialize (B q t0 I K). rewrite Q, H_sid in B. apply (IH (q_sub q) t0 next x); [|exact F0].
      destruct (f_type (gr_field g f)) as [df wf]. cbn [t_def t_wrap]. destruct b; [exact B|]. exact (typed_lenient _ _ _ _ _ (lenb_nullable wf) B).
  Qed.
  Lemma direct_through s l f : direct g s (l ++ [f]) -> through g s (l ++ [f]) (f_type (gr_field g f)).
  Proof.
    revert s. induction l as [|h l IH]; intros s D; cbn [app] in *.
    - inversion D as [? ? C|]. subst. constructor; [exact C|]. destruct (f_type (gr_field g f)). constructor.
    - destruct (l ++ [f]) as [|h' l'] eqn:E; [destruct l; discriminate|]. inversion D as [|? ? ? ? C D']. subst. constructor; [exact C|]. cbn [t_def t_wrap].
      apply IH in D'. destruct (f_type (gr_field g h)) as [dh wh]. exact D'.
  Qed.

  (** ** The type bound to and the one found *)
  Definition same (d e : def) : Prop := d = e \/ (is_composite d /\ is_composite e).
  Definition close (s a : tyref) : Prop := same (t_def s) (t_def a) /\ lenb (t_wrap s) (t_wrap a) = true.
  Lemma has_fields_composite d : has_fields d -> is_composite d.
  Proof. destruct d; cbn; auto. Qed.
  Lemma same_leaf d e : same d e -> ~ is_composite e -> d = e.
  Proof. intros [E|[_ C]] N; [exact E|contradiction]. Qed.
  Lemma segments_close l : forall d w p s a a', bind_segments g l d w = Some (p, s) -> close (TyRef d w) a -> through g a p a' -> close s a'.
  Proof.
    induction l as [|x l IH]; intros d w p s a a'; cbn [bind_segments].
    { intros [= <- <-] C H. inversion H. subst. exact C. }
    destruct (field_named g d (SelectionMap.Model.g_field x)) as [f|] eqn:F; [|discriminate]. rewrite bind_some. intros (d' & N & B). apply bind_some in B.
    destruct B as ([p' s'] & B & [= <- <-]). intros [_ L] H. inversion H as [|? b ? ? ? _ H']. subst. cbn [t_wrap] in L.
    refine (IH _ _ _ _ _ _ B _ H'). split; cbn [t_def t_wrap].
    - destruct (SelectionMap.Model.g_ty x) as [n|]; [|injection N as <-; left; reflexivity].
      destruct (composite (t_def (f_type (gr_field g f)))) eqn:C; [|discriminate]. apply composite_spec in C.
      apply bind_condition_ok in N. destruct N as (_ & K & _). right. split; [exact (has_fields_composite _ K)|exact C].
    - destruct (required w) eqn:R.
      + pose proof (lenb_required _ _ L R) as E. cbn in E. subst b. apply lenb_refl.
      + destruct b; [apply lenb_nullable|apply lenb_refl].
  Qed.
  Lemma opt_close src p l s a a' : bind_opt g src p = Some (l, s) -> close src a -> through g a (opt_path l) a' -> close s a'.
  Proof.
    destruct p as [p|]; cbn [bind_opt].
    - rewrite bind_some. intros ([l' s'] & B & [= <- <-]). cbn [opt_path]. unfold bind_path in B.
      destruct (listp (t_wrap src)); [discriminate|]. destruct (composite (t_def src)) eqn:C; [|discriminate]. apply composite_spec in C.
      apply bind_some in B. destruct B as (d & N & B). intros [Sd L] H. refine (segments_close _ _ _ _ _ _ _ B _ H). split; [|exact L]. cbn [t_def].
      destruct (p_ty p) as [n|]; [|injection N as <-; exact Sd]. apply bind_condition_ok in N. destruct N as (_ & K & _).
      right. split; [exact (has_fields_composite _ K)|]. destruct Sd as [<-|[_ Ca]]; assumption.
    - intros [= <- <-] C H. inversion H. subst. exact C.
  Qed.
  Lemma create_opt (p : option (list nat)) next : (match p with Some p => create_path sid p next | None => next end) = create_path sid (opt_path p) next.
  Proof. destruct p; reflexivity. Qed.
  Lemma through_leaf a p a' : through g a p a' -> ~ is_composite (t_def a) -> p = [] /\ a' = a.
  Proof. intros H N. inversion H; subst; [split; reflexivity|]. cbn in N. contradiction. Qed.

  (** ** Objects *)
  Lemma entries_all r l o fs es : (forall q, In q r -> exists t, carries fs (q_key q) t) -> fills_entries r l o fs es ->
    Forall2 (fun p e => fst p = fst e /\ fills_object r (snd p) o fs (snd e)) l es.
  Proof.
    intros A. revert es. induction l as [|[k i] l IH]; intros es H.
    - inversion H. constructor.
    - inversion H as [|? ? ? ? ? ? x es' FO R|? ? f next ? ? ? q ? I Q L O R]; subst.
      + constructor; [split; [reflexivity|exact FO]|]. apply IH, R.
      + destruct (A q I) as (t & K). destruct (L t K).
  Qed.
  Lemma insert_perm p l : Permutation (p :: l) (insert_kv p l).
  Proof.
    induction l as [|q l IH]; cbn [insert_kv]; [reflexivity|]. destruct (key_leb _ _); [reflexivity|].
    rewrite perm_swap. apply perm_skip, IH.
  Qed.
  Lemma sort_perm l : Permutation l (sort_kvs l).
  Proof.
    induction l as [|p l IH]; [reflexivity|]. unfold sort_kvs. cbn [fold_right]. rewrite <- insert_perm. apply perm_skip, IH.
  Qed.
  Notation key := (a_key T).
  Definition create_fields : list bofield -> list item -> list (nat * inj) -> option (list item * inj) :=
    fix go fields s kvs :=
      match fields with
      | [] => Some (s, IObject (sort_kvs kvs))
      | f :: fields => bind (create_ofield sid key f) (fun '(k, (r, i)) => go fields (union s r) (kvs ++ [(k, i)]))
      end.
  Lemma create_object_eq p fields : create_entry sid key (BObject p fields) =
    bind (create_fields fields [] []) (fun next => Some (match p with Some p => create_path sid p next | None => next end)).
  Proof. reflexivity. Qed.
  Lemma create_fields_spec fields : forall s kvs s' i, create_fields fields s kvs = Some (s', i) ->
    exists l, Forall2 (fun f e => create_ofield sid key f = Some e) fields l /\
      i = IObject (sort_kvs (kvs ++ map (fun e => (fst e, snd (snd e))) l)) /\ s' = fold_left (fun s e => union s (fst (snd e))) l s.
  Proof.
    induction fields as [|f fields IH]; intros s kvs s' i.
    - cbn. intros [= <- <-]. exists []. split; [constructor|]. rewrite app_nil_r. split; reflexivity.
    - change (create_fields (f :: fields) s kvs) with (bind (create_ofield sid key f) (fun '(k, (r, i)) => create_fields fields (union s r) (kvs ++ [(k, i)]))).
      rewrite bind_some. intros ([k [r j]] & C & R). destruct (IH _ _ _ _ R) as (l & F & E & E'). exists ((k, (r, j)) :: l).
      split; [constructor; assumption|]. cbn [map fst snd fold_left]. rewrite <- app_assoc in E. split; [exact E|exact E'].
  Qed.
  Lemma create_ofield_some id v e : create_ofield sid key (BOField id v) = Some e -> fst e = key id /\ create_field sid key v = Some (snd e).
  Proof. cbn [create_ofield]. rewrite bind_some. intros (r & C & [= <-]). split; [reflexivity|exact C]. Qed.

  Lemma Forall2_in_l {A B} (R : A -> B -> Prop) l l' a : Forall2 R l l' -> In a l -> exists b, In b l' /\ R a b.
  Proof.
    induction 1 as [|x y l l' H _ IH]; [intros []|]. intros [<-|I]; [exists y; split; [left; reflexivity|exact H]|].
    destruct (IH I) as (b & J & K). exists b. split; [right; exact J|exact K].
  Qed.
  Lemma Forall2_in_r {A B} (R : A -> B -> Prop) l l' b : Forall2 R l l' -> In b l' -> exists a, In a l /\ R a b.
  Proof.
    induction 1 as [|x y l l' H _ IH]; [intros []|]. intros [<-|I]; [exists x; split; [left; reflexivity|exact H]|].
    destruct (IH I) as (a & J & K). exists a. split; [right; exact J|exact K].
  Qed.
  Lemma Forall2_map_eq {A B C} (p : A -> C) (q : B -> C) l l' : Forall2 (fun a b => p a = q b) l l' -> map p l = map q l'.
  Proof. induction 1 as [|a b l l' E _ IH]; cbn; [reflexivity|]. rewrite E, IH. reflexivity. Qed.
  Lemma NoDup_keys (ids ts : list nat) : NoDup ids -> incl ids ts -> NoDup (map key ts) -> NoDup (map key ids).
  Proof.
    intros ND I K. induction ND as [|a l N _ IH]; cbn [map]; [constructor|]. constructor.
    - intros J. apply in_map_iff in J. destruct J as (b & E & J). apply N.
      enough (b = a) as -> by exact J.
      assert (A1 : In a ts) by (apply I; left; reflexivity). assert (B1 : In b ts) by (apply I; right; exact J).
      clear - K E A1 B1. induction ts as [|t ts IH]; [destruct A1|]. cbn [map] in K. inversion K as [|? ? N' K']. subst.
      destruct A1 as [->|A1], B1 as [->|B1]; [reflexivity| | |exact (IH K' A1 B1)].
      + destruct N'. rewrite <- E. apply in_map, B1.
      + destruct N'. rewrite E. apply in_map, A1.
    - apply IH. intros x J. apply I. right. exact J.
  Qed.

  Hypothesis H_default : forall i x, a_missing T i = MDefault x -> valid i (t_wrap (a_type T i)) x.
  Hypothesis H_keys : forall t o ts, a_object T t = Some (o, ts) -> NoDup (map key ts).
  Hypothesis H_ids : forall t o ts, a_object T t = Some (o, ts) -> NoDup ts.

  Definition leaf_def (d : def) : Prop := match d with DScalar _ | DEnum _ => True | _ => False end.
  Lemma compatible_ok src t w : compatible T src t w = true -> lenb w (t_wrap src) = true /\ t_def (a_type T t) = t_def src /\ leaf_def (t_def src).
  Proof.
    unfold compatible. rewrite andb_true_iff. intros [L D]. split; [exact L|].
    destruct (t_def (a_type T t)), (t_def src); try discriminate; apply Nat.eqb_eq in D; subst; split; try reflexivity; exact Logic.I.
  Qed.
  Lemma leaf_not_composite d : leaf_def d -> ~ is_composite d.
  Proof. destruct d; cbn; auto. Qed.
  Definition fits (sa : tyref) (t : nat) (w : ty) (i : inj) : Prop :=
    (~ is_composite (t_def sa) -> t_def (a_type T t) = t_def sa /\ leaf_def (t_def sa) /\ lenb w (t_wrap sa) = true) /\
    forall r tr x, typed sa r tr -> fills r i tr x -> valid t w x.
  Lemma fits_leaf sa t w i : t_def (a_type T t) = t_def sa -> leaf_def (t_def sa) -> lenb w (t_wrap sa) = true -> fits sa t w i.
  Proof.
    intros E D L. split; [auto|]. intros r tr x H F. apply VdLeaf; [rewrite E; exact D|]. rewrite E.
    apply (leaf_lenient _ (t_wrap sa)); [exact L|]. exact (leaf_filled _ _ _ _ _ (leaf_not_composite _ D) H F).
  Qed.
  Lemma through_fits a p a' t w next : through g a p a' -> (p = [] -> is_composite (t_def a') \/ is_composite (t_def a)) \/ p <> [] ->
    (required w = true -> required (t_wrap a') = true) ->
    (forall r tr x, typed a' r tr -> fills r (snd next) tr x -> valid t w x) -> fits a t w (snd (create_path sid p next)).
  Proof.
    intros H K R G. split.
    - intros N. destruct (through_leaf _ _ _ H N) as [-> ->]. destruct K as [K|K]; [destruct (K eq_refl); contradiction|destruct K; reflexivity].
    - intros r tr x D F. destruct (given _ _ _ H _ _ _ _ D F) as [[-> Nu]|(r' & t' & D' & F')].
      + apply VdNull. destruct (required w); [|reflexivity]. rewrite (R eq_refl) in Nu. discriminate.
      + exact (G _ _ _ D' F').
  Qed.
  (** One object: with a field for each of these. *)
  Definition good_field (d : def) (f : bofield) (e : nat * (list item * inj)) : Prop :=
    forall r n o fs x, typed (TyRef d (Named true)) r (TObj n o fs) -> fills_object r (snd (snd e)) o fs x ->
      valid (bo_id f) (t_wrap (a_type T (bo_id f))) x.
  Lemma object_fits d b t bw o ts bs bs' l : is_composite d -> (bw = true -> b = true) -> a_object T t = Some (o, ts) ->
    NoDup bs' -> incl bs' ts ->
    (forall i, In i ts -> In i bs' \/ a_missing T i = MProvidable \/ (exists x, a_missing T i = MDefault x) \/ (a_missing T i = MNone /\ required (t_wrap (a_type T i)) = false)) ->
    map bo_id bs = bs' -> Forall2 (fun f e => fst e = key (bo_id f)) bs l -> Forall2 (good_field d) bs l ->
    forall r tr x, typed (TyRef d (Named b)) r tr -> fills r (IObject (sort_kvs (map (fun e => (fst e, snd (snd e))) l))) tr x -> valid t (Named bw) x.
  Proof.
    intros C Rq A ND Inc All <- Keys Good r tr x D F. destruct (bare _ _ _ _ _ D F) as (t' & U & D' & F'). clear tr D F.
    inversion D' as [| ? ? ? ? ? NC|? ? ? _ R| |? ? ? n ob fs _ B1 B2]; subst; try contradiction.
    - inversion F' as [? ? ? ? P| | |]. subst. inversion P. subst. apply VdNull. cbn in *. destruct bw; [|reflexivity]. rewrite (Rq eq_refl) in R. discriminate.
    - inversion F' as [| | |? ? ? ? ? ? FO]. subst. inversion FO as [| |? ? ? ? es FE]. subst. apply entries_all in FE; [|exact B1].
      assert (D1 : typed (TyRef d (Named true)) r (TObj n ob fs)) by (apply TdObj; assumption).
      set (kvs := map (fun e : nat * (list item * inj) => (fst e, snd (snd e))) l) in *.
      assert (K1 : map fst kvs = map key (map bo_id bs)).
      { unfold kvs. rewrite !map_map. cbn [fst]. clear - Keys. induction Keys as [|f e bs l E _ IH]; [reflexivity|]. cbn [map]. rewrite E, IH. reflexivity. }
      assert (K2 : map fst es = map fst (sort_kvs kvs)).
      { symmetry. apply Forall2_map_eq. eapply Forall2_weaken; [|exact FE]. intros p e [E _]. exact E. }
      assert (K3 : Permutation (map key (map bo_id bs)) (map fst es)).
      { rewrite <- K1, K2. apply Permutation_map, sort_perm. }
      apply (VdObject _ _ _ _ o ts); [exact A| | |].
      + apply (Permutation_NoDup K3). exact (NoDup_keys _ _ ND Inc (H_keys _ _ _ A)).
      + intros k y I. destruct (Forall2_in_r _ _ _ _ FE I) as ([k' i] & J & E & FO'). cbn in E, FO'. subst k'.
        apply (Permutation_in _ (Permutation_sym (sort_perm kvs))) in J. unfold kvs in J. apply in_map_iff in J. destruct J as (e & E & J). injection E as E1 E2.
        assert (W : Forall2 (fun f e => fst e = key (bo_id f) /\ good_field d f e) bs l).
        { clear - Keys Good. revert Good. induction Keys; intros G; inversion G; subst; constructor; auto. }
        destruct (Forall2_in_r _ _ _ _ W J) as (f & If & E & G). exists (bo_id f).
        split; [apply Inc, in_map, If|]. split; [rewrite <- E; exact E1|]. rewrite <- E2 in FO'. exact (G _ _ _ _ _ D1 FO').
      + intros i I R M. destruct (All i I) as [J|[M'|[[y M']|[_ R']]]]; try congruence.
        apply (Permutation_in _ K3). apply in_map, J.
  Qed.

  Lemma fills_obj r i n o fs x : fills_object r i o fs x -> fills r i (TObj n o fs) x.
  Proof. apply FlObj. Qed.
  Lemma short_good d f t : is_composite d -> compatible T (f_type (gr_field g f)) t (t_wrap (a_type T t)) = true ->
    forall r tr x, typed (TyRef d (Named true)) r tr -> fills r (ISelect (sid f) IIdentity) tr x -> valid t (t_wrap (a_type T t)) x.
  Proof.
    intros C K. apply compatible_ok in K. destruct K as (L & E & Lf).
    assert (H : through g (TyRef d (Named true)) [f] (f_type (gr_field g f))).
    { constructor; [exact C|]. destruct (f_type (gr_field g f)). constructor. }
    apply (through_fits _ _ _ t (t_wrap (a_type T t)) ([], IIdentity) H).
    - right. discriminate.
    - exact (lenb_required _ _ L).
    - cbn [snd]. apply (fits_leaf _ t); assumption.
  Qed.

  Lemma filled_all :
    (forall v src t w b, bind_selected g strings T src t w v = Some b -> forall sa, close src sa -> clear g sa b ->
      forall s i, create_selected sid key b = Some (s, i) -> fits sa t w i) /\
    (forall e src t w b, bind_entry g strings T src t w e = Some b -> forall sa, close src sa -> clear_entry g sa b ->
      forall s i, create_entry sid key b = Some (s, i) -> fits sa t w i) /\
    (forall f src ts b ts', bind_ofield g strings T src ts f = Some (b, ts') -> forall d, close src (TyRef d (Named true)) -> is_composite d ->
      clear_field g (TyRef d (Named true)) b -> forall e, create_ofield sid key b = Some e -> good_field d b e).
  Proof.
    set (P := fun v => forall src t w b, bind_selected g strings T src t w v = Some b -> forall sa, close src sa -> clear g sa b ->
      forall s i, create_selected sid key b = Some (s, i) -> fits sa t w i).
    set (Q := fun e => forall src t w b, bind_entry g strings T src t w e = Some b -> forall sa, close src sa -> clear_entry g sa b ->
      forall s i, create_entry sid key b = Some (s, i) -> fits sa t w i).
    set (R := fun f => forall src ts b ts', bind_ofield g strings T src ts f = Some (b, ts') -> forall d, close src (TyRef d (Named true)) -> is_composite d ->
      clear_field g (TyRef d (Named true)) b -> forall e, create_ofield sid key b = Some e -> good_field d b e).
    assert (HV : forall l, Forall Q l -> P (Value l)).
    { intros l F src t w b. rewrite bind_selected_eq, bind_some. intros (l' & B & [= <-]) sa Cl Cc s i. cbn [create_selected].
      apply bind_entries_spec in B. destruct l' as [|e' [|]]; try discriminate. inversion B as [|e ? ? ? Be Bn]. inversion Bn. subst. inversion F as [|? ? Qe _]. subst.
      inversion Cc as [? ? Fc]. subst. inversion Fc as [|? ? Fe _]. subst. exact (Qe _ _ _ _ Be _ Cl Fe s i). }
    assert (HI : Q Identity).
    { intros src t w b. cbn [bind_entry]. destruct (compatible T src t w) eqn:K; [|discriminate]. intros [= <-] sa [Sd L] _ s i [= <- <-].
      apply compatible_ok in K. destruct K as (Lw & E & Lf).
      assert (Es : t_def src = t_def sa).
      { destruct Sd as [Es|[Cs _]]; [exact Es|]. destruct (leaf_not_composite _ Lf Cs). }
      apply fits_leaf; [rewrite E; exact Es|rewrite <- Es; exact Lf|exact (lenb_trans _ _ _ Lw L)]. }
    assert (HP : forall p, Q (EPath p)).
    { intros p src t w b B sa Cl Cc s i. apply bind_path_inv in B. destruct B as (l & f & s0 & _ & K & ->). cbn [create_entry]. intros [= E].
      apply compatible_ok in K. destruct K as (Lw & Ed & Lf). inversion Cc as [|? ? Di| |]. subst. apply direct_through in Di.
      replace i with (snd (create_path sid (l ++ [f]) ([], IIdentity))) by (rewrite E; reflexivity).
      apply (through_fits _ _ _ t w ([], IIdentity) Di).
      - right. destruct l; discriminate.
      - exact (lenb_required _ _ Lw).
      - cbn [snd]. apply (fits_leaf _ t); assumption. }
    assert (HO : forall p l, Forall R l -> Q (EObject p l)).
    { intros p l F src t w b B sa Cl Cc s i. apply bind_object_inv in B.
      destruct B as (l' & s0 & o & ts & bs & ts' & ds & O & Lw & Rq & A & B & _ & Fl & ->). destruct w as [bw|]; [|discriminate].
      inversion Cc as [| |? ? d b ? Th Cd Cf|]. subst. pose proof (opt_close _ _ _ _ _ _ O Cl Th) as Cs.
      rewrite create_object_eq, bind_some. intros (next & Cn & [= E]). rewrite create_opt in E.
      destruct next as [s1 i1]. apply create_fields_spec in Cn. destruct Cn as (es & Fe & Ei & _). cbn [app] in Ei.
      replace i with (snd (create_path sid (opt_path l') (s1, i1))) by (rewrite E; reflexivity).
      assert (Rb : bw = true -> b = true).
      { intros W. specialize (Rq W). exact (lenb_required _ _ (proj2 Cs) Rq). }
      apply (through_fits _ _ _ t (Named bw) (s1, i1) Th); [left; intros _; left; exact Cd|exact Rb|]. cbn [snd]. rewrite Ei.
      destruct (bind_fields_spec _ _ _ _ _ _ _ _ B) as [Pm F2].
      destruct (fill_ok _ bo_id (fun t x => BOField t (BFDefault x)) (fun _ _ => eq_refl) _ _ _ Fl) as (ds' & Ed & Dd & Nd & Al).
      apply app_inv_head in Ed. subst ds'.
      assert (ND : NoDup (map bo_id bs ++ ts')) by (apply (Permutation_NoDup Pm); exact (H_ids _ _ _ A)).
      refine (object_fits d b t bw o ts (bs ++ ds) _ es Cd Rb A _ _ _ eq_refl _ _).
      - apply Nd. clear - ND. induction (map bo_id bs) as [|x m IH]; [constructor|]. cbn [app] in ND. inversion ND as [|? ? N' ND']. subst. constructor; [|exact (IH ND')].
        intros I. apply N', in_or_app. left. exact I.
      - intros x I. apply (Permutation_in _ (Permutation_sym Pm)). rewrite map_app in I. apply in_or_app. apply in_app_or in I. destruct I as [I|I]; [left; exact I|right].
        apply in_map_iff in I. destruct I as (f & <- & I). rewrite Forall_forall in Dd. destruct (Dd f I) as (t0 & x & -> & _ & J). exact J.
      - intros x I. apply (Permutation_in _ Pm) in I. apply in_app_or in I. destruct I as [I|I].
        + left. rewrite map_app. apply in_or_app. left. exact I.
        + destruct (Al x I) as [J|[J|J]]; auto.
      - eapply Forall2_weaken; [|exact Fe]. intros [id v] e Ce. exact (proj1 (create_ofield_some _ _ _ Ce)).
      - apply Forall2_app_inv_l in Fe. destruct Fe as (e1 & e2 & F3 & F4 & ->). apply Forall_app in Cf. destruct Cf as [Cf _]. apply Forall2_app.
        + assert (Cs' : close s0 (TyRef d (Named true))).
          { destruct Cs as [Sd L]. split; [exact Sd|]. cbn [t_wrap] in *. destruct (t_wrap s0) as [[]|]; try discriminate; reflexivity. }
          clear - F F2 F3 Cf Cs' Cd. revert e1 F3 Cf F. induction F2 as [|f b l bs (ts1 & ts2 & Hb) _ IH]; intros e1 F3 Cf F; inversion F3; subst; [constructor|].
          inversion Cf. inversion F. subst. constructor; [|apply IH; assumption]. eapply H7; eassumption.
        + clear - F4 Dd H_default. revert Dd. induction F4 as [|f e ds e2 Ce _ IH]; intros Dd; [constructor|]. inversion Dd as [|? ? (t0 & x & -> & M & _) Dd']. subst.
          constructor; [|exact (IH Dd')]. apply create_ofield_some in Ce. destruct Ce as [_ Ce]. cbn in Ce. injection Ce as Ce.
          intros r n o fs y _ FO. rewrite <- Ce in FO. cbn [snd] in FO. inversion FO. subst. cbn [bo_id]. apply H_default, M. }
    assert (HL : forall p v, P v -> Q (EList p v)).
    { intros p v Pv src t w b B sa Cl Cc s i. apply bind_list_inv in B. destruct B as (l & s0 & ew & rw & es & rs & bv & O & -> & Ws & Rq & B & ->).
      inversion Cc as [| | |? ? d e b ? Th Cv]. subst. pose proof (opt_close _ _ _ _ _ _ O Cl Th) as [Sd L]. cbn [t_def t_wrap] in *. rewrite Ws in L.
      cbn [lenb] in L. apply andb_true_iff in L. destruct L as [Lb L].
      cbn [create_entry]. rewrite bind_some. intros (next & Cn & [= E]). rewrite create_opt in E. destruct next as [s1 i1].
      replace i with (snd (create_path sid (opt_path l) (s1, i1))) by (rewrite E; reflexivity).
      assert (Rb : rw = true -> b = true) by (intros W; specialize (Rq W); subst rs; exact Lb).
      assert (Cs : close (TyRef (t_def s0) es) (TyRef d e)) by (split; [exact Sd|exact L]).
      destruct (Pv _ _ _ _ B _ Cs Cv _ _ Cn) as [PL PG]. cbn [t_def t_wrap] in PL.
      assert (G : forall r tr x, typed (TyRef d (ListOf e b)) r tr -> fills r i1 tr x -> valid t (ListOf ew rw) x).
      { destruct (composite d) eqn:Cd.
        - apply composite_spec in Cd. intros r tr x D F. destruct (bare _ _ _ _ _ D F) as (t' & U & D' & F'). clear tr D F.
          inversion D' as [| ? ? ? ? ? NC|? ? ? _ Rn|? ? ? ? n l' _ Fl|]; subst; try contradiction.
          + inversion F' as [? ? ? ? Pl| | |]. subst. inversion Pl. subst. apply VdNull. cbn in *. destruct rw; [|reflexivity]. rewrite (Rb eq_refl) in Rn. discriminate.
          + inversion F' as [|? ? ? ? xs F2| |]. subst. apply VdList. clear - PG Fl F2. induction F2; [constructor|]. inversion Fl. subst. constructor; [eapply PG; eassumption|auto].
        - assert (Nc : ~ is_composite d) by (rewrite <- composite_spec, Cd; discriminate). destruct (PL Nc) as (Ed & Lf & Le).
          apply (fits_leaf (TyRef d (ListOf e b)) t); [exact Ed|exact Lf|]. cbn [t_wrap lenb]. rewrite Le, andb_true_r. destruct rw; [rewrite (Rb eq_refl)|]; reflexivity. }
      split.
      - intros N. destruct (through_leaf _ _ _ Th N) as [_ Ea]. subst sa. cbn [t_def t_wrap] in *. destruct (PL N) as (Ed & Lf & Le).
        split; [exact Ed|]. split; [exact Lf|]. cbn [lenb]. rewrite Le, andb_true_r. destruct rw; [rewrite (Rb eq_refl)|]; reflexivity.
      - intros r tr x D F. destruct (given _ _ _ Th _ _ _ _ D F) as [[-> Nu]|(r' & t' & D' & F')].
        + apply VdNull. cbn in *. destruct rw; [|reflexivity]. rewrite (Rb eq_refl) in Nu. discriminate.
        + exact (G _ _ _ D' F'). }
    assert (HN : forall k, R (OField k None)).
    { intros k src ts b ts' B d Cl Cd _ e Ce. apply bind_ofield_inv in B. destruct B as (t & E & f & _ & _ & K & ->).
      apply create_ofield_some in Ce. destruct Ce as [_ Ce]. cbn in Ce. injection Ce as Ce. intros r n o fs x D FO. rewrite <- Ce in FO. cbn [snd] in FO.
      exact (short_good d f t Cd K _ _ _ D (fills_obj _ _ n _ _ _ FO)). }
    assert (HS : forall k v, P v -> R (OField k (Some v))).
    { intros k v Pv src ts b ts' B d Cl Cd Cf e Ce. apply bind_ofield_inv in B. destruct B as (t & E & bv & B & ->).
      apply create_ofield_some in Ce. destruct Ce as [_ Ce]. cbn [create_field] in Ce. inversion Cf as [? ? ? Cv| |]. subst.
      intros r n o fs x D FO. destruct (snd e) as [s1 i1]. exact (proj2 (Pv _ _ _ _ B _ Cl Cv _ _ Ce) _ _ _ D (fills_obj _ _ n _ _ _ FO)). }
    split; [exact (value_rec_ P Q R HV HI HP HO HL HN HS)|].
    split; [exact (entry_rec_ P Q R HV HI HP HO HL HN HS)|exact (field_rec_ P Q R HV HI HP HO HL HN HS)].
  Qed.

  (** ** Arguments *)
  Definition create_afields (id : nat) : list aofield -> list item -> list (nat * ainj) -> option (nat * (list item * ainj)) :=
    fix go fields s l :=
      match fields with
      | [] => Some (id, (s, AInput l))
      | f :: fields => bind (create_argument sid key f) (fun '(k, (r, i)) => go fields (union s r) (l ++ [(k, i)]))
      end.
  Lemma create_aobject_eq id fields : create_argument sid key (AOField id (AFObject fields)) = create_afields id fields [] [].
  Proof. reflexivity. Qed.
  Lemma create_afields_spec id fields : forall s kvs e, create_afields id fields s kvs = Some e ->
    exists l, Forall2 (fun f e => create_argument sid key f = Some e) fields l /\
      e = (id, (fold_left (fun s e => union s (fst (snd e))) l s, AInput (kvs ++ map (fun e => (fst e, snd (snd e))) l))).
  Proof.
    induction fields as [|f fields IH]; intros s kvs e.
    - cbn. intros [= <-]. exists []. split; [constructor|]. rewrite app_nil_r. reflexivity.
    - change (create_afields id (f :: fields) s kvs) with (bind (create_argument sid key f) (fun '(k, (r, i)) => create_afields id fields (union s r) (kvs ++ [(k, i)]))).
      rewrite bind_some. intros ([k [r j]] & C & R). destruct (IH _ _ _ R) as (l & F & E). exists ((k, (r, j)) :: l).
      split; [constructor; assumption|]. cbn [map fst snd fold_left]. rewrite <- app_assoc in E. exact E.
  Qed.
  Lemma create_argument_value id v e : create_argument sid key (AOField id (AFValue v)) = Some e ->
    exists s i, create_field sid key v = Some (s, i) /\ e = (id, (s, AInject i)).
  Proof. cbn [create_argument]. rewrite bind_some. intros ([s i] & C & [= <-]). exists s, i. split; [exact C|reflexivity]. Qed.
  Lemma create_argument_id f e : create_argument sid key f = Some e -> fst e = ao_id f.
  Proof.
    destruct f as [id [l|v]]; intros C.
    - rewrite create_aobject_eq in C. apply create_afields_spec in C. destruct C as (es & _ & ->). reflexivity.
    - apply create_argument_value in C. destruct C as (s & i & _ & ->). reflexivity.
  Qed.

  Section Data.
    Variable sa : tyref.
    Variable r : list req.
    Variable tr : tree.
    Hypothesis H_typed : typed sa r tr.
    Notation afills := (afills T r tr).
    Definition good_afield (f : aofield) (e : nat * (list item * ainj)) : Prop :=
      forall x, afills (snd (snd e)) x -> valid (ao_id f) (t_wrap (a_type T (ao_id f))) x.
    Lemma aobject_fits t b o ts bs l : t_wrap (a_type T t) = Named b -> a_object T t = Some (o, ts) ->
      NoDup (map ao_id bs) -> incl (map ao_id bs) ts ->
      (forall i, In i ts -> In i (map ao_id bs) \/ a_missing T i = MProvidable \/ (a_missing T i = MNone /\ required (t_wrap (a_type T i)) = false)) ->
      Forall2 (fun f e => create_argument sid key f = Some e) bs l -> Forall2 good_afield bs l ->
      forall x, afills (AInput (map (fun e => (fst e, snd (snd e))) l)) x -> valid t (t_wrap (a_type T t)) x.
    Proof.
      intros W A ND Inc All Cr Good x F. rewrite W. inversion F as [|? es FE]. subst.
      assert (K : map fst es = map key (map ao_id bs)).
      { clear - Cr FE. revert es FE. induction Cr as [|f e bs l C _ IH]; intros es FE; inversion FE as [|? ? ? ? [E _] FE']; subst; [reflexivity|].
        cbn [map fst] in *. rewrite <- E, (create_argument_id _ _ C), (IH _ FE'). reflexivity. }
      apply (VdObject _ _ _ _ o ts); [exact A| | |].
      - rewrite K. exact (NoDup_keys _ _ ND Inc (H_keys _ _ _ A)).
      - intros k y I.
        assert (W' : Forall2 (fun f e => fst e = key (ao_id f) /\ valid (ao_id f) (t_wrap (a_type T (ao_id f))) (snd e)) bs es).
        { clear - Cr Good FE. revert es FE Good. induction Cr as [|f e bs l C _ IH]; intros es FE Good; inversion FE as [|? ? ? ? [E G] FE']; subst; [constructor|].
          inversion Good as [|? ? ? ? Ge Good']. subst. constructor; [|apply IH; assumption]. cbn [fst snd] in *. split; [|exact (Ge _ G)].
          rewrite <- E, (create_argument_id _ _ C). reflexivity. }
        destruct (Forall2_in_r _ _ _ _ W' I) as (f & If & E & V). exists (ao_id f). split; [apply Inc, in_map, If|]. split; [symmetry; exact E|exact V].
      - intros i I R M. rewrite K. destruct (All i I) as [J|[M'|[_ R']]]; try congruence. apply in_map, J.
    Qed.

    Lemma argument_filled src : close src sa -> forall v t b, bind_value g strings T src t v = Some b -> clear_argument g T sa t b ->
      forall e x, create_value sid key t b = Some e -> afills (snd (snd e)) x -> valid t (t_wrap (a_type T t)) x.
    Proof.
      intros Cl. destruct filled_all as (FV & _ & FF).
      assert (Val : forall v t bv, bind_selected g strings T src t (t_wrap (a_type T t)) v = Some bv -> clear g sa bv ->
        forall e x, create_argument sid key (AOField t (AFValue (BFValue bv))) = Some e -> afills (snd (snd e)) x -> valid t (t_wrap (a_type T t)) x).
      { intros v t bv B Cc e x C F. apply create_argument_value in C. destruct C as (s & i & C & ->). cbn [snd] in F. inversion F as [? ? F'|]. subst.
        exact (proj2 (FV _ _ _ _ _ B _ Cl Cc _ _ C) _ _ _ H_typed F'). }
      set (P := fun v => forall t b, bind_value g strings T src t v = Some b -> clear_argument g T sa t b ->
        forall e x, create_value sid key t b = Some e -> afills (snd (snd e)) x -> valid t (t_wrap (a_type T t)) x).
      set (Q := fun e => forall fields, e = EObject None fields -> P (Value [e])).
      set (R := fun f => forall ts b ts', bind_afield g strings T src ts f = Some (b, ts') -> clear_afield g T sa b ->
        forall e, create_argument sid key b = Some e -> good_afield b e).
      assert (HV : forall l, Forall Q l -> P (Value l)).
      { intros l F t b B. destruct (bind_value_cases _ _ _ _ _ _ _ B) as [(fields & [= ->] & _)|(bv & B' & ->)].
        - inversion F as [|? ? H _]. subst. exact (H fields eq_refl t b B).
        - intros Cc. inversion Cc as [? ? ? Cv|]. subst. exact (Val _ _ _ B' Cv). }
      refine (value_rec_ P Q R HV _ _ _ _ _ _).
      - intros ? E. discriminate.
      - intros ? ? E. discriminate.
      - intros p l F fields [= -> ->] t b B Cc e x C Fa. destruct (bind_value_cases _ _ _ _ _ _ _ B) as [(fields' & [= <-] & B')|(bv & B' & ->)].
        2: { inversion Cc as [? ? ? Cv|]. subst. exact (Val _ _ _ B' Cv e x C Fa). }
        apply bind_one_inv in B'. destruct B' as (o & ts & bs & ts' & ds & A & B' & _ & Fl & ->).
        inversion Cc as [|? ? bw ? Wr Cf]. subst. unfold create_value in C. rewrite create_aobject_eq in C. apply create_afields_spec in C.
        destruct C as (es & Fe & ->). cbn [snd app] in Fa.
        destruct (bind_afields_spec _ _ _ _ _ _ _ _ B') as [Pm F2].
        destruct (fill_ok _ ao_id (fun t x => AOField t (AFValue (BFDefault x))) (fun _ _ => eq_refl) _ _ _ Fl) as (ds' & Ed & Dd & Nd & Al).
        apply app_inv_head in Ed. subst ds'.
        assert (ND : NoDup (map ao_id bs ++ ts')) by (apply (Permutation_NoDup Pm); exact (H_ids _ _ _ A)).
        refine (aobject_fits t bw o ts (bs ++ ds) es Wr A _ _ _ Fe _ x Fa).
        + apply Nd. clear - ND. induction (map ao_id bs) as [|y m IH]; [constructor|]. cbn [app] in ND. inversion ND as [|? ? N' ND']. subst. constructor; [|exact (IH ND')].
          intros I. apply N', in_or_app. left. exact I.
        + intros y I. apply (Permutation_in _ (Permutation_sym Pm)). rewrite map_app in I. apply in_or_app. apply in_app_or in I. destruct I as [I|I]; [left; exact I|right].
          apply in_map_iff in I. destruct I as (f & <- & I). rewrite Forall_forall in Dd. destruct (Dd f I) as (t0 & y & -> & _ & J). exact J.
        + intros y I. apply (Permutation_in _ Pm) in I. apply in_app_or in I. destruct I as [I|I].
          * left. rewrite map_app. apply in_or_app. left. exact I.
          * exact (Al y I).
        + apply Forall2_app_inv_l in Fe. destruct Fe as (e1 & e2 & F3 & F4 & ->). apply Forall_app in Cf. destruct Cf as [Cf Cd]. apply Forall2_app.
          * clear - F F2 F3 Cf. revert e1 F3 Cf F. induction F2 as [|f b l bs (ts1 & ts2 & Hb) _ IH]; intros e1 F3 Cf F; inversion F3 as [|? ? ? ? Ce F3']; subst; [constructor|].
            inversion Cf as [|? ? Cb Cf']. inversion F as [|? ? Rf F']. subst. constructor; [exact (Rf _ _ _ Hb Cb _ Ce)|apply IH; assumption].
          * clear - F4 Dd Cd H_default H_typed. revert Dd Cd. induction F4 as [|f e ds e2 Ce _ IH]; intros Dd Cd; [constructor|].
            inversion Dd as [|? ? (t0 & y & -> & M & _) Dd']. inversion Cd as [|? ? Cc Cd']. subst.
            constructor; [|exact (IH Dd' Cd')]. apply create_argument_value in Ce. destruct Ce as (s & i & [= <- <-] & ->).
            intros z Fz. cbn [snd] in Fz. inversion Fz as [? ? Fi|]. subst. cbn [ao_id].
            inversion Cc as [| | |d ? ? Cm]. subst. destruct (bare _ _ _ _ _ H_typed Fi) as (t' & U & D' & F'). apply H_default. rewrite M. f_equal.
            inversion D' as [| ? ? ? ? ? NC|? ? ? _ Rn| |]; subst; try contradiction; [cbn in Rn; discriminate|].
            inversion F' as [| | |? ? ? ? ? ? FO]. subst. inversion FO. reflexivity.
      - intros ? ? ? ? E. discriminate.
      - intros k ts b ts' B Cc e C x Fa. apply bind_afield_inv in B. destruct B as (t & bf & B & ->). cbn [ao_id].
        apply bind_ofield_inv in B. destruct B as (t' & _ & f & _ & _ & K & [= <- ->]).
        apply create_argument_value in C. destruct C as (s & i & [= <- <-] & ->). cbn [snd] in Fa. inversion Fa as [? ? F'|]. subst.
        inversion Cc as [| |d ? ? Cm|]. subst. exact (short_good d f t Cm K _ _ _ H_typed F').
      - intros k v Pv ts b ts' B Cc e C x Fa. apply bind_afield_inv in B. destruct B as (t & bv & _ & B & ->). cbn [ao_id].
        destruct bv as [l|bv]; cbn [as_afield] in *.
        + inversion Cc as [? ? ? Ca| | |]. subst. exact (Pv t _ B Ca e x C Fa).
        + inversion Cc as [|? ? ? Cv| |]. subst. exact (Pv t _ B (CaValue g T sa t bv Cv) e x C Fa).
    Qed.
  End Data.
End Fill.
