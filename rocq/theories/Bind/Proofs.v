(** Runs of the binder against the specification: diagnostics, the bound tree, sizes, termination *)
From Coq Require Import String List Bool Arith Lia Permutation.
From Verif.Bind Require Import Model Spec Run Args.
Import ListNotations.
Local Open Scope string_scope.
Local Open Scope nat_scope.
Local Open Scope list_scope.

Definition prefix {A} (l l' : list A) : Prop := exists r, l' = l ++ r.
Lemma prefix_refl {A} (l : list A) : prefix l l.
Proof. exists []. now rewrite app_nil_r. Qed.
Lemma prefix_trans {A} (a b c : list A) : prefix a b -> prefix b c -> prefix a c.
Proof. intros [x ->] [y ->]. exists (x ++ y). now rewrite app_assoc. Qed.
Lemma prefix_app {A} (l r : list A) : prefix l (l ++ r).
Proof. now exists r. Qed.
Lemma prefix_nth {A} (l l' : list A) n x : prefix l l' -> nth_error l n = Some x -> nth_error l' n = Some x.
Proof. intros [r ->] H. rewrite nth_error_app1; [exact H|]. apply nth_error_Some. congruence. Qed.
Lemma prefix_nil {A} (l : list A) : prefix l [] -> l = [].
Proof. intros [r H]. symmetry in H. now apply app_eq_nil in H. Qed.
Lemma prefix_length {A} (l l' : list A) : prefix l l' -> List.length l <= List.length l'.
Proof. intros [r ->]. rewrite app_length. lia. Qed.

Record ext (s s' : state) : Prop := {
  e_data : prefix (st_data s) (st_data s'); e_typ : prefix (st_typenames s) (st_typenames s'); e_inl : prefix (st_inlines s) (st_inlines s');
  e_spr : prefix (st_spreads s) (st_spreads s'); e_frg : prefix (st_frags s) (st_frags s'); e_sha : prefix (st_shared s) (st_shared s');
  e_err : prefix (st_errors s) (st_errors s'); e_div : st_diverged s = true -> st_diverged s' = true }.
Lemma ext_refl s : ext s s.
Proof. constructor; auto using prefix_refl. Qed.
Lemma ext_trans a b c : ext a b -> ext b c -> ext a c.
Proof. intros [] []. constructor; eauto using prefix_trans. Qed.
#[export] Hint Resolve ext_refl prefix_refl prefix_app : ext.
Ltac ext1 := constructor; cbn; auto with ext.
Lemma ext_error e s : ext s (push_error e s). Proof. ext1. Qed.
Lemma ext_errors es : forall s, ext s (push_errors es s).
Proof. unfold push_errors. induction es as [|e es IH]; intros s; cbn [fold_left]; [apply ext_refl|]. eapply ext_trans; [apply ext_error|apply IH]. Qed.
Lemma ext_data x s : ext s (push_data x s). Proof. ext1. Qed.
Lemma ext_typename x s : ext s (push_typename x s). Proof. ext1. Qed.
Lemma ext_inline x s : ext s (push_inline x s). Proof. ext1. Qed.
Lemma ext_spread x s : ext s (push_spread x s). Proof. ext1. Qed.
Lemma ext_frag n x s : ext s (push_frag n x s). Proof. ext1. Qed.
Lemma ext_shared x s : ext s (push_shared x s). Proof. ext1. Qed.
Lemma ext_diverge s : ext s (diverge s). Proof. ext1. Qed.
#[export] Hint Resolve ext_error ext_errors ext_data ext_typename ext_inline ext_spread ext_frag ext_shared ext_diverge : ext.

Lemma errors_push_errors es : forall s, st_errors (push_errors es s) = st_errors s ++ es.
Proof. unfold push_errors. induction es as [|e es IH]; intros s; cbn [fold_left]; [now rewrite app_nil_r|]. rewrite IH. cbn. now rewrite <- app_assoc. Qed.
Lemma map_push_errors es : forall s, st_map (push_errors es s) = st_map s.
Proof. unfold push_errors. induction es as [|e es IH]; intros s; cbn [fold_left]; [reflexivity|]. now rewrite IH. Qed.
Lemma frags_push_errors es : forall s, st_frags (push_errors es s) = st_frags s.
Proof. unfold push_errors. induction es as [|e es IH]; intros s; cbn [fold_left]; [reflexivity|]. now rewrite IH. Qed.
Lemma data_push_errors es : forall s, st_data (push_errors es s) = st_data s.
Proof. unfold push_errors. induction es as [|e es IH]; intros s; cbn [fold_left]; [reflexivity|]. now rewrite IH. Qed.
Lemma typ_push_errors es : forall s, st_typenames (push_errors es s) = st_typenames s.
Proof. unfold push_errors. induction es as [|e es IH]; intros s; cbn [fold_left]; [reflexivity|]. now rewrite IH. Qed.
Lemma inl_push_errors es : forall s, st_inlines (push_errors es s) = st_inlines s.
Proof. unfold push_errors. induction es as [|e es IH]; intros s; cbn [fold_left]; [reflexivity|]. now rewrite IH. Qed.
Lemma spr_push_errors es : forall s, st_spreads (push_errors es s) = st_spreads s.
Proof. unfold push_errors. induction es as [|e es IH]; intros s; cbn [fold_left]; [reflexivity|]. now rewrite IH. Qed.
Lemma sha_push_errors es : forall s, st_shared (push_errors es s) = st_shared s.
Proof. unfold push_errors. induction es as [|e es IH]; intros s; cbn [fold_left]; [reflexivity|]. now rewrite IH. Qed.
Lemma div_push_errors es : forall s, st_diverged (push_errors es s) = st_diverged s.
Proof. unfold push_errors. induction es as [|e es IH]; intros s; cbn [fold_left]; [reflexivity|]. now rewrite IH. Qed.
Global Hint Rewrite errors_push_errors map_push_errors frags_push_errors data_push_errors typ_push_errors inl_push_errors spr_push_errors sha_push_errors div_push_errors : push.

Section Proofs.
Variable S : schema.
Variable D : document.
Hypothesis WF : well_formed S.

(** ** Vectors only grow *)
Lemma run_ext :
  (forall p x s s' o, run S D p x s s' o -> ext s s') /\ (forall p l s s' ids, run_list S D p l s s' ids -> ext s s') /\
  (forall p n s s' r, run_frag S D p n s s' r -> ext s s').
Proof.
  apply run_mutind; intros; eauto with ext.
  - eapply ext_trans; [apply ext_errors|apply ext_typename].
  - eapply ext_trans; [eassumption|]. eapply ext_trans; [apply (ext_shared [])|apply ext_error].
  - eapply ext_trans; [eassumption|]. eapply ext_trans; [apply ext_shared|]. eapply ext_trans; [apply ext_errors|]. eapply ext_trans; [apply ext_errors|apply ext_data].
  - eapply ext_trans; [apply ext_errors|]. eapply ext_trans; [apply ext_errors|apply ext_data].
  - eapply ext_trans; [eassumption|]. eapply ext_trans; [apply ext_shared|]. eapply ext_trans; [apply ext_errors|apply ext_inline].
  - eapply ext_trans; [eassumption|]. eapply ext_trans; [apply ext_shared|]. eapply ext_trans; [apply ext_errors|apply ext_inline].
  - eapply ext_trans; [eassumption|]. eapply ext_trans; [apply ext_errors|apply ext_spread].
  - eapply ext_trans; [eassumption|]. apply ext_error.
  - eapply ext_trans; eassumption.
  - eapply ext_trans; eassumption.
  - eapply ext_trans; [eassumption|]. eapply ext_trans; [apply ext_shared|apply ext_frag].
Qed.

(** ** The memo: fragments by name *)
Definition memo_ok (s : state) : Prop := forall n id, In (n, id) (st_map s) ->
  exists c l t fr, lookup n (doc_frags D) (c, l) /\ visible_composite S c t /\ nth_error (st_frags s) id = Some fr /\ fr_cond fr = t.
Lemma memo_same s s' : st_map s' = st_map s -> prefix (st_frags s) (st_frags s') -> memo_ok s -> memo_ok s'.
Proof.
  intros Em Ef H n id Hi. rewrite Em in Hi. destruct (H _ _ Hi) as [c [l [t [fr [A [B [C E]]]]]]].
  exists c, l, t, fr. split; [exact A|split; [exact B|split; [|exact E]]]. eapply prefix_nth; eauto.
Qed.
Lemma memo_find s n m id : memo_ok s -> find (fun e => String.eqb (fst e) n) (st_map s) = Some (m, id) ->
  exists c l t fr, lookup n (doc_frags D) (c, l) /\ visible_composite S c t /\ nth_error (st_frags s) id = Some fr /\ fr_cond fr = t.
Proof. intros H F. apply find_some in F. destruct F as [F E]. cbn in E. apply String.eqb_eq in E. subst m. now apply H. Qed.
Lemma find_fragment_lookup n b : find_fragment D n = Some b <-> lookup n (doc_frags D) b.
Proof. apply find_lookup. Qed.
Ltac memo1 H := eapply memo_same; [| |exact H]; cbn; autorewrite with push; auto with ext.
Lemma run_memo :
  (forall p x s s' o, run S D p x s s' o -> memo_ok s -> memo_ok s') /\ (forall p l s s' ids, run_list S D p l s s' ids -> memo_ok s -> memo_ok s') /\
  (forall p n s s' r, run_frag S D p n s s' r -> memo_ok s -> memo_ok s').
Proof.
  apply run_mutind; intros;
    try match goal with H : memo_ok ?s |- memo_ok _ => solve [memo1 H] end;
    try match goal with IH : memo_ok ?s -> memo_ok _, H : memo_ok ?s |- memo_ok _ => specialize (IH H); solve [memo1 IH | auto] end.
  match goal with IH : memo_ok ?s -> memo_ok _, H : memo_ok ?s |- _ => specialize (IH H); clear H; rename IH into M end.
  match goal with H : find_fragment D _ = _ |- _ => apply find_fragment_lookup in H; rename H into L end.
  match goal with H : bind_type_condition _ _ _ = _ |- _ => apply condition_ok in H; destruct H as [HV _] end.
  intros n' id [[= <- <-] | Hi].
  - exists c, l, t. eexists. split; [exact L|split; [exact HV|split]].
    + cbn. rewrite nth_error_app2, Nat.sub_diag by lia. reflexivity.
    + reflexivity.
  - cbn in Hi. destruct (M _ _ Hi) as [c' [l' [t' [fr [A [B [C E]]]]]]]. exists c', l', t', fr. split; [exact A|split; [exact B|split; [|exact E]]].
    cbn. eapply prefix_nth; [|exact C]. apply prefix_app.
Qed.

(** ** Diagnostics name what is wrong at some position *)

Lemma none_grows p x s s' : run S D p x s s' None -> List.length (st_errors s) < List.length (st_errors s').
Proof.
  intros H. inversion H; subst; cbn; rewrite app_length; cbn; try lia.
  - match goal with R : run_frag _ _ _ _ _ _ _ |- _ => apply run_ext in R; destruct R as [_ _ _ _ _ _ R _]; apply prefix_length in R; lia end.
Qed.
Lemma empty_list p l s s' : run_list S D p l s s' [] -> List.length (st_errors s) = List.length (st_errors s') -> l = [].
Proof.
  intros H E. inversion H as [|? ? ? ? ? ? ? ? R L|? ? ? ? ? ? ? R L]; subst; [reflexivity|].
  apply none_grows in R. apply run_ext in L. destruct L as [_ _ _ _ _ _ L _]. apply prefix_length in L. lia.
Qed.
Lemma div_back s s' : ext s s' -> st_diverged s' = false -> st_diverged s = false.
Proof. intros [_ _ _ _ _ _ _ H] E. destruct (st_diverged s); [|reflexivity]. rewrite H in E; auto. Qed.

(** ** Diagnostics name what is wrong at some position *)
Section Faults.
Variable root : tid.
Variable sels : list selection.
Notation pos := (position_of S D root sels).
Definition blamed (e : err) : Prop := exists p x, pos p x /\ fault S D p x e.
Lemma blame p x e : pos p x -> fault S D p x e -> blamed e.
Proof. intros. exists p, x. auto. Qed.
Lemma run_blames :
  (forall p x s s' o, run S D p x s s' o -> memo_ok s -> pos p x -> st_diverged s' = false -> forall e, In e (st_errors s') -> In e (st_errors s) \/ blamed e) /\
  (forall p l s s' ids, run_list S D p l s s' ids -> memo_ok s -> (forall x, In x l -> pos p x) -> st_diverged s' = false ->
     forall e, In e (st_errors s') -> In e (st_errors s) \/ blamed e) /\
  (forall p n s s' r, run_frag S D p n s s' r -> memo_ok s -> forall dirs, pos p (Spread n dirs) -> st_diverged s' = false ->
     (forall e, In e (st_errors s') -> In e (st_errors s) \/ blamed e) /\
     match r with inl e => blamed e | inr _ => True end).
Proof.
  apply run_mutind.
  - intros p alias args dirs l s es ds E M P Hd e He. cbn in He. autorewrite with push in He. apply in_app_or in He. destruct He as [He | He]; [auto|]. right.
    eapply blame; [exact P|]. apply Fault_dir. eapply dirs_errors; eauto.
  - intros p alias n args dirs l s Hn K M P Hd e He. cbn in He. apply in_app_or in He. destruct He as [He | [<- | []]]; [auto|]. right.
    eapply blame; [exact P|]. now apply Fault_union.
  - intros p alias n args dirs l s Hn K V M P Hd e He. cbn in He. apply in_app_or in He. destruct He as [He | [<- | []]]; [auto|]. right.
    eapply blame; [exact P|]. apply Fault_field; auto. now apply visible_none.
  - intros p alias n args dirs l s s' f Hn K V C R IH E M P Hd e He. cbn in He, Hd. apply visible_some in V; [|exact K].
    apply in_app_or in He. destruct He as [He | [<- | []]].
    + apply IH; auto. intros x Hx. eapply Pos_field; eauto.
    + right. assert (l = []) by (eapply empty_list; eauto). subst l. eapply blame; [exact P|]. now apply Fault_leaf.
  - intros p alias n args dirs l s s' f ids es avs es' ds Hn K V C R IH _ A E M P Hd e He. cbn in He, Hd. autorewrite with push in He, Hd. cbn in He, Hd.
    apply visible_some in V; [|exact K].
    apply in_app_or in He. destruct He as [He | He].
    + apply in_app_or in He. destruct He as [He | He].
      * apply IH; auto. intros x Hx. eapply Pos_field; eauto.
      * right. eapply blame; [exact P|]. eapply Fault_arg; eauto. eapply args_faults; eauto. apply WF.
    + right. eapply blame; [exact P|]. apply Fault_dir. eapply dirs_errors; eauto.
  - intros p alias n args dirs s f es avs es' ds Hn K V C A E M P Hd e He. cbn in He, Hd. autorewrite with push in He, Hd. cbn in He, Hd.
    apply visible_some in V; [|exact K].
    apply in_app_or in He. destruct He as [He | He].
    + apply in_app_or in He. destruct He as [He | He]; [auto|].
      right. eapply blame; [exact P|]. eapply Fault_arg; eauto. eapply args_faults; eauto. apply WF.
    + right. eapply blame; [exact P|]. apply Fault_dir. eapply dirs_errors; eauto.
  - intros p alias n args dirs l s f Hn K V C Hl M P Hd e He. cbn in He. apply in_app_or in He. destruct He as [He | [<- | []]]; [auto|]. right.
    apply visible_some in V; [|exact K]. eapply blame; [exact P|]. now apply Fault_set.
  - intros p dirs l s s' ids es ds R IH E M P Hd e He. cbn in He, Hd. autorewrite with push in He, Hd. cbn in He, Hd. apply in_app_or in He. destruct He as [He | He].
    + apply IH; auto. intros x Hx. eapply Pos_inline; eauto.
    + right. eapply blame; [exact P|]. apply Fault_dir. eapply dirs_errors; eauto.
  - intros p n dirs l s e T M P Hd e' He. cbn in He. apply in_app_or in He. destruct He as [He | [<- | []]]; [auto|]. right.
    eapply blame; [exact P|]. apply Fault_cond. now apply condition_err.
  - intros p n t dirs l s s' ids es ds T R IH E M P Hd e He. cbn in He, Hd. autorewrite with push in He, Hd. cbn in He, Hd. apply condition_ok in T.
    apply in_app_or in He. destruct He as [He | He].
    + apply IH; auto. intros x Hx. eapply Pos_inline_on; eauto.
    + right. eapply blame; [exact P|]. apply Fault_dir. eapply dirs_errors; eauto.
  - intros p n dirs s s' id es ds R IH E M P Hd e He. cbn in He, Hd. autorewrite with push in He, Hd. cbn in He, Hd.
    destruct (IH M dirs P Hd) as [IH1 _]. apply in_app_or in He. destruct He as [He | He]; [auto|].
    right. eapply blame; [exact P|]. apply Fault_dir. eapply dirs_errors; eauto.
  - intros p n dirs s s' e R IH M P Hd e' He. cbn in He, Hd. destruct (IH M dirs P Hd) as [IH1 IH2].
    apply in_app_or in He. destruct He as [He | [<- | []]]; auto.
  - intros p s M P Hd e He. auto.
  - intros p x l s s' s'' id ids R IH1 L IH2 M P Hd e He.
    destruct (IH2 (proj1 run_memo _ _ _ _ _ R M) (fun x Hx => P x (or_intror Hx)) Hd e He) as [H | H]; [|auto].
    apply IH1; [exact M|apply P; now left| |exact H]. eapply div_back; [|exact Hd]. exact (proj1 (proj2 run_ext) _ _ _ _ _ L).
  - intros p x l s s' s'' ids R IH1 L IH2 M P Hd e He.
    destruct (IH2 (proj1 run_memo _ _ _ _ _ R M) (fun x Hx => P x (or_intror Hx)) Hd e He) as [H | H]; [|auto].
    apply IH1; [exact M|apply P; now left| |exact H]. eapply div_back; [|exact Hd]. exact (proj1 (proj2 run_ext) _ _ _ _ _ L).
  - intros p n s m id fr F N X M dirs P Hd. auto.
  - intros p n s m id fr F N X M dirs P Hd. split; [auto|]. destruct (memo_find _ _ _ _ M F) as [c [l [t [fr' [A [B [C E]]]]]]].
    rewrite N in C. injection C as <-. subst t. eapply blame; [exact P|]. eapply Fault_frag_cond; [exact A|].
    assert (HT : s_tname S (fr_cond fr) = c). { apply WF. now destruct B. } rewrite HT. eapply Fault_disjoint; eauto.
  - intros p n s m id F N M dirs P Hd. auto.
  - intros p n s e F M dirs P Hd. discriminate Hd.
  - intros p n s F N M dirs P Hd. split; [auto|]. eapply blame; [exact P|]. apply Fault_frag. intros b Hb. apply find_fragment_lookup in Hb. congruence.
  - intros p n s c l e F N T M dirs P Hd. split; [auto|]. apply find_fragment_lookup in N. eapply blame; [exact P|]. eapply Fault_frag_cond; eauto. now apply condition_err.
  - intros p n s s' c l t ids F N T R IH M dirs P Hd. split; [|exact Logic.I]. cbn in Hd |- *. apply find_fragment_lookup in N. apply condition_ok in T.
    intros e He. apply IH; auto. intros x Hx. eapply Pos_spread; eauto.
Qed.
End Faults.

(** ** Reading what was bound *)
Scheme reads_min := Minimality for reads Sort Prop
  with reads_set_min := Minimality for reads_set Sort Prop
  with reads_all_min := Minimality for reads_all Sort Prop.
Combined Scheme reads_mutind from reads_min, reads_set_min, reads_all_min.
Lemma slice_prefix {A} (l l' : list A) r : prefix l l' -> snd r <= List.length l -> slice l' r = slice l r.
Proof.
  intros [x ->] H. unfold slice. destruct r as [a b]. cbn [fst snd] in *. rewrite skipn_app, firstn_app, skipn_length.
  destruct (le_lt_dec b a).
  - replace (b - a) with 0 by lia. reflexivity.
  - replace (b - a - (List.length l - a)) with 0 by lia. cbn [firstn]. now rewrite app_nil_r.
Qed.
Lemma reads_ext s s' : ext s s' ->
  (forall id y, reads s id y -> reads s' id y) /\ (forall r ys, reads_set s r ys -> reads_set s' r ys) /\ (forall ids ys, reads_all s ids ys -> reads_all s' ids ys).
Proof.
  intros [E1 E2 E3 E4 E5 E6 _ _]. apply (reads_mutind s); intros; try (econstructor; eauto using prefix_nth; fail).
  - constructor; [apply prefix_length in E6; lia|]. rewrite (slice_prefix (st_shared s)); [assumption|assumption|lia].
Qed.

(** ** What is bound is what the document says *)
Inductive good : tid -> selection -> tree -> Prop :=
| G_typename p alias args dirs l cs :
    (forall e, ~ fault S D p (Field alias "__typename" args dirs l) e) -> conds_of dirs cs ->
    good p (Field alias "__typename" args dirs l) (TTypename (key_of alias "__typename") cs)
| G_field p alias n args dirs l f avs cs subs :
    (forall e, ~ fault S D p (Field alias n args dirs l) e) ->
    n <> "__typename" -> visible_field S p n f -> arg_values args (s_args S f) avs -> conds_of dirs cs ->
    good_all (s_field_type S f) l subs -> good p (Field alias n args dirs l) (TField f (key_of alias n) avs cs subs)
| G_inline p dirs l cs subs :
    (forall e, ~ fault S D p (Inline None dirs l) e) -> conds_of dirs cs -> good_all p l subs -> good p (Inline None dirs l) (TInline None cs subs)
| G_inline_on p n t dirs l cs subs :
    (forall e, ~ fault S D p (Inline (Some n) dirs l) e) -> conds_of dirs cs -> narrows S p n t -> good_all t l subs -> good p (Inline (Some n) dirs l) (TInline (Some t) cs subs)
| G_spread p n dirs c l t cs subs :
    (forall e, ~ fault S D p (Spread n dirs) e) -> conds_of dirs cs -> lookup n (doc_frags D) (c, l) -> narrows S p c t -> good_all t l subs ->
    good p (Spread n dirs) (TSpread t cs subs)
with good_all : tid -> list selection -> list tree -> Prop :=
| G_nil p : good_all p [] []
| G_cons p x l y ys : good p x y -> good_all p l ys -> good_all p (x :: l) (y :: ys).
Scheme good_min := Minimality for good Sort Prop with good_all_min := Minimality for good_all Sort Prop.
Combined Scheme good_mutind from good_min, good_all_min.
Lemma good_resolves : (forall p x y, good p x y -> resolves S D p x y) /\ (forall p l ys, good_all p l ys -> resolves_all S D p l ys).
Proof. apply good_mutind; intros; econstructor; eauto. Qed.
Lemma good_in p l ys x : good_all p l ys -> In x l -> exists y, good p x y.
Proof. intros G. induction G; intros []; subst; eauto. Qed.
Lemma good_positions root sels ys : good_all root sels ys -> forall p x, position_of S D root sels p x -> exists y, good p x y.
Proof.
  intros G p x H. induction H as [x Hx|p alias n args dirs l f x H [y Hy] Hn V C Hx|p dirs l x H [y Hy] Hx|p n t dirs l x H [y Hy] N Hx|p n dirs c l t x H [y Hy] L N Hx].
  - eapply good_in; eauto.
  - inversion Hy; subst; [contradiction|].
    match goal with A : visible_field _ _ _ _, B : visible_field _ _ _ _ |- _ => pose proof (visible_fun _ _ _ _ _ A B); subst end.
    eapply good_in; eauto.
  - inversion Hy; subst. eapply good_in; eauto.
  - inversion Hy; subst. match goal with A : narrows _ _ _ _, B : narrows _ _ _ _ |- _ => pose proof (narrows_fun _ _ _ _ _ A B); subst end. eapply good_in; eauto.
  - inversion Hy; subst.
    match goal with A : lookup _ _ _, B : lookup _ _ _ |- _ => pose proof (lookup_fun _ _ _ _ A B) as E; injection E as -> -> end.
    match goal with A : narrows _ _ _ _, B : narrows _ _ _ _ |- _ => pose proof (narrows_fun _ _ _ _ _ A B); subst end. eapply good_in; eauto.
Qed.
Lemma good_no_fault p x y e : good p x y -> ~ fault S D p x e.
Proof. intros G. inversion G; auto. Qed.

Definition bound (s : state) (n : name) (id : nat) : Prop :=
  exists c l t fr subs, lookup n (doc_frags D) (c, l) /\ visible_composite S c t /\ nth_error (st_frags s) id = Some fr /\ fr_cond fr = t /\
    good_all t l subs /\ reads_set s (fr_set fr) subs.
Definition all_bound (s : state) : Prop := forall n id, In (n, id) (st_map s) -> bound s n id.
Lemma bound_ext s s' n id : ext s s' -> bound s n id -> bound s' n id.
Proof.
  intros E [c [l [t [fr [subs [A [B [C [F [G R]]]]]]]]]]. exists c, l, t, fr, subs. split; [exact A|split; [exact B|split; [|split; [exact F|split; [exact G|]]]]].
  - eapply prefix_nth; [apply E|exact C].
  - eapply reads_ext; eauto.
Qed.
Lemma all_bound_same s s' : st_map s' = st_map s -> ext s s' -> all_bound s -> all_bound s'.
Proof. intros Em E H n id Hi. rewrite Em in Hi. eapply bound_ext; eauto. Qed.
Lemma set_of_reads s ids ys : reads_all s ids ys -> reads_set (push_shared ids s) (set_of s ids) ys.
Proof.
  intros H. constructor; cbn [set_of fst snd push_shared st_shared].
  - rewrite app_length. lia.
  - unfold slice, set_of. cbn [fst snd].
    replace (List.length (st_shared s) + List.length ids - List.length (st_shared s)) with (List.length ids) by lia.
    rewrite skipn_app, skipn_all, Nat.sub_diag. cbn [skipn app]. rewrite firstn_all. eapply reads_ext; [apply ext_shared|exact H].
Qed.
Lemma no_fault_field p alias n args dirs l f :
  n <> "__typename" -> visible_field S p n f -> (forall e, ~ arg_fault S f args e) -> (forall e, ~ dir_fault S dirs e) ->
  (composite (s_kind S (s_field_type S f)) = true <-> l <> []) -> forall e, ~ fault S D p (Field alias n args dirs l) e.
Proof.
  intros Hn V FA FD C e H. inversion H; subst.
  - destruct V. contradiction.
  - match goal with X : forall f, ~ visible_field _ _ _ f |- _ => destruct (X _ V) end.
  - match goal with X : visible_field _ _ _ ?g |- _ => pose proof (visible_fun _ _ _ _ _ V X); subst g end. match goal with X : composite _ = true |- _ => apply C in X; now apply X end.
  - match goal with X : visible_field _ _ _ ?g |- _ => pose proof (visible_fun _ _ _ _ _ V X); subst g end. match goal with X : l <> [] |- _ => apply C in X; congruence end.
  - match goal with X : visible_field _ _ _ ?g |- _ => pose proof (visible_fun _ _ _ _ _ V X); subst g end. eapply FA; eauto.
  - eapply FD; eauto.
Qed.

Lemma app_nil_both {A} (a b : list A) : a ++ b = [] -> a = [] /\ b = [].
Proof. apply app_eq_nil. Qed.
Lemma err_back s s' : ext s s' -> st_errors s' = [] -> st_errors s = [].
Proof. intros [_ _ _ _ _ _ H _] E. rewrite E in H. now apply prefix_nil in H. Qed.
Lemma run_good :
  (forall p x s s' o, run S D p x s s' o -> all_bound s -> st_diverged s' = false -> st_errors s' = [] ->
     all_bound s' /\ exists id y, o = Some id /\ good p x y /\ reads s' id y) /\
  (forall p l s s' ids, run_list S D p l s s' ids -> all_bound s -> st_diverged s' = false -> st_errors s' = [] ->
     all_bound s' /\ exists ys, good_all p l ys /\ reads_all s' ids ys) /\
  (forall p n s s' r, run_frag S D p n s s' r -> all_bound s -> st_diverged s' = false -> st_errors s' = [] ->
     all_bound s' /\ forall id, r = inr id -> bound s' n id /\ forall c l, lookup n (doc_frags D) (c, l) -> exists t, narrows S p c t).
Proof.
  assert (Hfalse : forall (l : list err) e, l ++ [e] = [] -> False) by (intros l e H; apply app_eq_nil in H; destruct H; discriminate).
  apply run_mutind.
  - intros p alias args dirs l s es ds E B Hd He. cbn in Hd, He. autorewrite with push in Hd, He. apply app_eq_nil in He. destruct He as [He ->].
    apply dirs_ok in E. destruct E as [E F]. split.
    + eapply all_bound_same; [| |exact B]; [reflexivity|apply ext_typename].
    + do 2 eexists. split; [reflexivity|split].
      * apply G_typename; [|exact E]. intros e H. inversion H; subst; try contradiction. eapply F; eauto.
      * change (key alias "__typename") with (tf_key {| tf_key := key alias "__typename"; tf_dirs := ds |}).
        replace (TTypename _ ds) with (TTypename (tf_key {| tf_key := key alias "__typename"; tf_dirs := ds |}) (tf_dirs {| tf_key := key alias "__typename"; tf_dirs := ds |})) by reflexivity.
        apply Rd_typename. cbn. rewrite nth_error_app2, Nat.sub_diag by lia. reflexivity.
  - intros p alias n args dirs l s Hn K B Hd He. cbn in He. now apply Hfalse in He.
  - intros p alias n args dirs l s Hn K V B Hd He. cbn in He. now apply Hfalse in He.
  - intros p alias n args dirs l s s' f Hn K V C R IH E B Hd He. cbn in He. now apply Hfalse in He.
  - intros p alias n args dirs l s s' f ids es avs es' ds Hn K V C R IH HI A E B Hd He. cbn in He, Hd. autorewrite with push in He, Hd. cbn in He, Hd.
    apply app_eq_nil in He. destruct He as [He ->]. apply app_eq_nil in He. destruct He as [He ->].
    destruct (IH B Hd He) as [B' [ys [G RD]]]. apply visible_some in V; [|exact K]. apply dirs_ok in E. destruct E as [E F].
    apply args_ok in A; [|apply WF]. destruct A as [A FA].
    assert (Hl : l <> []).
    { intros ->. inversion R; subst. destruct HI as [H | H]; apply H; reflexivity. }
    set (df := {| df_def := f; df_key := key alias n; df_args := avs; df_dirs := ds; df_set := set_of s' ids |}).
    assert (X : ext (push_shared ids s') (push_data df (push_errors [] (push_errors [] (push_shared ids s'))))) by apply ext_data.
    split.
    + eapply all_bound_same; [| |exact B']; [reflexivity|]. eapply ext_trans; [apply ext_shared|exact X].
    + eexists. exists (TField (df_def df) (df_key df) (df_args df) (df_dirs df) ys). split; [reflexivity|split].
      * apply G_field; auto. eapply no_fault_field; eauto. split; [auto|]. intros _. exact C.
      * apply Rd_field.
        -- cbn. rewrite nth_error_app2, Nat.sub_diag by lia. reflexivity.
        -- eapply reads_ext; [exact X|]. cbn [df_set df]. now apply set_of_reads.
  - intros p alias n args dirs s f es avs es' ds Hn K V C A E B Hd He. cbn in He, Hd. autorewrite with push in He, Hd. cbn in He, Hd.
    apply app_eq_nil in He. destruct He as [He ->]. apply app_eq_nil in He. destruct He as [He ->].
    apply visible_some in V; [|exact K]. apply dirs_ok in E. destruct E as [E F].
    apply args_ok in A; [|apply WF]. destruct A as [A FA].
    set (df := {| df_def := f; df_key := key alias n; df_args := avs; df_dirs := ds; df_set := (0, 0) |}).
    split.
    + eapply all_bound_same; [| |exact B]; [reflexivity|]. apply ext_data.
    + eexists. exists (TField (df_def df) (df_key df) (df_args df) (df_dirs df) []). split; [reflexivity|split].
      * apply G_field; auto; [|constructor]. eapply no_fault_field; eauto. rewrite C. split; [discriminate|]. intros H; exfalso; now apply H.
      * apply Rd_field.
        -- cbn. rewrite nth_error_app2, Nat.sub_diag by lia. reflexivity.
        -- constructor; [cbn; lia|]. cbn. constructor.
  - intros p alias n args dirs l s f Hn K V C Hl B Hd He. cbn in He. now apply Hfalse in He.
  - intros p dirs l s s' ids es ds R IH E B Hd He. cbn in He, Hd. autorewrite with push in He, Hd. cbn in He, Hd.
    apply app_eq_nil in He. destruct He as [He ->]. destruct (IH B Hd He) as [B' [ys [G RD]]]. apply dirs_ok in E. destruct E as [E F].
    set (i := {| in_cond := None; in_dirs := ds; in_set := set_of s' ids |}).
    assert (X : ext (push_shared ids s') (push_inline i (push_errors [] (push_shared ids s')))) by apply ext_inline.
    split.
    + eapply all_bound_same; [| |exact B']; [reflexivity|]. eapply ext_trans; [apply ext_shared|exact X].
    + eexists. exists (TInline (in_cond i) (in_dirs i) ys). split; [reflexivity|split].
      * apply G_inline; auto. intros e H. inversion H; subst. eapply F; eauto.
      * apply Rd_inline.
        -- cbn. rewrite nth_error_app2, Nat.sub_diag by lia. reflexivity.
        -- eapply reads_ext; [exact X|]. cbn [in_set i]. now apply set_of_reads.
  - intros p n dirs l s e T B Hd He. cbn in He. now apply Hfalse in He.
  - intros p n t dirs l s s' ids es ds T R IH E B Hd He. cbn in He, Hd. autorewrite with push in He, Hd. cbn in He, Hd.
    apply app_eq_nil in He. destruct He as [He ->]. destruct (IH B Hd He) as [B' [ys [G RD]]]. apply dirs_ok in E. destruct E as [E F]. apply condition_ok in T.
    set (i := {| in_cond := Some t; in_dirs := ds; in_set := set_of s' ids |}).
    assert (X : ext (push_shared ids s') (push_inline i (push_errors [] (push_shared ids s')))) by apply ext_inline.
    split.
    + eapply all_bound_same; [| |exact B']; [reflexivity|]. eapply ext_trans; [apply ext_shared|exact X].
    + eexists. exists (TInline (in_cond i) (in_dirs i) ys). split; [reflexivity|split].
      * apply G_inline_on; auto. intros e H. inversion H; subst; [eapply F; eauto|]. eapply narrows_no_fault; eauto.
      * apply Rd_inline.
        -- cbn. rewrite nth_error_app2, Nat.sub_diag by lia. reflexivity.
        -- eapply reads_ext; [exact X|]. cbn [in_set i]. now apply set_of_reads.
  - intros p n dirs s s' id es ds R IH E B Hd He. cbn in He, Hd. autorewrite with push in He, Hd. cbn in He, Hd.
    apply app_eq_nil in He. destruct He as [He ->]. destruct (IH B Hd He) as [B' BN]. destruct (BN _ eq_refl) as [[c [l [t [fr [subs [L [V [N [F [G RD]]]]]]]]]] NW].
    apply dirs_ok in E. destruct E as [E FD]. destruct (NW _ _ L) as [t' NR].
    assert (t' = t) by (destruct NR as [[X _ _] _]; destruct V as [Y _ _]; congruence). subst t'.
    set (sp := {| sp_frag := id; sp_dirs := ds |}).
    assert (X : ext s' (push_spread sp (push_errors [] s'))) by apply ext_spread.
    split.
    + eapply all_bound_same; [| |exact B']; [reflexivity|exact X].
    + eexists. exists (TSpread (fr_cond fr) (sp_dirs sp) subs). split; [reflexivity|split].
      * rewrite F. eapply G_spread; eauto. intros e H. inversion H; subst.
        -- eapply FD; eauto.
        -- match goal with Q : forall b, ~ lookup _ _ b |- _ => exact (Q _ L) end.
        -- match goal with Q : lookup _ _ _ |- _ => pose proof (lookup_fun _ _ _ _ L Q) as EQ; injection EQ as <- <- end. eapply narrows_no_fault; eauto.
      * apply Rd_spread.
        -- cbn. rewrite nth_error_app2, Nat.sub_diag by lia. reflexivity.
        -- exact N.
        -- eapply reads_ext; [exact X|exact RD].
  - intros p n dirs s s' e R IH B Hd He. cbn in He. now apply Hfalse in He.
  - intros p s B Hd He. split; [exact B|]. exists []. split; constructor.
  - intros p x l s s' s'' id ids R IH1 L IH2 B Hd He.
    pose proof (proj1 (proj2 run_ext) _ _ _ _ _ L) as X.
    destruct (IH1 B (div_back _ _ X Hd) (err_back _ _ X He)) as [B' [id' [y [[= <-] [G RD]]]]].
    destruct (IH2 B' Hd He) as [B'' [ys [GS RDS]]]. split; [exact B''|]. exists (y :: ys). split; [now constructor|]. constructor; [|exact RDS].
    eapply reads_ext; eauto.
  - intros p x l s s' s'' ids R IH1 L IH2 B Hd He.
    pose proof (proj1 (proj2 run_ext) _ _ _ _ _ L) as X.
    destruct (IH1 B (div_back _ _ X Hd) (err_back _ _ X He)) as [B' [id' [y [Q _]]]]. discriminate.
  - intros p n s m id fr F N X B Hd He. split; [exact B|]. intros id' [= <-]. apply find_some in F. destruct F as [F EQ]. cbn in EQ. apply String.eqb_eq in EQ. subst m.
    pose proof (B _ _ F) as BN. split; [exact BN|]. intros c l L. destruct BN as [c' [l' [t [fr' [subs [L' [V [N' [Hf _]]]]]]]]].
    pose proof (lookup_fun _ _ _ _ L L') as EQ. injection EQ as -> ->. rewrite N in N'. injection N' as <-. exists t. split; [exact V|]. congruence.
  - intros p n s m id fr F N X B Hd He. split; [exact B|]. discriminate.
  - intros p n s m id F N B Hd He. exfalso. apply find_some in F. destruct F as [F _]. destruct (B _ _ F) as [c [l [t [fr [subs [_ [_ [N' _]]]]]]]]. congruence.
  - intros p n s e F B Hd He. discriminate Hd.
  - intros p n s F N B Hd He. split; [exact B|]. discriminate.
  - intros p n s c l e F N T B Hd He. split; [exact B|]. discriminate.
  - intros p n s s' c l t ids F N T R IH B Hd He. cbn in Hd, He. destruct (IH B Hd He) as [B' [ys [G RD]]].
    apply find_fragment_lookup in N. apply condition_ok in T.
    set (fr := {| fr_cond := t; fr_set := set_of s' ids |}).
    assert (X : ext (push_shared ids s') (push_frag n fr (push_shared ids s'))) by apply ext_frag.
    assert (BN : bound (push_frag n fr (push_shared ids s')) n (List.length (st_frags (push_shared ids s')))).
    { exists c, l, t, fr, ys. split; [exact N|split; [now destruct T|split; [|split; [reflexivity|split; [exact G|]]]]].
      - cbn. rewrite nth_error_app2, Nat.sub_diag by lia. reflexivity.
      - eapply reads_ext; [exact X|]. cbn [fr_set fr]. now apply set_of_reads. }
    split.
    + intros n' id' [[= <- <-] | Hi]; [exact BN|]. eapply bound_ext; [exact X|]. eapply bound_ext; [apply ext_shared|]. apply B'. exact Hi.
    + intros id [= <-]. split; [exact BN|]. intros c' l' L'. pose proof (lookup_fun _ _ _ _ N L') as EQ. injection EQ as <- <-. now exists t.
Qed.

(** ** Whole operations *)
Theorem bind_root_good fuel root sels s r :
  bind_root S D fuel root sels = (s, r) -> st_diverged s = false -> st_errors s = [] -> exists ys, good_all root sels ys /\ reads_set s r ys.
Proof.
  intros H Hd He. destruct (bind_root_runs S D fuel root sels) as [s0 [ids [R E]]]. rewrite E in H. injection H as <- <-. cbn in Hd, He.
  destruct (proj1 (proj2 run_good) _ _ _ _ _ R) as [_ [ys [G RD]]]; auto. { intros n id []. }
  exists ys. split; [exact G|]. now apply set_of_reads.
Qed.
Theorem bind_root_blames fuel root sels s r :
  bind_root S D fuel root sels = (s, r) -> st_diverged s = false -> forall e, In e (st_errors s) -> blamed root sels e.
Proof.
  intros H Hd e He. destruct (bind_root_runs S D fuel root sels) as [s0 [ids [R E]]]. rewrite E in H. injection H as <- <-. cbn in Hd, He.
  destruct (proj1 (proj2 (run_blames root sels)) _ _ _ _ _ R) with (e := e) as [[] | H]; auto.
  - intros n id [].
  - intros x Hx. now apply Pos_root.
Qed.
Theorem bind_root_accepts fuel root sels s r :
  bind_root S D fuel root sels = (s, r) -> st_diverged s = false ->
  (st_errors s = [] <-> forall p x e, position_of S D root sels p x -> ~ fault S D p x e).
Proof.
  intros H Hd. split.
  - intros He p x e HP. destruct (bind_root_good _ _ _ _ _ H Hd He) as [ys [G _]]. destruct (good_positions _ _ _ G _ _ HP) as [y Gy]. eapply good_no_fault; eauto.
  - intros HF. destruct (st_errors s) as [|e es] eqn:E; [reflexivity|]. exfalso.
    destruct (bind_root_blames _ _ _ _ _ H Hd e) as [p [x [HP F]]]; [rewrite E; now left|]. eapply HF; eauto.
Qed.
End Proofs.
