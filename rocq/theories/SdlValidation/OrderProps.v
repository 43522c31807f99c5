(* C66: the order of the definitions of a document. *)
From Coq Require Import Ascii String List Bool Arith Lia Permutation.
From Verif.SdlValidation Require Import Model Spec Facts CheckFacts CycleFacts DocFacts ReportProps Textbook TextbookFacts TextbookProps TextbookCheck ValidProps PanicCycleProps.
Import ListNotations.
Local Open Scope string_scope.
Local Open Scope list_scope.

(* ------------------------------------------------------------------- lists *)

Lemma pairs_iff : forall {A} (Q : A -> A -> Prop) l,
  ForallOrdPairs Q l <-> forall a x b y c, l = a ++ x :: b ++ y :: c -> Q x y.
Proof.
  intros A Q l. split.
  - intros H. induction H as [|z l H1 H2 IH]; intros a x b y c E.
    + now destruct a.
    + destruct a as [|w a]; cbn in E; injection E as -> ->.
      * rewrite Forall_forall in H1. apply H1. apply in_app_iff. right. now left.
      * now apply (IH a x b y c).
  - induction l as [|z l IH]; intros H; constructor.
    + apply Forall_forall. intros y Hy. apply in_split in Hy. destruct Hy as (b & c & ->). now apply (H [] z b y c).
    + apply IH. intros a x b y c ->. now apply (H (z :: a) x b y c).
Qed.

Lemma pairs_moved : forall {A} (Q : A -> A -> Prop) l l', (forall x y, Q x y -> Q y x) ->
  Permutation l l' -> ForallOrdPairs Q l -> ForallOrdPairs Q l'.
Proof.
  intros A Q l l' HS P. induction P as [|x l l' P IH|x y l|l l1 l2 P1 IH1 P2 IH2]; intros H.
  - exact H.
  - inversion H as [|? ? H1 H2]; subst. constructor; [|auto]. now apply (Permutation_Forall P).
  - inversion H as [|? ? H1 H2]; subst. inversion H2 as [|? ? H3 H4]; subst.
    inversion H1 as [|? ? H5 H6]; subst. constructor; [constructor; auto|]. now constructor.
  - auto.
Qed.

Lemma one_last : forall {A} (P : A -> Prop) l x,
  ForallOrdPairs (fun a b => P a -> ~ P b) l -> (last_with P l x <-> In x l /\ P x).
Proof.
  intros A P l x H. split; [apply last_with_in|]. intros [Hin HP]. apply in_split in Hin. destruct Hin as (a & b & ->).
  exists a, b. split; [reflexivity|]. split; [exact HP|]. apply Forall_forall. intros y Hy.
  apply in_split in Hy. destruct Hy as (c & d & ->). rewrite pairs_iff in H. now apply (H a x c y d).
Qed.

Lemma one_first : forall {A} (P : A -> Prop) l x,
  ForallOrdPairs (fun a b => P a -> ~ P b) l -> (first_with P l x <-> In x l /\ P x).
Proof.
  intros A P l x H. split; [apply first_with_in|]. intros [Hin HP]. apply in_split in Hin. destruct Hin as (a & b & ->).
  exists a, b. split; [reflexivity|]. split; [exact HP|]. apply Forall_forall. intros y Hy HY.
  apply in_split in Hy. destruct Hy as (c & d & ->). rewrite pairs_iff in H.
  refine (H c y d x b _ HY HP). now rewrite <- app_assoc.
Qed.

Lemma twice_moved : forall (l l' : list name) x, Permutation l l' -> twice l x -> twice l' x.
Proof.
  intros l l' x P (a & b & c & ->).
  assert (Hin : In x l'). { apply (Permutation_in _ P). apply in_app_iff. right. now left. }
  apply in_split in Hin. destruct Hin as (l1 & l2 & ->).
  apply Permutation_app_inv in P.
  assert (Hin : In x (l1 ++ l2)).
  { apply (Permutation_in _ P). rewrite !in_app_iff. cbn [In]. tauto. }
  apply in_app_iff in Hin. destruct Hin as [Hin|Hin]; apply in_split in Hin; destruct Hin as (p & q & ->).
  - exists p, q, l2. now rewrite <- app_assoc.
  - now exists l1, p, q.
Qed.

(* -------------------------------------------------------- what is asked for *)

(* Where types may be extended that aren't defined, they are so once. *)
Definition extended_once (opts : options) (doc : document) : Prop :=
  forbid_unknown opts = false -> forall n, undefined doc n -> forall a x b y c, doc = a ++ x :: b ++ y :: c -> type_ext n x -> ~ type_ext n y.

Definition unambiguous (opts : options) (doc : document) : Prop :=
  holds TypeNamesUnique doc /\ holds DirectiveNamesUnique doc /\
  (forall o, holds (FieldNamesUnique o) doc) /\ extended_once opts doc.

Lemma parts_moved : forall {A} (part : kind -> list A) doc doc' n, Permutation doc doc' ->
  Permutation (extension_parts part doc n) (extension_parts part doc' n).
Proof. intros. unfold extension_parts. now apply Permutation_flat_map. Qed.

Lemma declares_moved : forall doc doc' n dirs k, Permutation doc doc' -> declares doc n dirs k -> declares doc' n dirs k.
Proof. intros doc doc' n dirs k P H. now apply (Permutation_in _ P). Qed.

Lemma undefined_moved : forall doc doc' n, Permutation doc doc' -> undefined doc n -> undefined doc' n.
Proof.
  intros doc doc' n P H. rewrite undefined_none in *. intros dirs k Hd. apply (H dirs k).
  apply (declares_moved doc'); [now apply Permutation_sym|exact Hd].
Qed.

Lemma once_moved : forall (P : name -> definition -> Prop) n doc doc', Permutation doc doc' ->
  (forall a x b y c, doc = a ++ x :: b ++ y :: c -> P n x -> ~ P n y) ->
  (forall a x b y c, doc' = a ++ x :: b ++ y :: c -> P n x -> ~ P n y).
Proof.
  intros P n doc doc' HP H. apply (pairs_iff (fun x y => P n x -> ~ P n y)).
  apply (pairs_moved _ doc); [|exact HP|].
  - intros x y Q H1 H2. now apply Q.
  - apply pairs_iff. exact H.
Qed.

Lemma unambiguous_moved : forall opts doc doc', Permutation doc doc' -> unambiguous opts doc -> unambiguous opts doc'.
Proof.
  intros opts doc doc' P (HT & HD & HF & HE). split; [|split; [|split]].
  - intros n. apply (once_moved type_def n doc doc' P). exact (HT n).
  - intros n. apply (once_moved directive_def n doc doc' P). exact (HD n).
  - intros o n is fs (dirs & k & Hd & HO & -> & ->).
    assert (HN : NoDup (map f_name (merged fields_part doc n k))).
    { apply (HF o n (merged implements_part doc n k)). exists dirs, k. split; [|auto].
      now apply (declares_moved doc'); [apply Permutation_sym|]. }
    apply (Permutation_NoDup (l := map f_name (merged fields_part doc n k))); [|exact HN].
    apply Permutation_map, Permutation_app_head, parts_moved, P.
  - intros HO n HU. apply (once_moved type_ext n doc doc' P). apply (HE HO).
    now apply (undefined_moved doc'); [apply Permutation_sym|].
Qed.

Section Moved.
Variables (opts : options) (doc doc' : document).
Hypothesis P : Permutation doc doc'.
Hypothesis U : unambiguous opts doc.

Lemma in_moved : forall d, In d doc -> In d doc'.
Proof. intros d. exact (Permutation_in d P). Qed.

Lemma in_moved_back : forall d, In d doc' -> In d doc.
Proof. intros d. exact (Permutation_in d (Permutation_sym P)). Qed.

Lemma in_merged_moved : forall {A} (part : kind -> list A) n base x,
  In x (base ++ extension_parts part doc n) -> In x (base ++ extension_parts part doc' n).
Proof. intros A part n base x. apply Permutation_in, Permutation_app_head, parts_moved, P. Qed.

Lemma pairs_of : forall (Q : name -> definition -> Prop) d n,
  (forall a x b y c, d = a ++ x :: b ++ y :: c -> Q n x -> ~ Q n y) ->
  ForallOrdPairs (fun a b => Q n a -> ~ Q n b) d.
Proof. intros Q d n H. apply pairs_iff. exact H. Qed.

Lemma defined_moved : forall n t, defined doc n t <-> defined doc' n t.
Proof.
  intros n t. unfold defined. rewrite !one_last.
  - split; intros [H1 H2]; split; auto using in_moved, in_moved_back.
  - apply pairs_of. exact (proj1 (unambiguous_moved opts _ _ P U) n).
  - apply pairs_of. exact (proj1 U n).
Qed.

Lemma directive_defined_moved : forall n t, directive_defined doc n t <-> directive_defined doc' n t.
Proof.
  intros n t. unfold directive_defined. rewrite !one_last.
  - split; intros [H1 H2]; split; auto using in_moved, in_moved_back.
  - apply pairs_of. exact (proj1 (proj2 (unambiguous_moved opts _ _ P U)) n).
  - apply pairs_of. exact (proj1 (proj2 U) n).
Qed.

Lemma undefined_same : forall n, undefined doc n <-> undefined doc' n.
Proof. intros n. split; apply undefined_moved; [exact P|now apply Permutation_sym]. Qed.

Lemma extended_moved : forall n t, forbid_unknown opts = false -> undefined doc n -> (extended doc n t <-> extended doc' n t).
Proof.
  intros n t HO HN. unfold extended. rewrite !one_first.
  - split; intros [H1 H2]; split; auto using in_moved, in_moved_back.
  - apply pairs_of. apply (proj2 (proj2 (proj2 (unambiguous_moved opts _ _ P U))) HO n). now apply undefined_same.
  - apply pairs_of. exact (proj2 (proj2 (proj2 U)) HO n HN).
Qed.

Lemma resolves_moved : forall n t, resolves opts doc n t <-> resolves opts doc' n t.
Proof.
  intros n t. unfold resolves. rewrite defined_moved, undefined_same. split; intros [H|(H1 & H2 & H3)]; auto.
  - right. split; [exact H1|]. split; [exact H2|]. apply extended_moved; [exact H2|now apply undefined_same|exact H3].
  - right. split; [exact H1|]. split; [exact H2|]. apply extended_moved; [exact H2|now apply undefined_same|exact H3].
Qed.

Lemma checked_field_moved : forall n f, checked_field doc n f -> checked_field doc' n f.
Proof.
  intros n f [dirs is fs Hd Hf|dirs is fs Hd Hf].
  - apply (checked_object _ _ _ dirs is fs); [now apply (declares_moved doc)|now apply in_merged_moved].
  - apply (checked_interface _ _ _ dirs is fs); [now apply (declares_moved doc)|exact Hf].
Qed.

Lemma checked_argument_moved : forall n f a, checked_argument doc n f a -> checked_argument doc' n f a.
Proof. intros n f a (x & H & H'). exists x. split; [now apply checked_field_moved|exact H']. Qed.

Lemma checked_input_field_moved : forall n f, checked_input_field doc n f -> checked_input_field doc' n f.
Proof. intros n f (dirs & fs & H & H'). exists dirs, fs. split; [now apply (declares_moved doc)|exact H']. Qed.

Lemma checked_value_moved : forall n v, checked_value doc n v -> checked_value doc' n v.
Proof. intros n v (dirs & vs & H & H'). exists dirs, vs. split; [now apply (declares_moved doc)|now apply in_merged_moved]. Qed.

Lemma site_moved : forall dirs l, site doc dirs l -> site doc' dirs l.
Proof.
  intros dirs l H. destruct H.
  - now apply site_schema, in_moved.
  - eapply site_object; eauto using in_moved.
  - eapply site_interface; eauto using in_moved.
  - eapply site_union; eauto using in_moved.
  - eapply site_enum; eauto using in_moved.
  - eapply site_input; eauto using in_moved.
  - apply (site_scalar _ n). now apply in_moved.
  - eapply site_field; eauto using checked_field_moved.
  - eapply site_argument; eauto using checked_argument_moved.
  - eapply site_value; eauto using checked_value_moved.
  - eapply site_input_field; eauto using checked_input_field_moved.
Qed.

Lemma input_position_moved : forall t p, input_position doc t p -> input_position doc' t p.
Proof.
  intros t p H. destruct H.
  - now apply input_argument, checked_argument_moved.
  - now apply input_field, checked_input_field_moved.
  - apply input_directive; auto using in_moved.
Qed.

Lemma output_position_moved : forall t p, output_position doc t p -> output_position doc' t p.
Proof. intros t p (n & f & H & H'). exists n, f. split; [now apply checked_field_moved|exact H']. Qed.

Lemma implementer_moved : forall n is fs, implementer doc n is fs ->
  exists is' fs', implementer doc' n is' fs' /\ Permutation is is' /\ Permutation fs fs'.
Proof.
  intros n is fs [dirs is0 fs0 Hd -> ->|dirs is0 fs0 Hd -> ->];
    exists (is0 ++ extension_parts implements_part doc' n), (fs0 ++ extension_parts fields_part doc' n).
  - split; [|split; apply Permutation_app_head, parts_moved, P].
    apply (implementer_object _ _ _ _ dirs is0 fs0); [now apply (declares_moved doc)|reflexivity|reflexivity].
  - split; [|split; apply Permutation_app_head, parts_moved, P].
    apply (implementer_interface _ _ _ _ dirs is0 fs0); [now apply (declares_moved doc)|reflexivity|reflexivity].
Qed.

Lemma unique_fields : forall d n is fs f, unambiguous opts d -> implementer d n is fs ->
  ForallOrdPairs (fun a b => f_name a = f -> ~ f_name b = f) fs.
Proof.
  intros d n is fs f (_ & _ & HF & _) H. apply implementer_has_fields in H. destruct H as (o & H).
  specialize (HF o n is fs H). apply pairs_iff. intros a x b y c -> E1 E2.
  rewrite nodup_iff in HF. apply (HF f). exists (map f_name a), (map f_name b), (map f_name c).
  rewrite map_app. cbn [map]. rewrite map_app. cbn [map]. now rewrite E1, E2.
Qed.

Lemma the_field_moved : forall n is fs is' fs' f x, implementer doc n is fs -> implementer doc' n is' fs' ->
  Permutation fs fs' -> first_with (fun z => f_name z = f) fs x -> first_with (fun z => f_name z = f) fs' x.
Proof.
  intros n is fs is' fs' f x H H' HP.
  rewrite (one_first _ fs) by exact (unique_fields doc n is fs f U H).
  rewrite (one_first _ fs') by exact (unique_fields doc' n is' fs' f (unambiguous_moved opts _ _ P U) H').
  intros [H1 H2]. split; [now apply (Permutation_in _ HP)|exact H2].
Qed.
End Moved.

Lemma subtype_moved : forall doc doc' a b, (forall n t, defined doc n t -> defined doc' n t) ->
  named_subtype doc a b -> named_subtype doc' a b.
Proof.
  intros doc doc' a b HD H. destruct H.
  - constructor.
  - eapply sub_union; eauto.
  - eapply sub_object; eauto.
  - eapply sub_interface; eauto.
Qed.

Lemma implementation_type_moved : forall doc doc' a b, (forall n t, defined doc n t -> defined doc' n t) ->
  implementation_type doc a b -> implementation_type doc' a b.
Proof.
  intros doc doc' a b HD H. induction H as [a b N H IH|a b H IH|a b H].
  - now apply impl_non_null.
  - now apply impl_list.
  - apply impl_named. now apply (subtype_moved doc).
Qed.

Lemma input_path_moved : forall doc doc' fs chain n, (forall n t, defined doc n t -> defined doc' n t) ->
  input_path doc fs chain n -> input_path doc' fs chain n.
Proof.
  intros doc doc' fs chain n HD H. induction H as [fs f n Hf T|fs f m t inner chain n Hf T Ht K H IH].
  - now apply path_last.
  - apply (path_step _ fs f m t inner); auto.
Qed.

Lemma in_map_moved : forall {A} (g : A -> name) l l' x, Permutation l l' -> In x (map g l) -> In x (map g l').
Proof. intros A g l l' x P. apply Permutation_in, Permutation_map, P. Qed.

Lemma violates_moved : forall opts doc doc' e, Permutation doc doc' -> unambiguous opts doc ->
  violates opts doc e -> violates opts doc' e.
Proof.
  intros opts doc doc' e P U.
  pose proof (in_moved doc doc' P) as MI.
  pose proof (in_moved_back doc doc' P) as MB.
  pose proof (fun n d k => declares_moved doc doc' n d k P) as MD.
  pose proof (defined_moved opts doc doc' P U) as MF.
  pose proof (fun n t => proj1 (MF n t)) as MF1.
  pose proof (fun n t => proj2 (MF n t)) as MF2.
  pose proof (fun n => proj1 (undefined_same doc doc' P n)) as MU.
  pose proof (fun n t => proj1 (resolves_moved opts doc doc' P U n t)) as MR.
  pose proof (fun n t => proj2 (resolves_moved opts doc doc' P U n t)) as MR2.
  pose proof (fun n t => proj1 (directive_defined_moved opts doc doc' P U n t)) as MX.
  pose proof (checked_field_moved doc doc' P) as MC.
  pose proof (checked_argument_moved doc doc' P) as MA.
  pose proof (site_moved doc doc' P) as MS.
  pose proof (input_position_moved doc doc' P) as MP.
  pose proof (output_position_moved doc doc' P) as MO.
  destruct e; cbn [violates].
  - (* ReservedName *) intros (H & dirs & k & H1 & H2). split; [exact H|]. exists dirs, k. auto.
  - intros (H & t & H1 & H2). split; [exact H|]. exists t. auto.
  - intros (a & x & b & y & c & E & H1 & H2). exfalso. exact (proj1 U _ a x b y c E H1 H2).
  - intros (d & H1 & H2). exists d. auto.
  - intros (dirs & l & def & H1 & H2 & H3 & H4). exists dirs, l, def. auto.
  - intros (dirs & def & H1 & H2 & H3 & H4). exists dirs, def. auto.
  - (* DuplicateSchema *) intros (a & s & b & s' & c & E & H1 & H2).
    pose (Q := fun x y : definition => ~ ((exists s, x = DSchema s /\ s_extend s = false) /\ (exists s, y = DSchema s /\ s_extend s = false))).
    assert (HQ : ~ ForallOrdPairs Q doc').
    { intros HQ. apply (pairs_moved Q doc' doc) in HQ; [|unfold Q; tauto|now apply Permutation_sym].
      rewrite pairs_iff in HQ. apply (HQ a (DSchema s) b (DSchema s') c E). split; eauto. }
    clear -HQ. induction doc' as [|d rest IH]; [exfalso; apply HQ; constructor|].
    destruct (existsb (fun y => match y with DSchema s => negb (s_extend s) | _ => false end) rest) eqn:E.
    + destruct d as [s|t|d]; [destruct (s_extend s) eqn:X| |].
      * destruct IH as (a & s1 & b & s2 & c & -> & H1 & H2).
        { intros H. apply HQ. constructor; [|exact H]. apply Forall_forall. intros y _ [(s0 & E0 & X0) _]. injection E0 as ->. congruence. }
        now exists (DSchema s :: a), s1, b, s2, c.
      * apply existsb_exists in E. destruct E as (y & Hy & E). apply in_split in Hy. destruct Hy as (b & c & ->).
        destruct y as [s'| |]; try discriminate. apply negb_true_iff in E. exists [], s, b, s', c. auto.
      * destruct IH as (a & s1 & b & s2 & c & -> & H1 & H2).
        { intros H. apply HQ. constructor; [|exact H]. apply Forall_forall. intros y _ [(s0 & E0 & X0) _]. discriminate. }
        now exists (DType t :: a), s1, b, s2, c.
      * destruct IH as (a & s1 & b & s2 & c & -> & H1 & H2).
        { intros H. apply HQ. constructor; [|exact H]. apply Forall_forall. intros y _ [(s0 & E0 & X0) _]. discriminate. }
        now exists (DDirective d :: a), s1, b, s2, c.
    + exfalso. apply HQ.
      assert (HR : forall y, In y rest -> ~ exists s, y = DSchema s /\ s_extend s = false).
      { intros y Hy (s & -> & X). assert (Y : existsb (fun y => match y with DSchema s => negb (s_extend s) | _ => false end) rest = true).
        { apply existsb_exists. exists (DSchema s). split; [exact Hy|]. now rewrite X. }
        congruence. }
      apply pairs_iff. intros a x b y c E1 [_ H2]. apply (HR y); [|exact H2].
      destruct a as [|z a]; cbn in E1; injection E1 as -> ->.
      * apply in_app_iff. right. now left.
      * rewrite !in_app_iff. right. right. apply in_app_iff. right. now left.
  - intros (s & r & r' & H1 & H2). exists s, r, r'. auto.
  - intros (s & H1 & H2 & H3). exists s. auto.
  - intros (s & t & H1 & H2 & H3 & H4). exists s, t. auto.
  - intros (H1 & H2 & t & H3 & H4). split; [intros s Hs; apply (H1 s); auto|]. split; [exact H2|]. exists t. auto.
  - intros (is & fs & H1 & H2). destruct (implementer_moved doc doc' P _ _ _ H1) as (is' & fs' & H1' & P1 & P2).
    exists is', fs'. split; [exact H1'|now apply (twice_moved is)].
  - intros (is & fs & H1 & H2 & H3). destruct (implementer_moved doc doc' P _ _ _ H1) as (is' & fs' & H1' & P1 & P2).
    exists is', fs'. split; [exact H1'|]. split; [now apply (Permutation_in _ P1)|]. intros u Hu. apply (H3 u). auto.
  - intros (is & fs & u & H1 & H2 & H3 & H4). destruct (implementer_moved doc doc' P _ _ _ H1) as (is' & fs' & H1' & P1 & P2).
    exists is', fs', u. split; [exact H1'|]. split; [now apply (Permutation_in _ P1)|]. auto.
  - intros (is & fs & u & js & gs & H1 & H2 & H3 & H4 & H5 & H6).
    destruct (implementer_moved doc doc' P _ _ _ H1) as (is' & fs' & H1' & P1 & P2).
    exists is', fs', u, js, gs. split; [exact H1'|]. split; [now apply (Permutation_in _ P1)|]. split; [auto|]. split; [exact H4|].
    split; [exact H5|]. intros Z. apply H6. now apply (Permutation_in _ (Permutation_sym P1)).
  - intros (is & fs & u & js & gs & H1 & H2 & H3 & H4 & H5 & H6).
    destruct (implementer_moved doc doc' P _ _ _ H1) as (is' & fs' & H1' & P1 & P2).
    exists is', fs', u, js, gs. split; [exact H1'|]. split; [now apply (Permutation_in _ P1)|]. split; [auto|]. split; [exact H4|].
    split; [exact H5|]. intros Z. apply H6. now apply (in_map_moved f_name fs' fs _ (Permutation_sym P2)).
  - intros (is & fs & u & js & gs & x & y & H1 & H2 & H3 & H4 & H5 & H6 & H7 & H8).
    destruct (implementer_moved doc doc' P _ _ _ H1) as (is' & fs' & H1' & P1 & P2).
    exists is', fs', u, js, gs, x, y. split; [exact H1'|]. split; [now apply (Permutation_in _ P1)|]. split; [auto|]. split; [exact H4|].
    split; [exact H5|]. split; [exact H6|]. split; [exact (the_field_moved opts doc doc' P U _ _ _ _ _ _ _ H1 H1' P2 H7)|].
    intros Z. apply H8. now apply (implementation_type_moved doc').
  - intros (is & fs & u & js & gs & x & y & c & d & H1 & H2 & H3 & H4 & H5 & H6 & H7 & H8).
    destruct (implementer_moved doc doc' P _ _ _ H1) as (is' & fs' & H1' & P1 & P2).
    exists is', fs', u, js, gs, x, y, c, d. split; [exact H1'|]. split; [now apply (Permutation_in _ P1)|]. split; [auto|]. split; [exact H4|].
    split; [exact H5|]. split; [exact H6|]. split; [exact (the_field_moved opts doc doc' P U _ _ _ _ _ _ _ H1 H1' P2 H7)|]. exact H8.
  - intros (is & fs & u & js & gs & x & y & c & H1 & H2 & H3 & H4 & H5 & H6 & H7 & H8).
    destruct (implementer_moved doc doc' P _ _ _ H1) as (is' & fs' & H1' & P1 & P2).
    exists is', fs', u, js, gs, x, y, c. split; [exact H1'|]. split; [now apply (Permutation_in _ P1)|]. split; [auto|]. split; [exact H4|].
    split; [exact H5|]. split; [exact H6|]. split; [exact (the_field_moved opts doc doc' P U _ _ _ _ _ _ _ H1 H1' P2 H7)|]. exact H8.
  - intros (is & fs & u & js & gs & x & y & H1 & H2 & H3 & H4 & H5 & H6 & H7 & H8).
    destruct (implementer_moved doc doc' P _ _ _ H1) as (is' & fs' & H1' & P1 & P2).
    exists is', fs', u, js, gs, x, y. split; [exact H1'|]. split; [now apply (Permutation_in _ P1)|]. split; [auto|]. split; [exact H4|].
    split; [exact H5|]. split; [exact H6|]. split; [exact (the_field_moved opts doc doc' P U _ _ _ _ _ _ _ H1 H1' P2 H7)|]. exact H8.
  - intros (dirs & is & H1 & H2). exists dirs, is. split; [auto|].
    pose proof (parts_moved fields_part doc doc' t P) as Z. rewrite H2 in Z. now apply Permutation_nil in Z.
  - intros (dirs & is & H). exists dirs, is. auto.
  - intros (dirs & H). exists dirs. auto.
  - intros (H & x & H1 & H2). split; [exact H|]. exists x. auto.
  - intros (dirs & is & fs & H1 & H2). exists dirs, is, fs. split; [auto|].
    apply (twice_moved (map f_name (fs ++ extension_parts fields_part doc t))); [|exact H2].
    apply Permutation_map, Permutation_app_head, parts_moved, P.
  - intros (x & H1 & H2). exists x. auto.
  - intros (t & f & a & H1 & H2). exists t, f, a. auto.
  - intros (H & x & H1 & H2). split; [exact H|]. exists x. auto.
  - intros (H1 & H2 & t & H3 & H4). split; [exact H1|]. split; [auto|]. exists t. split; [exact H3|].
    destruct H4 as [H4|[H4 H5]]; [left; auto|]. right. split; [auto|]. intros Z u Hu. apply (H5 Z u).
    now apply (extended_moved opts doc doc' P U).
  - intros (H1 & t & u & H2 & H3 & H4 & H5). split; [exact H1|]. exists t, u. auto.
  - intros (H1 & t & u & fs & H2 & H3 & H4 & H5). split; [exact H1|]. exists t, u, fs. auto.
  - intros (dirs & vs & H1 & H2). exists dirs, vs. split; [auto|].
    apply (twice_moved (map fst (vs ++ extension_parts values_part doc t))); [|exact H2].
    apply Permutation_map, Permutation_app_head, parts_moved, P.
  - intros (dirs & fs & H1 & H2). exists dirs, fs. split; [auto|]. now apply (input_path_moved doc).
  - intros (H & dirs & ms & H1 & H2). split; [auto|]. exists dirs, ms. split; [auto|]. now apply (in_merged_moved doc).
  - intros ((t & H & H') & dirs & ms & H1 & H2). split; [exists t; auto|]. exists dirs, ms. split; [auto|]. now apply (in_merged_moved doc).
  - intros (dirs & ms & H1 & H2). exists dirs, ms. split; [auto|].
    apply (twice_moved (ms ++ extension_parts members_part doc u)); [|exact H2].
    apply Permutation_app_head, parts_moved, P.
  - intros (H1 & H2 & (dirs & knd & H3 & H4) & H5). split; [exact H1|]. split; [exact H2|]. split.
    + exists dirs, knd. split; [apply MI; exact H3|exact H4].
    + intros t Ht. apply (H5 t). auto.
Qed.

Lemma panic_moved : forall opts doc doc', Permutation doc doc' -> validate opts doc = None -> validate opts doc' = None.
Proof.
  intros opts doc doc' P. rewrite !C64_panics. intros (n & dirs & vs & v & Hd & HT). exists n, dirs, vs, v.
  split; [now apply (declares_moved doc)|].
  apply (twice_moved (map fst (extension_parts values_part doc n))); [|exact HT].
  apply Permutation_map, parts_moved, P.
Qed.

(* The same diagnostics, whatever the order. *)
Theorem C66_order : forall opts doc doc' l,
  Permutation doc doc' -> unambiguous opts doc -> validate opts doc = Some l ->
  exists l', validate opts doc' = Some l' /\
    (forall e, In e l -> exists e', In e' l' /\ same_diagnostic e e') /\
    (forall e, In e l' -> exists e', In e' l /\ same_diagnostic e e').
Proof.
  intros opts doc doc' l P U H.
  destruct (validate opts doc') as [l'|] eqn:E.
  - exists l'. split; [reflexivity|]. destruct (C61_exact _ _ _ H) as [S1 C1], (C61_exact _ _ _ E) as [S2 C2]. split.
    + intros e He. apply C2. apply (violates_moved opts doc); auto.
    + intros e He. apply C1. apply (violates_moved opts doc'); [now apply Permutation_sym|now apply (unambiguous_moved opts doc)|auto].
  - apply (panic_moved opts doc' doc) in E; [congruence|now apply Permutation_sym].
Qed.

(* Accepted documents stay so unless two directives have the same name, an
   interface has a field twice, or a type is only extended. *)
Theorem C66_accepted_partial : forall opts doc doc',
  Permutation doc doc' -> validate opts doc = Some [] -> forbid_unknown opts = true ->
  holds DirectiveNamesUnique doc -> holds (FieldNamesUnique Interfaces) doc ->
  validate opts doc' = Some [].
Proof.
  intros opts doc doc' P H HO HD HF.
  assert (U : unambiguous opts doc).
  { split; [now apply (C62_enforced opts)|]. split; [exact HD|]. split.
    - intros []; [now apply (C62_enforced opts)|exact HF].
    - intros Z. congruence. }
  destruct (C66_order opts doc doc' [] P U H) as (l' & -> & _ & HL). destruct l' as [|e l']; [reflexivity|].
  destruct (HL e) as (e' & [] & _). now left.
Qed.

(* Directives are looked up by name and the last one wins, so two of a name
   make acceptance depend on the order. *)
Definition marker (l : location) : definition := DDirective (mkdir "d" false [l] []).

Theorem C66_directives_refuted : exists doc doc', Permutation doc doc' /\
  (forall opts, validate opts doc = Some []) /\
  (forall opts, validate opts doc' = Some [BadLocation "d" LObject]).
Proof.
  exists [marker LUnion; marker LObject; DType (mktype false "Query" ["d"] (KObject [] [an_int "a"]))],
         [marker LObject; marker LUnion; DType (mktype false "Query" ["d"] (KObject [] [an_int "a"]))].
  split; [apply perm_swap|]. split; intros [[] []]; reflexivity.
Qed.

(* So do interfaces with a field twice. *)
Theorem C66_fields_refuted : exists doc doc', Permutation doc doc' /\
  (forall opts, validate opts doc = Some []) /\
  (forall opts, validate opts doc' = Some [BadFieldType "J" "a" "I"]).
Proof.
  pose (I := def "I" (KInterface [] [an_int "a"])).
  pose (J := def "J" (KInterface ["I"] [an_int "b"])).
  pose (good := ext "J" (KInterface [] [an_int "a"])).
  pose (bad := ext "J" (KInterface [] [mkfield "a" [] (Named "String" true) []])).
  exists [query; I; J; good; bad], [query; I; J; bad; good]. split.
  - do 3 apply perm_skip. apply perm_swap.
  - split; intros [[] []]; reflexivity.
Qed.

(* And types that are only extended, twice. *)
Theorem C66_extended_refuted : exists doc doc', Permutation doc doc' /\
  (forall d, validate (mkoptions false d) doc = Some []) /\
  (forall d, validate (mkoptions false d) doc' = Some [MissingField "T" "b" "I"]).
Proof.
  pose (T := def "T" (KObject ["I"] [an_int "a"])).
  pose (one := ext "I" (KInterface [] [an_int "a"])).
  pose (two := ext "I" (KInterface [] [an_int "b"])).
  exists [query; T; one; two], [query; T; two; one]. split.
  - do 2 apply perm_skip. apply perm_swap.
  - split; intros []; reflexivity.
Qed.

(* The ring of inputs backwards: other chains, the same types. *)
Example C66_example :
  validate (mkoptions false false) (rev ring) =
  Some [InputCycle "C" ["a"; "b"; "c"]; InputCycle "B" ["c"; "a"; "b"]; InputCycle "A" ["b"; "c"; "a"]].
Proof. reflexivity. Qed.
