(** finalize_inaccessible: soundness, completeness, termination. *)
From Coq Require Import String List Arith ZArith Bool Lia.
From Verif.Contracts Require Import Model Spec.
Import ListNotations.
Local Open Scope nat_scope.
Local Open Scope list_scope.

Lemma tdef_eqb_eq : forall a b, tdef_eqb a b = true <-> a = b.
Proof.
  intros a b; split.
  - destruct a, b; simpl; try discriminate; intro H; apply Nat.eqb_eq in H; subst; reflexivity.
  - intros ->; destruct b; simpl; apply Nat.eqb_refl.
Qed.
Lemma site_eqb_eq : forall a b, site_eqb a b = true <-> a = b.
Proof.
  intros a b; split.
  - destruct a, b; simpl; try discriminate; intro H;
      first [apply tdef_eqb_eq in H | apply Nat.eqb_eq in H]; subst; reflexivity.
  - intros ->; destruct b; simpl; first [apply tdef_eqb_eq; reflexivity | apply Nat.eqb_refl].
Qed.
Lemma set_same : forall m s b, set m s b s = b.
Proof. intros; unfold set. replace (site_eqb s s) with true; [reflexivity|]. symmetry; apply site_eqb_eq; reflexivity. Qed.
Lemma set_other : forall m s b x, s <> x -> set m s b x = m x.
Proof.
  intros; unfold set. destruct (site_eqb s x) eqn:E; [|reflexivity]. apply site_eqb_eq in E; contradiction.
Qed.
Lemma set_true : forall m s x, set m s true x = true -> x = s \/ m x = true.
Proof.
  intros m s x H. unfold set in H. destruct (site_eqb s x) eqn:E; [|right; exact H].
  apply site_eqb_eq in E; left; congruence.
Qed.
Lemma set_grows : forall m s x, m x = true -> set m s true x = true.
Proof. intros m s x H. unfold set. destruct (site_eqb s x); [reflexivity|exact H]. Qed.

Definition le (m m' : marks) : Prop := forall s, m s = true -> m' s = true.
Lemma le_refl : forall m, le m m. Proof. intros m s H; exact H. Qed.
Lemma le_trans : forall a b c, le a b -> le b c -> le a c.
Proof. intros a b c H K s E; apply K, H, E. Qed.
Lemma le_set : forall m s, le m (set m s true). Proof. intros m s x H; apply set_grows, H. Qed.

Lemma in_ids : forall A (l : list A) n, In n (ids l) <-> n < List.length l.
Proof. intros; unfold ids; rewrite in_seq; lia. Qed.

Lemma fold_le : forall A B (f : A -> B -> A) (p : A -> marks),
  (forall a b, le (p a) (p (f a b))) -> forall l a, le (p a) (p (fold_left f l a)).
Proof.
  intros A B f p H l; induction l as [|x l IH]; intros a; simpl; [apply le_refl|].
  eapply le_trans; [apply H|apply IH].
Qed.

(** A property of the marks that every step preserves. *)
Lemma fold_inv : forall A B (f : A -> B -> A) (P : A -> Prop) l a,
  P a -> (forall a b, In b l -> P a -> P (f a b)) -> P (fold_left f l a).
Proof.
  intros A B f P l; induction l as [|x l IH]; intros a Ha H; simpl; [exact Ha|].
  apply IH; [apply H; [left; reflexivity|exact Ha]|]. intros; apply H; [right|]; assumption.
Qed.

(** Steps of one kind leave sites of another kind alone. *)
Definition same_on (P : site -> Prop) (m m' : marks) : Prop := forall s, P s -> m' s = m s.
Lemma same_refl : forall P m, same_on P m m. Proof. intros P m s _; reflexivity. Qed.
Lemma same_trans : forall P a b c, same_on P a b -> same_on P b c -> same_on P a c.
Proof. intros P a b c H K s E. rewrite (K s E). apply H, E. Qed.
Lemma same_set : forall (P : site -> Prop) m s b, (P s -> False) -> same_on P m (set m s b).
Proof. intros P m s b H x Hx. apply set_other. intros ->; exact (H Hx). Qed.
Lemma fold_same : forall P A B (f : A -> B -> A) (p : A -> marks) l,
  (forall a b, In b l -> same_on P (p a) (p (f a b))) -> forall a, same_on P (p a) (p (fold_left f l a)).
Proof.
  intros P A B f p l; induction l as [|x l IH]; intros H a; simpl; [apply same_refl|].
  eapply same_trans; [apply H; left; reflexivity|apply IH]. intros; apply H; right; assumption.
Qed.

Section Graph.
Variable g : graph.

(** ** Soundness *)
Section Sound.
Variable m0 : marks.
Definition sound (m : marks) : Prop := forall s, m s = true -> hidden g m0 s.

Lemma sound_set : forall m s, sound m -> hidden g m0 s -> sound (set m s true).
Proof. intros m s H K x E. destruct (set_true _ _ _ E) as [->|E']; [exact K|apply H, E']. Qed.

Lemma value_step_sound : forall m id, id < List.length (g_values g) -> sound m -> sound (value_step g m id).
Proof.
  intros m id L H. unfold value_step.
  set (v := value_of g id).
  assert (H1 : sound (if m (SType (v_ty v)) || v_internal v then set m (SValue id) true else m)).
  { destruct (m (SType (v_ty v)) || v_internal v) eqn:E; [|exact H].
    apply sound_set; [exact H|]. apply orb_true_iff in E. destruct E as [E|E].
    - apply H_value; [exact L|apply H, E].
    - apply H_internal; [exact L|exact E]. }
  set (m1 := if m (SType (v_ty v)) || v_internal v then set m (SValue id) true else m) in *.
  destruct (m1 (SValue id) && v_required v && negb (v_internal v)) eqn:E; [|exact H1].
  apply sound_set; [exact H1|].
  apply andb_true_iff in E; destruct E as [E E3]. apply andb_true_iff in E; destruct E as [E1 E2].
  apply negb_true_iff in E3.
  destruct (v_parent v) as [f|o] eqn:P; simpl.
  - apply (H_required_arg g m0 id f L P E2 E3). apply H1, E1.
  - apply (H_required_input g m0 id o L P E2 E3). apply H1, E1.
Qed.

Lemma values_loop_sound : forall m, sound m -> sound (values_loop g m).
Proof.
  intros m H. unfold values_loop. apply fold_inv; [exact H|].
  intros a b Hb Ha. apply value_step_sound; [apply in_ids, Hb|exact Ha].
Qed.

Lemma values_of_in : forall o v, In v (values_of g o) <-> v < List.length (g_values g) /\ v_ty (value_of g v) = TInput o.
Proof.
  intros o v. unfold values_of. rewrite filter_In, in_ids, tdef_eqb_eq. reflexivity.
Qed.

Lemma input_user_sound : forall m stack id, id < List.length (g_values g) ->
  hidden g m0 (SType (v_ty (value_of g id))) -> sound m -> sound (fst (input_user g (m, stack) id)).
Proof.
  intros m stack id L Ht H. unfold input_user.
  destruct (m (SValue id)); [exact H|].
  assert (H1 : sound (set m (SValue id) true)) by (apply sound_set; [exact H|apply H_value; assumption]).
  set (m1 := set m (SValue id) true) in *.
  destruct (v_required (value_of g id) && negb (v_internal (value_of g id))) eqn:E; [|exact H1].
  apply andb_true_iff in E; destruct E as [E1 E2]; apply negb_true_iff in E2.
  destruct (v_parent (value_of g id)) as [f|o] eqn:P.
  - simpl. apply sound_set; [exact H1|]. eapply H_required_arg; eauto. apply H_value; assumption.
  - destruct (m1 (SType (TInput o))); [exact H1|]. simpl. apply sound_set; [exact H1|].
    eapply H_required_input; eauto. apply H_value; assumption.
Qed.

Lemma input_users_sound : forall l m stack,
  (forall id, In id l -> id < List.length (g_values g) /\ hidden g m0 (SType (v_ty (value_of g id)))) ->
  sound m -> sound (fst (fold_left (input_user g) l (m, stack))).
Proof.
  intros l m stack Hl H.
  apply (fold_inv _ _ (input_user g) (fun st => sound (fst st))); [exact H|].
  intros [a s] b Hb Ha. destruct (Hl b Hb). apply input_user_sound; assumption.
Qed.

(** What is on the stack is hidden. *)
Lemma input_user_stack : forall m stack id o,
  In o (snd (input_user g (m, stack) id)) -> In o stack \/ fst (input_user g (m, stack) id) (SType (TInput o)) = true.
Proof.
  intros m stack id o. unfold input_user. destruct (m (SValue id)); [left; assumption|].
  set (m1 := set m (SValue id) true).
  destruct (v_required _ && _); [|left; assumption].
  destruct (v_parent (value_of g id)) as [f|p]; [left; assumption|].
  destruct (m1 (SType (TInput p))); [left; assumption|].
  intros [->|Ho]; [right; apply set_same|left; exact Ho].
Qed.
Lemma input_user_le : forall st id, le (fst st) (fst (input_user g st id)).
Proof.
  intros [m stack] id. unfold input_user. destruct (m (SValue id)); [apply le_refl|].
  assert (L1 := le_set m (SValue id)). set (m1 := set m (SValue id) true) in *.
  destruct (v_required _ && _); [|exact L1].
  destruct (v_parent (value_of g id)) as [f|p].
  - eapply le_trans; [exact L1|apply le_set].
  - destruct (m1 (SType (TInput p))); [exact L1|]. eapply le_trans; [exact L1|apply le_set].
Qed.
Lemma input_users_stack : forall l m stack o,
  In o (snd (fold_left (input_user g) l (m, stack))) ->
  In o stack \/ fst (fold_left (input_user g) l (m, stack)) (SType (TInput o)) = true.
Proof.
  intro l; induction l as [|x l IH]; intros m stack o Ho; [left; exact Ho|].
  cbn [fold_left] in *. destruct (input_user g (m, stack) x) as [m1 s1] eqn:E.
  destruct (IH m1 s1 o Ho) as [H|H]; [|right; exact H].
  pose proof (input_user_stack m stack x o) as K. rewrite E in K. destruct (K H) as [K'|K']; [left; exact K'|].
  right. apply (fold_le _ _ (input_user g) fst input_user_le l (m1, s1)). exact K'.
Qed.

Lemma inputs_loop_sound : forall fuel stack m m', inputs_loop fuel g stack m = Done m' ->
  (forall o, In o stack -> m (SType (TInput o)) = true) -> sound m -> sound m'.
Proof.
  intro fuel; induction fuel as [|n IH]; intros stack m m' E Hs H; destruct stack as [|o rest]; simpl in E;
    try (injection E as <-; exact H); try discriminate.
  destruct (fold_left (input_user g) (values_of g o) (m, rest)) as [m1 s1] eqn:F.
  assert (L : le m m1).
  { pose proof (fold_le _ _ (input_user g) fst input_user_le (values_of g o) (m, rest)) as K. rewrite F in K. exact K. }
  apply (IH s1 m1 m' E).
  - intros p Hp. pose proof (input_users_stack (values_of g o) m rest p) as K. rewrite F in K.
    destruct (K Hp) as [K'|K']; [|exact K']. apply L, Hs; right; exact K'.
  - pose proof (input_users_sound (values_of g o) m rest) as K. rewrite F in K. apply K; [|exact H].
    intros id Hid. apply values_of_in in Hid. destruct Hid as [L' T]. split; [exact L'|].
    rewrite T. apply H, Hs; left; reflexivity.
Qed.

Lemma empty_step_sound : forall t parts m id, sound m ->
  ((forall s, In s (parts id) -> hidden g m0 s) -> hidden g m0 (SType (t id))) -> sound (empty_step t parts m id).
Proof.
  intros t parts m id H K. unfold empty_step. destruct (m (SType (t id))); [exact H|].
  destruct (forallb m (parts id)) eqn:E; [|exact H]. apply sound_set; [exact H|].
  apply K. intros s Hs. apply H. rewrite forallb_forall in E. apply E, Hs.
Qed.

Lemma objects_loop_sound : forall m, sound m -> sound (objects_loop g m).
Proof.
  intros m H. unfold objects_loop. apply fold_inv; [exact H|]. intros a o Ho Ha.
  apply empty_step_sound; [exact Ha|]. intro K. apply H_object; [apply in_ids, Ho|].
  intros f Hf. apply K. apply in_map; exact Hf.
Qed.
Lemma interfaces_loop_sound : forall m, sound m -> sound (interfaces_loop g m).
Proof.
  intros m H. unfold interfaces_loop. apply fold_inv; [exact H|]. intros a o Ho Ha.
  apply empty_step_sound; [exact Ha|]. intro K. apply H_interface; [apply in_ids, Ho|].
  intros f Hf. apply K. apply in_map; exact Hf.
Qed.
Lemma enums_loop_sound : forall m, sound m -> sound (enums_loop g m).
Proof.
  intros m H. unfold enums_loop. apply fold_inv; [exact H|]. intros a o Ho Ha.
  apply empty_step_sound; [exact Ha|]. intro K. apply H_enum; [apply in_ids, Ho|].
  intros f Hf. apply K. apply in_map; exact Hf.
Qed.
Lemma empty_inputs_loop_sound : forall m, sound m -> sound (empty_inputs_loop g m).
Proof.
  intros m H. unfold empty_inputs_loop. apply fold_inv; [exact H|]. intros a o Ho Ha.
  apply empty_step_sound; [exact Ha|]. intro K. apply H_input; [apply in_ids, Ho|].
  intros f Hf. apply K. apply in_map; exact Hf.
Qed.

Lemma union_all : forall m u, u < List.length (g_unions g) -> sound m ->
  forallb m (map object_site (union_of g u)) = true -> hidden g m0 (SType (TUnion u)).
Proof.
  intros m u L H E. apply H_union; [exact L|]. intros o Ho. apply H.
  rewrite forallb_forall in E. apply (E (object_site o)). apply in_map; exact Ho.
Qed.
(** The pairs are members of unions that exist. *)
Definition pairs_ok (pairs : list (nat * nat)) : Prop :=
  forall p, In p pairs -> snd p < List.length (g_unions g) /\ In (fst p) (union_of g (snd p)).
Lemma unions_loop_sound : forall m, sound m -> sound (fst (unions_loop g m)) /\ pairs_ok (snd (unions_loop g m)).
Proof.
  intros m H. unfold unions_loop.
  apply (fold_inv _ _ (union_step g) (fun st => sound (fst st) /\ pairs_ok (snd st))).
  - split; [exact H|intros p []].
  - intros [a pairs] u Hu [Ha Hp]. apply in_ids in Hu. unfold union_step. simpl in Ha, Hp.
    destruct (a (SType (TUnion u))); [split; assumption|].
    destruct (forallb a (map object_site (union_of g u))) eqn:E; simpl.
    + split; [|exact Hp]. apply sound_set; [exact Ha|]. exact (union_all a u Hu Ha E).
    + split; [exact Ha|]. intros p Hin. apply in_app_or in Hin. destruct Hin as [Hin|Hin]; [apply Hp, Hin|].
      apply in_map_iff in Hin. destruct Hin as [o [<- Ho]]. simpl. split; assumption.
Qed.

Lemma entity_all : wf g -> forall m f, f < List.length (g_fields g) -> sound m ->
  let e := f_parent (field_of g f) in
  forallb m (map SField (entity_fields g e)) = true -> hidden g m0 (SType (entity_type e)).
Proof.
  intros W m f L H e E. rewrite forallb_forall in E.
  assert (K : forall x, In x (entity_fields g e) -> hidden g m0 (SField x))
    by (intros x Hx; apply H, E, in_map, Hx).
  pose proof (wf_field_parent g W f L) as P. fold e in P.
  destruct e as [o|i]; simpl in *.
  - apply H_object; [|exact K].
    destruct (Nat.lt_ge_cases o (List.length (g_objects g))) as [A|A]; [exact A|].
    unfold object_of in P. rewrite nth_overflow in P by exact A. destruct P.
  - apply H_interface; [|exact K].
    destruct (Nat.lt_ge_cases i (List.length (g_interfaces g))) as [A|A]; [exact A|].
    unfold interface_of in P. rewrite nth_overflow in P by exact A. destruct P.
Qed.

Lemma hide_field_sound : wf g -> forall m stack f, f < List.length (g_fields g) ->
  hidden g m0 (SField f) -> sound m -> sound (fst (hide_field g (m, stack) f)).
Proof.
  intros W m stack f L Hf H. unfold hide_field. destruct (m (SField f)); [exact H|].
  assert (H1 : sound (set m (SField f) true)) by (apply sound_set; assumption).
  set (m1 := set m (SField f) true) in *. set (e := f_parent (field_of g f)) in *.
  destruct (forallb m1 (map SField (entity_fields g e))) eqn:E; [|exact H1].
  destruct (m1 (SType (entity_type e))); [exact H1|]. simpl.
  apply sound_set; [exact H1|]. exact (entity_all W m1 f L H1 E).
Qed.

Lemma fields_loop_sound : wf g -> forall m st, sound m -> fields_loop g m = Done st -> sound (fst st).
Proof.
  intros W m st H E. unfold fields_loop in E.
  assert (K : match fold_left (field_step g) (ids (g_fields g)) (Done (m, [])) with Done st => sound (fst st) | _ => True end).
  { apply (fold_inv _ _ (field_step g) (fun o => match o with Done st => sound (fst st) | _ => True end)); [exact H|].
    intros a f Hf Ha. apply in_ids in Hf. destruct a as [[m1 s1]| |]; simpl; try exact Logic.I. simpl in Ha.
    destruct (f_ty (field_of g f)) eqn:T; try exact Logic.I;
      (destruct (m1 _) eqn:M; [|exact Ha]; apply (hide_field_sound W m1 s1 f Hf); [|exact Ha];
       apply H_field; [exact Hf|]; rewrite T; apply Ha, M). }
  rewrite E in K. exact K.
Qed.

Lemma fields_of_in : forall t f, In f (fields_of g t) -> f < List.length (g_fields g) /\ f_ty (field_of g f) = t.
Proof.
  intros t f H. destruct t; simpl in H; try destruct H; apply filter_In in H; rewrite in_ids in H;
    destruct H as [L E]; (split; [exact L|]); apply tdef_eqb_eq in E; exact E.
Qed.
Lemma unions_of_in : forall pairs o u, In u (unions_of pairs o) <-> In (o, u) pairs.
Proof.
  intros pairs o u. unfold unions_of. rewrite in_map_iff. split.
  - intros [[a b] [E H]]. apply filter_In in H. destruct H as [H K]. apply Nat.eqb_eq in K. simpl in *. subst. exact H.
  - intro H. exists (o, u). split; [reflexivity|]. apply filter_In. split; [exact H|apply Nat.eqb_refl].
Qed.

Lemma hide_field_le : forall st f, le (fst st) (fst (hide_field g st f)).
Proof.
  intros [m stack] f. unfold hide_field. destruct (m (SField f)); [apply le_refl|].
  assert (L1 := le_set m (SField f)). set (m1 := set m (SField f) true) in *.
  destruct (forallb m1 _); [|exact L1]. destruct (m1 _); [exact L1|]. eapply le_trans; [exact L1|apply le_set].
Qed.
Lemma hide_union_le : forall st u, le (fst st) (fst (hide_union g st u)).
Proof.
  intros [m stack] u. unfold hide_union. destruct (forallb m _); [|apply le_refl].
  destruct (m _); [apply le_refl|apply le_set].
Qed.
(** What they push is marked. *)
Definition marked_stack (st : marks * list tdef) : Prop := forall t, In t (snd st) -> fst st (SType t) = true.
Lemma hide_field_stack : forall st f, marked_stack st -> marked_stack (hide_field g st f).
Proof.
  intros [m stack] f H t. unfold hide_field. destruct (m (SField f)); [exact (H t)|].
  assert (L1 := le_set m (SField f)). set (m1 := set m (SField f) true) in *.
  destruct (forallb m1 _); [|intro K; apply L1, H, K].
  destruct (m1 (SType (entity_type (f_parent (field_of g f))))); [intro K; apply L1, H, K|]. simpl.
  intros [<-|K]; [apply set_same|]. apply set_grows, L1, H, K.
Qed.
Lemma hide_union_stack : forall st u, marked_stack st -> marked_stack (hide_union g st u).
Proof.
  intros [m stack] u H t. unfold hide_union. destruct (forallb m _); [|exact (H t)].
  destruct (m (SType (TUnion u))); [exact (H t)|]. simpl. intros [<-|K]; [apply set_same|apply set_grows, H, K].
Qed.

Lemma types_loop_sound : wf g -> forall fuel pairs stack m m', types_loop fuel g pairs stack m = Done m' ->
  pairs_ok pairs -> marked_stack (m, stack) -> sound m -> sound m'.
Proof.
  intros W fuel; induction fuel as [|n IH]; intros pairs stack m m' E Hp Hs H; destruct stack as [|t rest]; simpl in E;
    try (injection E as <-; exact H); try discriminate.
  set (st := match t with TObject o => fold_left (hide_union g) (unions_of pairs o) (m, rest) | _ => (m, rest) end) in E.
  assert (Ht : m (SType t) = true) by (apply (Hs t); left; reflexivity).
  assert (Hrest : marked_stack (m, rest)) by (intros x Hx; apply (Hs x); right; exact Hx).
  assert (A : sound (fst st) /\ marked_stack st /\ le m (fst st)).
  { unfold st. destruct t as [x|o|x|x|x|x]; try (split; [exact H|split; [exact Hrest|apply le_refl]]).
    split; [|split].
    - apply (fold_inv _ _ (hide_union g) (fun st => sound (fst st))); [exact H|].
      intros [a s] u Hu Ha. apply unions_of_in in Hu. destruct (Hp _ Hu) as [Lu _]. simpl in Lu, Ha.
      unfold hide_union. destruct (forallb a (map object_site (union_of g u))) eqn:F; [|exact Ha].
      destruct (a (SType (TUnion u))); [exact Ha|]. simpl. apply sound_set; [exact Ha|]. exact (union_all a u Lu Ha F).
    - apply (fold_inv _ _ (hide_union g) marked_stack); [exact Hrest|]. intros a u _ Ha; apply hide_union_stack, Ha.
    - exact (fold_le _ _ (hide_union g) fst hide_union_le (unions_of pairs o) (m, rest)). }
  destruct A as [A1 [A2 A3]]. destruct (fold_left (hide_field g) (fields_of g t) st) as [m1 s1] eqn:F.
  apply (IH pairs s1 m1 m' E Hp).
  - pose proof (fold_inv _ _ (hide_field g) marked_stack (fields_of g t) st A2) as K. rewrite F in K.
    apply K. intros a b _ Ha; apply hide_field_stack, Ha.
  - pose proof (fold_inv _ _ (hide_field g) (fun st => sound (fst st)) (fields_of g t) st A1) as K.
    cbv beta in K. rewrite F in K. apply K.
    intros [a s] b Hb Ha. destruct (fields_of_in t b Hb) as [Lb Tb]. simpl in Ha.
    apply (hide_field_sound W a s b Lb); [|exact Ha]. apply H_field; [exact Lb|]. rewrite Tb. apply H, Ht.
Qed.
End Sound.

Lemma obind_done : forall A B (o : outcome A) (f : A -> outcome B) b, obind o f = Done b -> exists a, o = Done a /\ f a = Done b.
Proof. intros A B [a| |] f b H; simpl in H; try discriminate. exists a; split; [reflexivity|exact H]. Qed.

Lemma hidden_inputs_in : forall m o, In o (hidden_inputs g m) <-> o < List.length (g_inputs g) /\ m (SType (TInput o)) = true.
Proof. intros m o. unfold hidden_inputs. rewrite filter_In, in_ids. reflexivity. Qed.

Theorem finalize_sound : wf g -> forall m m', finalize_inaccessible g m = Done m' -> forall s, m' s = true -> hidden g m s.
Proof.
  intros W m m' E. unfold finalize_inaccessible in E.
  apply obind_done in E. destruct E as [m2 [E2 E]].
  assert (S0 : sound m m) by (intros s H; apply H_mark, H).
  assert (S1 : sound m (values_loop g m)) by (apply values_loop_sound, S0).
  assert (S2 : sound m m2).
  { apply (inputs_loop_sound m _ _ _ _ E2); [|exact S1]. intros o Ho. apply in_rev in Ho. apply hidden_inputs_in in Ho. apply Ho. }
  pose proof (unions_loop_sound m (interfaces_loop g (objects_loop g m2))) as SU.
  destruct (unions_loop g (interfaces_loop g (objects_loop g m2))) as [m3 pairs] eqn:U.
  destruct SU as [S3 Hp]; [apply interfaces_loop_sound, objects_loop_sound, S2|]. simpl in S3, Hp.
  apply obind_done in E. destruct E as [[m4 s4] [E4 E]]. cbn [fst snd] in E.
  assert (S4 : sound m (fst (m4, s4))).
  { apply (fields_loop_sound m W _ _ ) in E4; [exact E4|]. apply empty_inputs_loop_sound, enums_loop_sound, S3. }
  apply (types_loop_sound m W _ _ _ _ _ E Hp); [|exact S4].
  unfold fields_loop in E4.
  assert (K : match fold_left (field_step g) (ids (g_fields g)) (Done (empty_inputs_loop g (enums_loop g m3), [])) with
              | Done st => marked_stack st | _ => True end).
  { apply (fold_inv _ _ (field_step g) (fun o => match o with Done st => marked_stack st | _ => True end)).
    - intros t [].
    - intros a f _ Ha. destruct a as [st| |]; simpl; try exact Logic.I.
      destruct (f_ty (field_of g f)); try exact Logic.I;
        (destruct (fst st _); [apply hide_field_stack, Ha|exact Ha]). }
  rewrite E4 in K. exact K.
Qed.
End Graph.
