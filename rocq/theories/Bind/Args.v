(** Lookups, arguments, directives and type conditions: the binder against the specification *)
From Coq Require Import String List Bool Arith Lia Permutation.
From Verif.Bind Require Import Model Spec Run.
Import ListNotations.
Local Open Scope string_scope.
Local Open Scope nat_scope.
Local Open Scope list_scope.

Lemma find_lookup {A} (n : name) (l : list (name * A)) v :
  option_map snd (find (fun e => String.eqb (fst e) n) l) = Some v <-> lookup n l v.
Proof.
  induction l as [|[m w] l IH]; cbn.
  - split; [discriminate|]. intros H; inversion H.
  - destruct (String.eqb_spec m n) as [-> | Hne]; cbn.
    + split; [intros [= ->]; constructor|]. intros H; inversion H; subst; [reflexivity|contradiction].
    + rewrite IH. split; [intros H; constructor; auto|]. intros H; inversion H; subst; [contradiction|auto].
Qed.
Lemma find_lookup_none {A} (n : name) (l : list (name * A)) :
  option_map snd (find (fun e => String.eqb (fst e) n) l) = None <-> forall v, ~ lookup n l v.
Proof.
  split.
  - intros H v Hl. apply find_lookup in Hl. congruence.
  - intros H. destruct (option_map snd (find (fun e => String.eqb (fst e) n) l)) eqn:E; [|reflexivity].
    apply find_lookup in E. destruct (H _ E).
Qed.
Lemma lookup_fun {A} n (l : list (name * A)) v w : lookup n l v -> lookup n l w -> v = w.
Proof. rewrite <- !find_lookup. congruence. Qed.
Lemma lookup_in {A} n (l : list (name * A)) v : lookup n l v -> In (n, v) l.
Proof. induction 1; cbn; auto. Qed.

Section Args.
Variable S : schema.

Lemma visible_some p n f : visible S p n = Some f -> s_kind S p <> KUnion -> visible_field S p n f.
Proof.
  unfold visible, find_field. destruct (option_map snd (find (fun e => String.eqb (fst e) n) (s_fields S p))) as [g|] eqn:E; [|discriminate].
  destruct (s_field_inaccessible S g) eqn:I; [discriminate|]. intros [= ->] K. apply find_lookup in E. constructor; auto.
Qed.
Lemma visible_none p n : visible S p n = None -> forall f, ~ visible_field S p n f.
Proof.
  unfold visible, find_field. intros H f [K L I]. apply find_lookup in L. rewrite L, I in H. discriminate.
Qed.
Lemma visible_fun p n f g : visible_field S p n f -> visible_field S p n g -> f = g.
Proof. intros [_ A _] [_ B _]. eapply lookup_fun; eauto. Qed.

Lemma condition_ok p n t : bind_type_condition S p n = inr t <-> narrows S p n t.
Proof.
  unfold bind_type_condition. split.
  - destruct (s_type S n) as [u|] eqn:E; [|discriminate]. destruct (s_type_inaccessible S u) eqn:I; [discriminate|].
    destruct (composite (s_kind S u)) eqn:C; [|discriminate]. cbn [negb]. destruct (s_intersects S p u) eqn:X; [|discriminate].
    intros [= ->]. constructor; [constructor|]; auto.
  - intros [[E I C] X]. rewrite E, I, C, X. reflexivity.
Qed.
Lemma condition_err p n e : bind_type_condition S p n = inl e -> cond_fault S p n e.
Proof.
  unfold bind_type_condition.
  destruct (s_type S n) as [u|] eqn:E.
  - destruct (s_type_inaccessible S u) eqn:I.
    + intros [= <-]. apply Fault_type. intros t H. congruence.
    + destruct (composite (s_kind S u)) eqn:C; cbn [negb].
      * destruct (s_intersects S p u) eqn:X; [discriminate|]. intros [= <-]. eapply Fault_disjoint; [constructor|]; eauto.
      * intros [= <-]. eapply Fault_leaf_type; eauto.
  - intros [= <-]. apply Fault_type. intros t H. congruence.
Qed.
Lemma narrows_fun p n t u : narrows S p n t -> narrows S p n u -> t = u.
Proof. intros [[A _ _] _] [[B _ _] _]. congruence. Qed.
Lemma narrows_no_fault p n t e : narrows S p n t -> ~ cond_fault S p n e.
Proof.
  intros [[A I C] X] H. inversion H as [F|u E I' C'|u [E I' C'] X']; subst.
  - specialize (F _ A). congruence.
  - congruence.
  - congruence.
Qed.

(** ** Directives *)
Lemma dirs_errors dirs es ds : bind_dirs S dirs = (es, ds) -> forall e, In e es -> dir_fault S dirs e.
Proof.
  unfold bind_dirs. destruct (bind_conditions S dirs) as [es' out] eqn:E. intros [= <- _]. revert es' out E.
  assert (W : forall d dirs e, dir_fault S dirs e -> dir_fault S (d :: dirs) e).
  { intros d l e H. inversion H; subst; econstructor; eauto; now right. }
  induction dirs as [|d dirs IH]; cbn [bind_conditions]; intros es out; [intros [= <- _] e []|].
  destruct (bind_conditions S dirs) as [es1 out1] eqn:E1. specialize (IH _ _ eq_refl).
  destruct (String.eqb (d_name d) "skip" || String.eqb (d_name d) "include") eqn:Cn.
  2: { intros [= <- _] e He. apply W, IH, He. }
  assert (HC : conditional (d_name d)).
  { apply orb_true_iff in Cn. destruct Cn as [H | H]; apply String.eqb_eq in H; [now left|now right]. }
  destruct (d_args d) as [|[m v] rest] eqn:Ea.
  - intros [= <- _] e [<- | He]; [|apply W, IH, He]. eapply Fault_dir_missing; eauto. now left.
  - intros [= <- _] e He. apply in_app_or in He. destruct He as [He | He]; [|apply W, IH, He].
    destruct (s_coerces S (s_boolean S) v) eqn:Cv; [destruct He|]. destruct He as [<- | []]. eapply Fault_dir_value; eauto. now left.
Qed.
Lemma filter_perm {A} (f : A -> bool) l : Permutation l (filter f l ++ filter (fun x => negb (f x)) l).
Proof.
  induction l as [|x l IH]; cbn; [constructor|]. destruct (f x); cbn [negb].
  - cbn. now constructor.
  - etransitivity; [constructor; exact IH|]. apply Permutation_middle.
Qed.
Lemma dirs_ok dirs ds : bind_dirs S dirs = ([], ds) -> conds_of dirs ds /\ forall e, ~ dir_fault S dirs e.
Proof.
  unfold bind_dirs. destruct (bind_conditions S dirs) as [es out] eqn:E. intros [= -> <-].
  assert (H : conds_in dirs out /\ forall e, ~ dir_fault S dirs e).
  2: { destruct H as [H F]. split; [|exact F]. exists out. split; [exact H|apply filter_perm]. }
  revert out E. induction dirs as [|d dirs IH]; cbn [bind_conditions]; intros out.
  - intros [= <-]. split; [constructor|]. intros e H. inversion H as [? I|? ? ? ? I]; destruct I.
  - destruct (bind_conditions S dirs) as [es1 out1] eqn:E1.
    destruct (String.eqb (d_name d) "skip" || String.eqb (d_name d) "include") eqn:Cn.
    + destruct (d_args d) as [|[m v] rest] eqn:Ea; [discriminate|]. intros H. injection H as He Ho.
      destruct (s_coerces S (s_boolean S) v) eqn:Cv; [|discriminate He]. cbn in He. subst es1. destruct (IH _ eq_refl) as [IHo IHf]. subst out. split.
      * destruct d as [nm ags]. cbn in *. subst ags. apply orb_true_iff in Cn. destruct (String.eqb_spec nm "skip") as [-> | Hne]; [now constructor|].
        destruct Cn as [H | H]; [discriminate|]. apply String.eqb_eq in H. subst nm. now constructor.
      * intros e H. inversion H as [d' I HC Ha|d' m' v' r' I HC Ha Hv]; subst.
        -- destruct I as [<- | I]; [congruence|]. eapply IHf. eapply Fault_dir_missing; eauto.
        -- destruct I as [<- | I]; [congruence|]. eapply IHf. eapply Fault_dir_value; eauto.
    + intros H. injection H as He Ho. subst es1 out1. destruct (IH _ eq_refl) as [IHo IHf].
      assert (HC : ~ conditional (d_name d)).
      { intros [H | H]; rewrite H in Cn; cbn in Cn; discriminate. }
      split; [now constructor|]. intros e H. inversion H as [d' I HC' Ha|d' m' v' r' I HC' Ha Hv]; subst.
      * destruct I as [<- | I]; [contradiction|]. eapply IHf. eapply Fault_dir_missing; eauto.
      * destruct I as [<- | I]; [contradiction|]. eapply IHf. eapply Fault_dir_value; eauto.
Qed.

(** ** Arguments *)
Lemma position_spec n args :
  match position n args with
  | Some i => exists v l r, args = l ++ (n, v) :: r /\ List.length l = i /\ ~ In n (map fst l)
  | None => ~ In n (map fst args)
  end.
Proof.
  induction args as [|[m w] args IH]; cbn [position]; [easy|]. cbn [fst].
  destruct (String.eqb_spec m n) as [-> | Hne].
  - exists w, [], args. cbn. auto.
  - destruct (position n args) as [i|]; cbn [option_map].
    + destruct IH as [v [l [r [-> [<- Hl]]]]]. exists v, ((m, w) :: l), r. cbn. split; [reflexivity|split; [reflexivity|]].
      intros [H | H]; [contradiction|now apply Hl].
    + cbn. intros [H | H]; [contradiction|now apply IH].
Qed.
Lemma swap_remove_perm {A} (l r : list A) x : Permutation (swap_remove (List.length l) (l ++ x :: r)) (l ++ r).
Proof.
  unfold swap_remove. destruct (rev r) as [|y r'] eqn:E.
  - assert (r = []) by (destruct r; [reflexivity|cbn in E; apply app_eq_nil in E; destruct E; discriminate]). subst r.
    rewrite rev_app_distr. cbn [rev app]. rewrite rev_involutive, Nat.eqb_refl, app_nil_r. reflexivity.
  - assert (r = rev r' ++ [y]) by (rewrite <- (rev_involutive r), E; reflexivity). subst r.
    replace (l ++ x :: rev r' ++ [y]) with ((l ++ x :: rev r') ++ [y]) by (now rewrite <- app_assoc).
    rewrite rev_app_distr. cbn [rev app]. rewrite rev_involutive.
    assert (E' : (List.length l =? List.length (l ++ x :: rev r')) = false).
    { apply Nat.eqb_neq. rewrite app_length. cbn. lia. }
    rewrite E'. rewrite firstn_app, Nat.sub_diag, firstn_all. cbn [firstn]. rewrite app_nil_r.
    rewrite skipn_app. replace (1 + List.length l - List.length l) with 1 by lia. rewrite skipn_all2 by lia. cbn [skipn app].
    rewrite app_assoc. apply Permutation_trans with (l ++ y :: rev r'); [reflexivity|].
    rewrite <- app_assoc. apply Permutation_app_head. apply Permutation_cons_append.
Qed.

Lemma args_errors f defs : forall args es avs, bind_args S f defs args = (es, avs) -> NoDup (map a_name defs) -> forall e, In e es ->
  (exists a, In a defs /\ a_inaccessible a = false /\ ~ In (a_name a) (map fst args) /\ a_default a = false /\ a_nonnull a = true /\ e = MissingArgument f (a_name a)) \/
  (exists a v, In a defs /\ a_inaccessible a = false /\ In (a_name a, v) args /\ s_coerces S (a_type a) v = false /\ e = BadValue (a_type a) v) \/
  (exists n v, In (n, v) args /\ ~ (exists a, In a defs /\ a_inaccessible a = false /\ a_name a = n) /\ e = UnknownArgument f n) \/
  (exists n v l r, Permutation args ((n, v) :: l) /\ In (n, r) l /\ e = UnknownArgument f n).
Proof.
  induction defs as [|d defs IH]; cbn [bind_args]; intros args es avs HB HN e He.
  - injection HB as <- _. destruct args as [|[n v] args]; [destruct He|]. destruct He as [<- | []].
    right; right; left. exists n, v. split; [now left|split; [|reflexivity]]. intros [a [[] _]].
  - cbn [map] in HN. inversion HN as [|? ? Hd HN']; subst.
    destruct (a_inaccessible d) eqn:Hh.
    { destruct (IH _ _ _ HB HN' e He) as [[a [A B]] | [[a [v [A B]]] | [[n [v [A [B C]]]] | H]]].
      - left. exists a. split; [now right|exact B].
      - right; left. exists a, v. split; [now right|exact B].
      - right; right; left. exists n, v. split; [exact A|split; [|exact C]]. intros [a [[<- | I] [J K]]]; [congruence|]. apply B. exists a. auto.
      - right; right; right. exact H. }
    pose proof (position_spec (a_name d) args) as HP. destruct (position (a_name d) args) as [i|].
    + destruct HP as [v [l [r [-> [<- Hl]]]]]. rewrite nth_error_app2, Nat.sub_diag in HB by lia. cbn [nth_error snd] in HB.
      set (sw := swap_remove (List.length l) (l ++ (a_name d, v) :: r)) in *.
      assert (HSW : Permutation sw (l ++ r)) by apply swap_remove_perm.
      assert (HAll : Permutation (l ++ (a_name d, v) :: r) ((a_name d, v) :: sw)).
      { rewrite HSW. symmetry. apply Permutation_middle. }
      destruct (bind_args S f defs sw) as [es1 out1] eqn:E1. injection HB as <- _. apply in_app_or in He. destruct He as [He | He].
      * destruct (s_coerces S (a_type d) v) eqn:Cv; [destruct He|]. destruct He as [<- | []]. right; left. exists d, v.
        split; [now left|split; [exact Hh|split; [|auto]]]. apply in_or_app. right. now left.
      * destruct (IH _ _ _ E1 HN' e He) as [[a [A [B [C B']]]] | [[a [w [A [B [C B']]]]] | [[n [w [A [B C]]]] | [n [w [l' [r' [A [B C]]]]]]]]].
        -- left. exists a. split; [now right|split; [exact B|split; [|exact B']]]. intros Hin. apply C.
           apply (Permutation_in _ (Permutation_map fst HAll)) in Hin. cbn in Hin. destruct Hin as [Hin | Hin]; [|exact Hin].
           exfalso. apply Hd. rewrite Hin. now apply in_map.
        -- right; left. exists a, w. split; [now right|split; [exact B|split; [|exact B']]]. apply (Permutation_in _ (Permutation_sym HAll)). now right.
        -- destruct (string_dec (a_name d) n) as [Hdn | Hdn].
           ++ right; right; right. subst n. exists (a_name d), v, sw, w. auto.
           ++ right; right; left. exists n, w. split; [apply (Permutation_in _ (Permutation_sym HAll)); now right|split; [|exact C]].
              intros [a [[<- | I] [J K]]]; [contradiction|]. apply B. exists a. auto.
        -- right; right; right. exists n, w, ((a_name d, v) :: l'), r'. split; [|split; [now right|exact C]].
           rewrite HAll, A. apply perm_swap.
    + destruct (bind_args S f defs args) as [es1 out1] eqn:E1.
      assert (HIH : In e es1 ->
        (exists a, In a (d :: defs) /\ a_inaccessible a = false /\ ~ In (a_name a) (map fst args) /\ a_default a = false /\ a_nonnull a = true /\ e = MissingArgument f (a_name a)) \/
        (exists a v, In a (d :: defs) /\ a_inaccessible a = false /\ In (a_name a, v) args /\ s_coerces S (a_type a) v = false /\ e = BadValue (a_type a) v) \/
        (exists n v, In (n, v) args /\ ~ (exists a, In a (d :: defs) /\ a_inaccessible a = false /\ a_name a = n) /\ e = UnknownArgument f n) \/
        (exists n v l r, Permutation args ((n, v) :: l) /\ In (n, r) l /\ e = UnknownArgument f n)).
      { intros Hin. destruct (IH _ _ _ E1 HN' e Hin) as [[a [A B]] | [[a [v [A B]]] | [[n [v [A [B C]]]] | H]]].
        - left. exists a. split; [now right|exact B].
        - right; left. exists a, v. split; [now right|exact B].
        - right; right; left. exists n, v. split; [exact A|split; [|exact C]]. intros [a [[<- | I] [J K]]].
          + apply HP. rewrite K. change n with (fst (n, v)). now apply in_map.
          + apply B. exists a. auto.
        - right; right; right. exact H. }
      destruct (a_default d) eqn:Dd; [injection HB as <- _; auto|].
      destruct (a_nonnull d) eqn:Dn; [|injection HB as <- _; auto].
      injection HB as <- _. destruct He as [<- | He]; [|auto]. left. exists d. split; [now left|auto 6].
Qed.
Lemma args_faults f args es avs : bind_args S f (s_args S f) args = (es, avs) -> NoDup (map a_name (s_args S f)) -> forall e, In e es -> arg_fault S f args e.
Proof.
  intros HB HN e He. destruct (args_errors _ _ _ _ _ HB HN e He) as [[a [A [B [C [X [Y ->]]]]]] | [[a [v [A [B [C [X ->]]]]]] | [[n [v [A [B ->]]]] | [n [v [l [r [A [B ->]]]]]]]]].
  - apply Fault_missing; auto. split; auto.
  - eapply Fault_value; eauto. split; auto.
  - eapply Fault_unknown; eauto. intros [a [[H1 H2] H3]]. apply B. exists a. auto.
  - eapply Fault_twice; eauto.
Qed.


Lemma arg_values_more n v sw args defs out :
  ~ In n (map a_name defs) -> Permutation args ((n, v) :: sw) -> arg_values sw defs out -> arg_values args defs out.
Proof.
  intros Hn HP HV. revert Hn.
  assert (HI : forall m w, In (m, w) sw -> In (m, w) args) by (intros m w H; apply (Permutation_in _ (Permutation_sym HP)); now right).
  assert (HJ : forall m, m <> n -> ~ In m (map fst sw) -> ~ In m (map fst args)).
  { intros m Hm H Hin. apply (Permutation_in _ (Permutation_map fst HP)) in Hin. cbn in Hin. destruct Hin as [<- | Hin]; auto. }
  induction HV as [|a defs out Hh HV IH|a defs out w Hh Hi HV IH|a defs out Hh Hi Hd HV IH|a defs out Hh Hi Hd HV IH]; cbn [map]; intros Hn.
  - constructor.
  - apply AV_hidden; auto. apply IH. intros H; apply Hn; now right.
  - apply AV_given; auto. apply IH. intros H; apply Hn; now right.
  - apply AV_default; auto; [apply HJ; auto; intros E; apply Hn; now left|]. apply IH. intros H; apply Hn; now right.
  - apply AV_absent; auto; [apply HJ; auto; intros E; apply Hn; now left|]. apply IH. intros H; apply Hn; now right.
Qed.
Lemma args_ok_aux f defs : forall args avs, bind_args S f defs args = ([], avs) -> NoDup (map a_name defs) ->
  arg_values args defs avs /\ NoDup (map fst args) /\
  (forall n v, In (n, v) args -> exists a, In a defs /\ a_inaccessible a = false /\ a_name a = n /\ s_coerces S (a_type a) v = true) /\
  (forall a, In a defs -> a_inaccessible a = false -> ~ In (a_name a) (map fst args) -> a_default a = true \/ a_nonnull a = false).
Proof.
  induction defs as [|d defs IH]; cbn [bind_args]; intros args avs HB HN.
  - destruct args; [|discriminate]. injection HB as <-. split; [constructor|split; [constructor|split]].
    + intros n v [].
    + intros a [].
  - cbn [map] in HN. inversion HN as [|? ? Hd HN']; subst.
    destruct (a_inaccessible d) eqn:Hh.
    { destruct (IH _ _ HB HN') as [A [B [C E]]]. split; [now apply AV_hidden|split; [exact B|split]].
      - intros n v Hi. destruct (C _ _ Hi) as [a [H1 H2]]. exists a. split; [now right|exact H2].
      - intros a [<- | Hi]; [congruence|auto]. }
    pose proof (position_spec (a_name d) args) as HP. destruct (position (a_name d) args) as [i|].
    + destruct HP as [v [l [r [-> [<- Hl]]]]]. rewrite nth_error_app2, Nat.sub_diag in HB by lia. cbn [nth_error snd] in HB.
      set (sw := swap_remove (List.length l) (l ++ (a_name d, v) :: r)) in *.
      assert (HSW : Permutation sw (l ++ r)) by apply swap_remove_perm.
      assert (HAll : Permutation (l ++ (a_name d, v) :: r) ((a_name d, v) :: sw)).
      { rewrite HSW. symmetry. apply Permutation_middle. }
      destruct (bind_args S f defs sw) as [es1 out1] eqn:E1.
      destruct (s_coerces S (a_type d) v) eqn:Cv; [|discriminate]. cbn [app] in HB. injection HB as -> <-.
      destruct (IH _ _ E1 HN') as [A [B [C E]]]. split; [|split; [|split]].
      * apply AV_given; auto; [apply in_or_app; right; now left|]. eapply arg_values_more; eauto.
      * apply (Permutation_NoDup (Permutation_sym (Permutation_map fst HAll))). cbn. constructor; [|exact B].
        intros Hin. apply in_map_iff in Hin. destruct Hin as [[m w] [Hm Hin]]. cbn in Hm. subst m.
        destruct (C _ _ Hin) as [a [H1 [_ [H3 _]]]]. apply Hd. rewrite <- H3. now apply in_map.
      * intros n w Hin. apply (Permutation_in _ HAll) in Hin. destruct Hin as [[= <- <-] | Hin].
        -- exists d. split; [now left|auto].
        -- destruct (C _ _ Hin) as [a [H1 H2]]. exists a. split; [now right|exact H2].
      * intros a [<- | Hi] Ha Hn; [|apply E; auto].
        -- exfalso. apply Hn. rewrite map_app. apply in_or_app. right. now left.
        -- intros Hin. apply Hn. apply (Permutation_in _ (Permutation_sym (Permutation_map fst HAll))). now right.
    + destruct (bind_args S f defs args) as [es1 out1] eqn:E1.
      destruct (a_default d) eqn:Dd; [|destruct (a_nonnull d) eqn:Dn; [discriminate|]]; injection HB as -> <-;
        destruct (IH _ _ E1 HN') as [A [B [C E]]].
      * split; [now apply AV_default|split; [exact B|split]].
        -- intros n v Hi. destruct (C _ _ Hi) as [a [H1 H2]]. exists a. split; [now right|exact H2].
        -- intros a [<- | Hi]; auto.
      * split; [now apply AV_absent|split; [exact B|split]].
        -- intros n v Hi. destruct (C _ _ Hi) as [a [H1 H2]]. exists a. split; [now right|exact H2].
        -- intros a [<- | Hi]; auto.
Qed.
Lemma names_distinct (defs : list argdef) a b : NoDup (map a_name defs) -> In a defs -> In b defs -> a_name a = a_name b -> a = b.
Proof.
  induction defs as [|d defs IH]; cbn; [easy|]. intros HN. inversion HN as [|? ? H1 H2]; subst.
  intros [<- | Ha] [<- | Hb] E; auto; exfalso; apply H1; [rewrite E|rewrite <- E]; now apply in_map.
Qed.
Lemma args_ok f args avs : bind_args S f (s_args S f) args = ([], avs) -> NoDup (map a_name (s_args S f)) ->
  arg_values args (s_args S f) avs /\ forall e, ~ arg_fault S f args e.
Proof.
  intros HB HN. destruct (args_ok_aux _ _ _ _ HB HN) as [A [B [C E]]]. split; [exact A|].
  intros e H. inversion H as [a [V1 V2] Hn Hd Hr|a n v [V1 V2] Ha Hi Hc|n v Hi Hn|n v l r HP Hi]; subst.
  - destruct (E _ V1 V2 Hn); congruence.
  - destruct (C _ _ Hi) as [b [H1 [H2 [H3 H4]]]]. assert (a = b) by (eapply names_distinct; eauto). subst b. congruence.
  - destruct (C _ _ Hi) as [b [H1 [H2 [H3 H4]]]]. apply Hn. exists b. split; [split; auto|auto].
  - apply (Permutation_NoDup (Permutation_map fst HP)) in B. cbn in B. inversion B as [|? ? X Y]; subst. apply X.
    change n with (fst (n, r)). now apply in_map.
Qed.
End Args.
