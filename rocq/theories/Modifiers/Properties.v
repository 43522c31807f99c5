(** C12: authorization rules reach the extension that owns them. *)
From Coq Require Import List Arith Bool Lia Sorting.Sorted Sorting.Permutation.
From Verif.Modifiers Require Import Model Spec Proofs.
Import ListNotations.

(** C12, partial: missing are operations that also use @skip or @include, where the gateway panics
    (refuted below).  [sorted] is any result of the unstable sort. *)
Theorem C12_each_rule_asked_once_partial : forall ext_of name_of cmp inserts sorted,
  name_order cmp -> (forall i, In i inserts -> is_ext (fst i)) ->
  Permutation (accumulate [] inserts) sorted -> sorted_by (order ext_of name_of cmp) sorted ->
  exists calls, authorize ext_of name_of sorted = Some calls /\
  NoDup (asked calls) /\
  (forall e nm r, In (e, nm, r) (asked calls) <->
     In r (map fst inserts) /\ exists d t, r = Ext d t /\ e = ext_of d /\ nm = name_of d) /\
  NoDup (map fst calls) /\ Forall (fun c => NoDup (map fst (snd c))) calls.
Proof.
  intros ext_of name_of cmp ins sorted O X P S.
  destruct (accumulate_spec [] ins) as (acc & E & ND & Iff & _). cbn [app] in E. rewrite E in P.
  assert (Pr : Permutation (map r_rule acc) (map r_rule sorted)) by (apply Permutation_map; exact P).
  assert (Xs : Forall is_ext (map r_rule sorted)).
  { apply Forall_forall. intros r I. apply (Permutation_in _ (Permutation_sym Pr)) in I. apply Iff in I.
    apply in_map_iff in I. destruct I as (i & <- & I). auto. }
  destruct (authorize_spec ext_of name_of cmp O sorted S Xs) as (calls & A & B & C & D).
  exists calls. split; [exact A|]. split; [|split; [|auto]].
  - rewrite B. apply (NoDup_map_inv snd). rewrite map_map.
    rewrite (map_ext_in _ (fun r => r)).
    + rewrite map_id. eapply Permutation_NoDup; [exact Pr|exact ND].
    + intros [|] _; reflexivity.
  - intros e nm r. rewrite B, in_map_iff. split.
    + intros (r' & Eo & I). rewrite Forall_forall in Xs. pose proof (Xs r' I) as Xr. destruct r' as [|d t]; [destruct Xr|].
      cbn [owned] in Eo. injection Eo as <- <- <-. split; [apply Iff; apply (Permutation_in _ (Permutation_sym Pr)); exact I|eauto].
    + intros (I & d & t & -> & -> & ->). exists (Ext d t). split; [reflexivity|]. apply (Permutation_in _ Pr). apply Iff. exact I.
Qed.

(** A denial of a rule reaches exactly the fields carrying that rule: the fields of the record at the
    position the extension was given. *)
Theorem C12_denial_reaches_fields : forall inserts sorted q l denied,
  Permutation (accumulate [] inserts) sorted -> handle_decisions sorted q (DenySome l) = Some denied ->
  forall f e, In (f, e) denied <->
    exists i x, In (i, e) l /\ nth_error sorted (fst q + i) = Some x /\ In (r_rule x, Some f) inserts.
Proof.
  intros ins sorted q l denied P H f e. cbn [handle_decisions] in H. apply deny_some_spec in H. subst denied.
  destruct (accumulate_spec [] ins) as (acc & E & _ & _ & Fs). cbn [app] in E. rewrite E in P.
  assert (Ff : forall x, In x sorted -> In f (r_fields x) <-> In (r_rule x, Some f) ins).
  { intros x I. apply (Permutation_in _ (Permutation_sym P)) in I. rewrite (proj1 (Fs x I)). unfold fields_of. rewrite in_flat_map. split.
    - intros ([r o] & Ii & If). cbn [fst snd] in If. destruct (rule_eq_dec r (r_rule x)) as [->|]; [|destruct If].
      destruct o as [g|]; [destruct If as [ -> |[]]; exact Ii|destruct If].
    - intros Ii. exists (r_rule x, Some f). split; [exact Ii|]. cbn [fst snd]. destruct (rule_eq_dec (r_rule x) (r_rule x)); [left; reflexivity|congruence]. }
  rewrite in_flat_map. split.
  - intros ([i e'] & I & D). cbn [fst snd] in D. destruct (nth_error sorted (fst q + i)) as [x|] eqn:N; [|destruct D].
    unfold deny in D. apply in_map_iff in D. destruct D as (g & Eq & D). injection Eq as -> ->. exists i, x. split; [exact I|]. split; [exact N|].
    apply Ff; [eapply nth_error_In; exact N|exact D].
  - intros (i & x & I & N & D). exists (i, e). split; [exact I|]. cbn [fst snd]. rewrite N. unfold deny. apply in_map_iff. exists f. split; [reflexivity|].
    apply Ff; [eapply nth_error_In; exact N|exact D].
Qed.
(** Denials are accepted exactly when every position is one of those the extension was asked about. *)
Theorem C12_denial_accepted_iff_in_range : forall sorted q l, snd q <= length sorted ->
  (exists denied, handle_decisions sorted q (DenySome l) = Some denied) <-> Forall (fun p => fst q + fst p < snd q) l.
Proof.
  intros sorted q l L. cbn [handle_decisions]. split; [|apply deny_some_total; exact L].
  intros (r & H). revert r H. induction l as [|[i e] l IH]; intros r H; [constructor|]. cbn [deny_some] in H.
  destruct (Nat.ltb_spec (fst q + i) (snd q)) as [B|B]; [|discriminate H].
  destruct (nth_error sorted (fst q + i)); [|discriminate H]. destruct (deny_some sorted q l) as [r'|] eqn:E; [|discriminate H].
  constructor; [exact B|]. eapply IH; reflexivity.
Qed.
(** Denying everything denies every field of every rule the extension was asked about. *)
Theorem C12_deny_all_reaches_fields : forall inserts sorted q e,
  Permutation (accumulate [] inserts) sorted ->
  exists denied, handle_decisions sorted q (DenyAll e) = Some denied /\
  forall f e', In (f, e') denied <-> e' = e /\
    exists i x, fst q <= i < snd q /\ nth_error sorted i = Some x /\ In (r_rule x, Some f) inserts.
Proof.
  intros ins sorted q e P. eexists. split; [reflexivity|]. intros f e'.
  destruct (accumulate_spec [] ins) as (acc & E & _ & _ & Fs). cbn [app] in E. rewrite E in P.
  assert (Ff : forall x, In x sorted -> In f (r_fields x) <-> In (r_rule x, Some f) ins).
  { intros x I. apply (Permutation_in _ (Permutation_sym P)) in I. rewrite (proj1 (Fs x I)). unfold fields_of. rewrite in_flat_map. split.
    - intros ([r o] & Ii & If). cbn [fst snd] in If. destruct (rule_eq_dec r (r_rule x)) as [->|]; [|destruct If].
      destruct o as [g|]; [destruct If as [ -> |[]]; exact Ii|destruct If].
    - intros Ii. exists (r_rule x, Some f). split; [exact Ii|]. cbn [fst snd]. destruct (rule_eq_dec (r_rule x) (r_rule x)); [left; reflexivity|congruence]. }
  assert (Sl : forall (l : list record) a b x, In x (slice l a b) <-> exists i, a <= i < b /\ nth_error l i = Some x).
  { clear. unfold slice. intros l a b x.
    assert (H1 : forall n (k : list record), In x (firstn n k) <-> exists i, i < n /\ nth_error k i = Some x).
    { clear. induction n as [|n IH]; intros k; cbn [firstn]; [split; [intros []|intros (i & ? & _); lia]|].
      destruct k as [|y k]; [split; [intros []|intros ([|i] & _ & D); discriminate]|]. cbn [In]. rewrite IH. split.
      - intros [->|(i & L & D)]; [exists 0; split; [lia|reflexivity]|exists (S i); split; [lia|exact D]].
      - intros ([|i] & L & D); [left; cbn in D; congruence|right; exists i; split; [lia|exact D]]. }
    assert (H2 : forall a (k : list record) i, nth_error (skipn a k) i = nth_error k (a + i)).
    { clear. induction a as [|a IH]; intros k i; [reflexivity|]. destruct k as [|y k]; [destruct i; reflexivity|]. apply IH. }
    rewrite H1. split.
    - intros (i & L & D). rewrite H2 in D. exists (a + i). split; [lia|exact D].
    - intros (i & L & D). exists (i - a). split; [lia|]. rewrite H2. replace (a + (i - a)) with i by lia. exact D. }
  rewrite in_flat_map. split.
  - intros (x & I & D). apply in_map_iff in D. destruct D as (g & Eq & D). injection Eq as -> <-. split; [reflexivity|].
    apply Sl in I. destruct I as (i & L & N). exists i, x. split; [exact L|]. split; [exact N|]. apply Ff; [eapply nth_error_In; exact N|exact D].
  - intros (-> & i & x & L & N & D). exists x. split; [apply Sl; eauto|]. apply in_map_iff. exists f. split; [reflexivity|].
    apply Ff; [eapply nth_error_In; exact N|exact D].
Qed.

(** Whenever the operation has one @skip/@include record and one authorization rule, preparing it
    panics, whatever the rules. *)
Theorem C12_skip_with_authorization_panics : forall ext_of name_of cmp native inserts sorted,
  name_order cmp -> (exists x d, In x native /\ r_rule x = Native d) -> (exists i, In i inserts /\ is_ext (fst i)) ->
  Permutation (accumulate native inserts) sorted -> sorted_by (order ext_of name_of cmp) sorted ->
  authorize ext_of name_of sorted = None.
Proof.
  intros ext_of name_of cmp native ins sorted O (x & d & Ix & Rx) (i & Ii & Xi) P S.
  destruct (accumulate_spec native ins) as (acc & E & _ & Iff & _). rewrite E in P.
  assert (Pr : Permutation (map r_rule (native ++ acc)) (map r_rule sorted)) by (apply Permutation_map; exact P).
  rewrite map_app in Pr.
  apply (authorize_native ext_of name_of cmp O sorted d S).
  - apply (Permutation_in _ Pr). apply in_or_app. left. rewrite <- Rx. apply in_map. exact Ix.
  - assert (I : In (fst i) (map r_rule sorted)).
    { apply (Permutation_in _ Pr). apply in_or_app. right. apply Iff. apply in_map. exact Ii. }
    apply in_map_iff in I. destruct I as (y & Ey & Iy). exists y. split; [exact Iy|]. rewrite Ey. exact Xi.
Qed.

(** Non-trivial instance: two extensions; extension 1 owns directives 10 and 11 (names 5 and 4),
    extension 2 owns directive 20; rule (10, 7) is on two fields. *)
Definition demo_ext (d : nat) : nat := d / 10.
Definition demo_name (d : nat) : nat := match d with 10 => 5 | 11 => 4 | _ => 6 end.
Definition demo_inserts : list (rule * option nat) :=
  [(Ext 20 1, Some 100); (Ext 10 7, Some 101); (Ext 11 2, None); (Ext 10 7, Some 102); (Ext 10 8, Some 103)].
Definition demo_sorted : list record :=
  [{| r_rule := Ext 11 2; r_root := true; r_fields := [] |};
   {| r_rule := Ext 10 7; r_root := false; r_fields := [101; 102] |};
   {| r_rule := Ext 10 8; r_root := false; r_fields := [103] |};
   {| r_rule := Ext 20 1; r_root := false; r_fields := [100] |}].
Lemma demo_order : name_order Nat.compare.
Proof.
  constructor; intros.
  - apply Nat.compare_eq_iff.
  - apply Nat.compare_antisym.
  - apply Nat.compare_lt_iff in H, H0. apply Nat.compare_lt_iff. lia.
Qed.
Example C12_example :
  Permutation (accumulate [] demo_inserts) demo_sorted /\
  sorted_by (order demo_ext demo_name Nat.compare) demo_sorted /\
  authorize demo_ext demo_name demo_sorted =
    Some [(1, [(4, [Ext 11 2]); (5, [Ext 10 7; Ext 10 8])]); (2, [(6, [Ext 20 1])])] /\
  handle_decisions demo_sorted (0, 3) (DenySome [(1, 0); (2, 1)]) = Some [(101, 0); (102, 0); (103, 1)] /\
  handle_decisions demo_sorted (0, 3) (DenySome [(3, 0)]) = None /\
  authorize demo_ext demo_name ({| r_rule := Native 0; r_root := false; r_fields := [100] |} :: demo_sorted) = None.
Proof.
  split.
  - change (accumulate [] demo_inserts) with
      [{| r_rule := Ext 20 1; r_root := false; r_fields := [100] |};
       {| r_rule := Ext 10 7; r_root := false; r_fields := [101; 102] |};
       {| r_rule := Ext 11 2; r_root := true; r_fields := [] |};
       {| r_rule := Ext 10 8; r_root := false; r_fields := [103] |}].
    unfold demo_sorted.
    apply perm_trans with (1 := perm_swap _ _ _). apply perm_trans with (1 := perm_skip _ (perm_swap _ _ _)).
    apply perm_trans with (1 := perm_swap _ _ _). apply perm_skip, perm_skip, perm_swap.
  - split; [unfold sorted_by, demo_sorted; repeat constructor; vm_compute; discriminate|]. repeat split.
Qed.

(** Refuted without the restriction to operations free of @skip and @include. *)
Theorem C12_each_rule_asked_once_refuted : exists ext_of name_of cmp native inserts sorted,
  name_order cmp /\ (forall i, In i inserts -> is_ext (fst i)) /\ inserts <> [] /\
  Permutation (accumulate native inserts) sorted /\ sorted_by (order ext_of name_of cmp) sorted /\
  authorize ext_of name_of sorted = None.
Proof.
  exists demo_ext, demo_name, Nat.compare, [{| r_rule := Native 0; r_root := false; r_fields := [100] |}],
    [(Ext 20 1, Some 100)],
    [{| r_rule := Native 0; r_root := false; r_fields := [100] |}; {| r_rule := Ext 20 1; r_root := false; r_fields := [100] |}].
  split; [exact demo_order|]. split; [intros i [<-|[]]; exact I|]. split; [discriminate|]. split; [apply Permutation_refl|].
  split; [unfold sorted_by; repeat constructor; vm_compute; discriminate|reflexivity].
Qed.
