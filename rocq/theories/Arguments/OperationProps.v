(** Properties of the values of an operation as a whole: what is sent is accepted (C69), which
    operations (C70) and which variables (C71) are accepted. *)
From Coq Require Import ZArith QArith String List Bool Lia Arith.
From Verif.Wrapping Require Import Spec Proofs.
From Verif.Coercion Require Import Json Model Binding Properties.
From Verif.Coercion Require Spec Proofs.
From Verif.Arguments Require Import Model Spec Facts AcceptProps UseFacts SentFacts OperationFacts.
Import ListNotations.
Local Open Scope list_scope.
Local Open Scope nat_scope.

Lemma operation_inv sch boolean ps sites vars out : bind_operation sch boolean ps sites = Ok (vars, out) <->
  bind_variable_definitions sch ps [] = Ok (vars, false) /\ bind_sites sch vars boolean sites = Ok (out, false) /\
  forall id, id < List.length vars -> exists o, In (id, o) (flat_map bound_uses out).
Proof.
  unfold bind_operation.
  assert (K : forall us n, forallb (in_use us) (seq 0 n) = true <-> forall id, id < n -> exists o, In (id, o) us).
  { intros us n. rewrite forallb_forall. split; intros H id Hid.
    - specialize (H id). rewrite in_seq in H. unfold in_use in H. destruct (proj1 (existsb_exists _ _) (H ltac:(lia))) as ([i o] & Hin & E).
      apply Nat.eqb_eq in E. cbn [fst] in E. subst i. eauto.
    - apply in_seq in Hid. destruct (H id) as [o Hin]; [lia|]. unfold in_use. apply existsb_exists. exists (id, o).
      split; [auto|]. apply Nat.eqb_refl. }
  split.
  - intros H. apply Proofs.bind_ok in H as ([vars0 e1] & H1 & H). apply Proofs.bind_ok in H as ([out0 e2] & H2 & H).
    destruct (e1 || e2) eqn:E; [discriminate|]. apply orb_false_iff in E as [-> ->].
    destruct (forallb _ _) eqn:Fb; [|discriminate]. injection H as <- <-. split; [auto|]. split; [auto|]. apply K. auto.
  - intros (H1 & H2 & H3). rewrite H1. cbn [bind]. rewrite H2. cbn [bind orb]. rewrite (proj2 (K _ _) H3). reflexivity.
Qed.
Lemma forall2_exists {A B} (R : A -> B -> Prop) l : (forall x, In x l -> exists y, R x y) -> exists l', Forall2 R l l'.
Proof.
  induction l as [|x l IH]; intros H; [exists []; constructor|]. destruct (H x (or_introl eq_refl)) as [y Hy].
  destruct IH as [l' F]; [intros x' Hx'; apply H; right; auto|]. exists (y :: l'). constructor; auto.
Qed.
Lemma forall2_nth {A B} (R : A -> B -> Prop) l l' : Forall2 R l l' -> forall i y, nth_error l' i = Some y -> exists x, nth_error l i = Some x /\ R x y.
Proof.
  induction 1 as [|x y l l' H F IH]; intros [|i] z E; cbn in E; try discriminate.
  - injection E as <-. exists x. auto.
  - apply IH; auto.
Qed.

(** * C70 *)
(** An operation's values are accepted exactly when variables have distinct names, known input types
    of at most ten list levels and defaults that fit, every value fits at its place (see C67), every
    @skip and @include has one that fits Boolean!, and every variable is used. *)
Theorem C70_operation_accepted_iff : forall (sch : gschema) (boolean : nat) (ps : list pvar) (sites : list site),
  operation_ok sch boolean ps sites ->
  ((exists r, bind_operation sch boolean ps sites = Ok r) <-> operation_fits sch boolean ps sites).
Proof.
  intros sch boolean ps sites (Hs & Hb & Ht & Hd). split.
  - intros [[vars out] H]. apply operation_inv in H as (H1 & H2 & H3).
    apply (definitions_inv sch) in H1 as (F & Nd & _). pose proof (bound_vars_ok sch _ _ F Nd) as Vok.
    apply (sites_iff sch vars boolean) in H2. split; [auto|]. split; [|split].
    + intros p Hp. destruct (forall2_in_l _ _ _ _ F Hp) as (v & Hv & N1 & Ty & D & Wv & Df). exists (v_type v).
      split; [auto|]. split; [auto|]. intros l El. rewrite El in Df. destruct Df as (q & _ & Q). rewrite Wv in Q.
      apply (default_iff sch Hs p l (v_type v)); eauto.
    + apply Forall_forall. intros s Hin. destruct (forall2_in_l _ _ _ _ H2 Hin) as (b & _ & B).
      assert (Hd' : forall defs args, s = SField defs args -> defs_ok sch defs) by (intros defs args ->; eapply Hd; eauto).
      pose proof (proj1 (site_accepted sch Hs vars boolean Vok Hb s Hd') (ex_intro _ b B)) as K. clear B.
      destruct s as [defs args|args]; cbn [site_fits].
      * eapply (fits_in_ext (fits_in sch (usable_var vars false))); [|exact K].
        intros f k v _ _. apply fits_in_iff. apply declared_usable with (sch := sch); auto.
      * destruct K as (k & v & rest & -> & f & K1 & K2 & K3). exists k, v, rest. split; [auto|]. exists f. split; [auto|]. split; [auto|].
        eapply fits_in_iff; [|exact K3]. intros x t u. symmetry. apply declared_usable with (sch := sch); auto.
    + intros p Hp. destruct (forall2_in_l _ _ _ _ F Hp) as (v & Hv & B). apply In_nth_error in Hv as [id Hv].
      destruct (H3 id) as [o Hin]; [apply nth_error_Some; congruence|]. exists o.
      apply (sites_uses sch Hs vars boolean Vok Hb sites out Hd H2) in Hin as (x & R & M).
      apply (refers_nth vars (proj1 Vok)) in R as (v' & E & <-). assert (v' = v) by congruence. subst v'.
      destruct B as (<- & _). exact M.
  - intros (Nd & Dfs & Sf & Used).
    destruct (forall2_exists (bound_var sch) ps) as [vars F].
    { intros p Hp. destruct (Dfs p Hp) as (t & Ty & D & Df).
      destruct (p_default p) as [l|] eqn:El.
      - destruct (proj2 (default_iff sch Hs p l t (Ht p t Hp Ty) D) (Df l eq_refl)) as [q Q].
        exists {| v_name := p_name p; v_type := t; v_wrapping := enc (recorded p); v_default := Some q |}.
        split; [reflexivity|]. split; [exact Ty|]. split; [exact D|]. split; [reflexivity|]. rewrite El. exists q. auto.
      - exists {| v_name := p_name p; v_type := t; v_wrapping := enc (recorded p); v_default := None |}.
        split; [reflexivity|]. split; [exact Ty|]. split; [exact D|]. split; [reflexivity|]. rewrite El. reflexivity. }
    pose proof (bound_vars_ok sch _ _ F Nd) as Vok.
    destruct (forall2_exists (bound_site sch vars boolean) sites) as [out Fo].
    { intros s Hin. assert (Hd' : forall defs args, s = SField defs args -> defs_ok sch defs) by (intros defs args ->; eapply Hd; eauto).
      apply (site_accepted sch Hs vars boolean Vok Hb s Hd'). pose proof (proj1 (Forall_forall _ _) Sf s Hin) as K.
      destruct s as [defs args|args]; cbn [site_fits] in K.
      - eapply (fits_in_ext (fits_in sch (usable_var vars false))); [|exact K].
        intros f k v _ _. apply fits_in_iff. apply declared_usable with (sch := sch); auto.
      - destruct K as (k & v & rest & -> & f & K1 & K2 & K3). exists k, v, rest. split; [auto|]. exists f. split; [auto|]. split; [auto|].
        eapply fits_in_iff; [|exact K3]. apply declared_usable with (sch := sch); auto. }
    exists (vars, out). apply operation_inv. split; [apply definitions_ok; auto|]. split; [apply sites_iff; auto|].
    intros id Hid. destruct (nth_error vars id) as [v|] eqn:E; [|apply nth_error_None in E; lia].
    destruct (forall2_nth _ _ _ F _ _ E) as (p & Ep & B). destruct (Used p (nth_error_In _ _ Ep)) as [o M]. exists o.
    apply (sites_uses sch Hs vars boolean Vok Hb sites out Hd Fo). exists (p_name p). split; [|auto].
    apply (refers_nth vars (proj1 Vok)). exists v. split; [auto|]. apply B.
Qed.
Print Assumptions C70_operation_accepted_iff.

(** Examples: [query($x: Int = 5, $y: One!) { f(in: {n: $x}, one: $y) @skip(if: false) }]. *)
Definition pv n t u d := {| p_name := n; p_type := Some t; p_ty := u; p_default := d |}.
Lemma ex_types t : type_ok ex_sch t.
Proof. unfold type_ok. do 7 (destruct t as [|t]; cbn; [solve [auto|nodup|eauto]|]). auto. Qed.
Lemma ex_defs_ok : defs_ok ex_sch ex_defs.
Proof.
  split; [|nodup]. unfold ex_defs.
  repeat (constructor; [apply ad_ok; [apply ex_types|cbn; lia|discriminate]|]). constructor.
Qed.
Definition ex_ps : list pvar := [pv "x" 0 (Named false) (Some (LInt 5)); pv "y" 3 (Named true) None].
Definition ex_sites : list site :=
  [SCondition [("if"%string, LBool false)];
   SField ex_defs [("in"%string, LObj [("n"%string, LVar "x")]); ("one"%string, LVar "y")]].
Lemma ex_operation_ok ps sites : (forall defs args, In (SField defs args) sites -> defs = ex_defs) -> operation_ok ex_sch 5 ps sites.
Proof.
  intros H. split; [exact ex_sch_ok|]. split; [reflexivity|]. split; [intros p t _ _; apply ex_types|].
  intros defs args Hin. rewrite (H _ _ Hin). exact ex_defs_ok.
Qed.
Ltac ex_ok := apply ex_operation_ok; cbn; intuition congruence.
Example C70_example :
  operation_ok ex_sch 5 ex_ps ex_sites /\
  (exists r, bind_operation ex_sch 5 ex_ps ex_sites = Ok r) /\
  bind_operation ex_sch 5 (ex_ps ++ ex_ps) ex_sites = Err /\
  bind_operation ex_sch 5 (pv "z" 0 (Named false) None :: ex_ps) ex_sites = Err /\
  bind_operation ex_sch 5 [pv "y" 3 (Named true) None] ex_sites = Err /\
  bind_operation ex_sch 5 ex_ps (SCondition [] :: ex_sites) = Err.
Proof.
  split; [ex_ok|]. split; [eexists; vm_compute; reflexivity|]. vm_compute. auto.
Qed.

(** The GraphQL specification's rule for variables (5.8.5) is another one, both ways.  A nullable
    variable without a default is refused for a required argument that has one ... *)
Theorem C70_defaulted_place_refuted : exists declared used,
  allowed_by_graphql declared false used true /\ ~ usable_as declared used.
Proof.
  exists (Named false), (Named true). split.
  - right. cbn. auto.
  - intros [H|[_ H]]; [discriminate H; reflexivity|]. discriminate H. reflexivity.
Qed.
Print Assumptions C70_defaulted_place_refuted.
(** ... and a variable that isn't a list is accepted where any list is expected. *)
Theorem C70_single_for_list_refuted : exists declared used, usable_as declared used /\
  forall vd pd, ~ allowed_by_graphql declared vd used pd.
Proof.
  exists (Named true), (ListOf (Named true) true). split; [right; auto|]. intros vd pd [H|(_ & H & _)]; [destruct H|discriminate H].
Qed.
Print Assumptions C70_single_for_list_refuted.
(** Otherwise the rules agree: for variables without a default used at places without one, and lists
    only for lists. *)
Theorem C70_rule_partial : forall declared used, listp declared = listp used ->
  (usable_as declared used <-> allowed_by_graphql declared false used false).
Proof.
  intros d u L. unfold usable_as, allowed_by_graphql. split.
  - intros [H|[H R]]; [left; auto|]. left. destruct d as [rd|]; [|discriminate]. destruct u as [ru|]; [|discriminate]. exact R.
  - intros [H|(_ & _ & [H|H] & _)]; [auto|discriminate|discriminate].
Qed.
Print Assumptions C70_rule_partial.
(** @skip and @include: the name of the argument isn't looked at, nor whether there are others. *)
Theorem C70_condition_name_refuted : forall ps r, bind_operation ex_sch 5 ps ex_sites = Ok r ->
  exists r', bind_operation ex_sch 5 ps (SCondition [("unless"%string, LBool true); ("if"%string, LInt 3)] :: ex_sites) = Ok r'.
Proof.
  intros ps r H. apply C70_operation_accepted_iff; [ex_ok|].
  destruct (proj1 (C70_operation_accepted_iff ex_sch 5 ps ex_sites ltac:(ex_ok))) as (A & B & C & D); [eauto|].
  split; [auto|]. split; [auto|]. split.
  - constructor; [|auto]. cbn [site_fits]. exists "unless"%string, (LBool true), [("if"%string, LInt 3)]. split; [auto|].
    exists (bdef 5). split; [reflexivity|]. split; [apply bdef_type|]. apply (ff_direct _ _ _ (Named true)); [apply bdef_type|].
    apply fi_named; [discriminate|discriminate|]. apply fn_boolean.
  - intros p Hp. destruct (D p Hp) as (o & s & Hs & M). exists o, s. split; [right|]; auto.
Qed.
Print Assumptions C70_condition_name_refuted.

(** * C71 *)
Lemma bind_each_ok sch us request vars : forall i xs, bind_each sch us i vars request = Ok xs <->
  List.length xs = List.length vars /\
  forall k v, nth_error vars k = Some v -> exists x, nth_error xs k = Some x /\ bind_variable sch (one_of_use us (i + k)) v request = Ok x.
Proof.
  induction vars as [|v vars IH]; intros i xs; cbn [bind_each].
  - split.
    + intros H. injection H as <-. split; [reflexivity|]. intros [|k] v E; discriminate.
    + intros [H _]. destruct xs; [reflexivity|discriminate].
  - split.
    + intros H. apply Proofs.bind_ok in H as (x & Hx & H). apply Proofs.bind_ok in H as (xs' & Hxs & H). injection H as <-.
      apply IH in Hxs as [L F]. split; [cbn; congruence|]. intros [|k] v' E; cbn in E.
      * injection E as <-. exists x. split; [reflexivity|]. rewrite Nat.add_0_r. auto.
      * destruct (F k v' E) as (x' & Ex & Hx'). exists x'. split; [exact Ex|]. rewrite Nat.add_succ_r. exact Hx'.
    + intros [L F]. destruct xs as [|x xs]; [discriminate|]. destruct (F 0 v eq_refl) as (x' & Ex & Hx). cbn in Ex. injection Ex as <-.
      rewrite Nat.add_0_r in Hx. rewrite Hx. cbn [bind]. rewrite (proj2 (IH (S i) xs)); [reflexivity|]. split; [cbn in L; lia|].
      intros k v' E. destruct (F (S k) v' E) as (x' & Ex & Hx'). exists x'. split; [exact Ex|]. rewrite Nat.add_succ_r in Hx'. exact Hx'.
Qed.
Lemma all_some_iff {A} (xs : list (option A)) vs : all_some xs = Some vs <-> xs = map Some vs.
Proof.
  revert vs. induction xs as [|[x|] xs IH]; intros vs; cbn [all_some].
  - split; [intros H; injection H as <-; reflexivity|]. destruct vs; [reflexivity|discriminate].
  - destruct (all_some xs) as [vs'|].
    + split.
      * intros H. injection H as <-. cbn [map]. rewrite (proj1 (IH vs') eq_refl). reflexivity.
      * intros H. destruct vs as [|y vs]; [discriminate|]. cbn [map] in H. injection H as -> H. apply IH in H. congruence.
    + split; [discriminate|]. intros H. destruct vs as [|y vs]; [discriminate|]. cbn [map] in H. injection H as -> H. apply IH in H. discriminate.
  - split; [discriminate|]. destruct vs; discriminate.
Qed.
Lemma variables_inv sch vars out request vs : bind_variables sch vars out request = Ok vs <->
  List.length vs = List.length vars /\
  forall k v, nth_error vars k = Some v -> exists x, nth_error vs k = Some x /\
    bind_variable sch (one_of_use (flat_map bound_uses out) k) v request = Ok (Some x).
Proof.
  unfold bind_variables. split.
  - intros H. apply Proofs.bind_ok in H as (xs & Hx & H). destruct (all_some xs) as [vs'|] eqn:E; [|discriminate]. injection H as <-.
    apply all_some_iff in E. subst xs. apply bind_each_ok in Hx as [L F]. rewrite map_length in L. split; [auto|].
    intros k v Ev. destruct (F k v Ev) as (x & Ex & Hx). rewrite nth_error_map in Ex. destruct (nth_error vs' k) as [y|]; [|discriminate].
    injection Ex as <-. exists y. split; [reflexivity|exact Hx].
  - intros [L F]. rewrite (proj2 (bind_each_ok sch (flat_map bound_uses out) request vars 0 (map Some vs))).
    + cbn [bind]. rewrite (proj2 (all_some_iff (map Some vs) vs) eq_refl). reflexivity.
    + split; [rewrite map_length; auto|]. intros k v Ev. destruct (F k v Ev) as (x & Ex & Hx). exists (Some x).
      split; [rewrite nth_error_map, Ex; reflexivity|exact Hx].
Qed.
Lemma one_of_use_iff us i : one_of_use us i = true <-> In (i, true) us.
Proof.
  unfold one_of_use. rewrite existsb_exists. split.
  - intros ([j o] & Hin & E). cbn [fst snd] in E. apply andb_true_iff in E as [E ->]. apply Nat.eqb_eq in E. subst. auto.
  - intros Hin. exists (i, true). split; [auto|]. cbn [fst snd]. rewrite Nat.eqb_refl. reflexivity.
Qed.

(** What a JSON value is read as for a variable of some type: the relation of C05. *)
Definition variable_coerces (sch : gschema) (t : nat) (u : ty) (j : json) (c : cval) : Prop :=
  exists f, f_def f = types sch t /\ CS.field_type f u /\
    CS.coerces_in (erase sch) (fun n z => coerce_int n = Ok (CInt z)) (fun n me => as_f64 n = Some me) f j c.
Lemma variable_coerces_iff sch t u j c : schema_ok sch -> type_ok sch t -> depth u <= 10 -> CS.json_ok j ->
  (coerce_variable (erase sch) (types sch t) (enc u) j = Ok c <-> variable_coerces sch t u j c).
Proof.
  intros Hs Ht D Jo.
  pose (f := {| f_name := ""; f_inaccessible := false; f_def := types sch t; f_wrapping := enc u; f_has_default := false |}).
  assert (Tf : CS.field_type f u) by (apply denotes_iff; auto).
  assert (F : CS.field_ok (erase sch) f) by (split; [apply erase_ok_def; auto|eauto]).
  pose proof (C05_coercion_iff_spec (erase sch) f j c (erase_ok sch Hs) F Jo) as K. cbn [f_def f_wrapping f] in K. rewrite K. split.
  - intros C. exists f. auto.
  - intros (f' & Ef & Tf' & C). inversion C as [f0 t0 v0 c0 T0 C0|f0 t0 v0 c0 T0 L0 N1 N2 C0]; subst.
    + assert (t0 = u) by (eapply denotes_fun; eauto). subst t0. rewrite Ef in C0. apply (CS.ci_direct _ _ _ f u); auto.
    + assert (t0 = u) by (eapply denotes_fun; eauto). subst t0. rewrite Ef in C0. apply (CS.ci_single _ _ _ f u); auto.
Qed.
Definition request_ok (request : list (string * json)) : Prop := Forall (fun kj => CS.json_ok (snd kj)) request.
Lemma lookup_in {A} x (l : list (string * A)) v : lookup x l = Some v -> In (x, v) l.
Proof.
  induction l as [|[k v'] l IH]; cbn [lookup]; [discriminate|]. destruct (String.eqb_spec k x); [intros H; injection H as <-; left; congruence|right; auto].
Qed.
(** The variables of a request are accepted exactly when each one given is a value of its type
    (C05), not null if it is written as the field of a @oneOf object, and each one not given has a
    default or is nullable and isn't written so. *)
Theorem C71_variables_accepted_iff : forall (sch : gschema) (boolean : nat) (ps : list pvar) (sites : list site)
    (request : list (string * json)) vars out,
  operation_ok sch boolean ps sites -> request_ok request -> bind_operation sch boolean ps sites = Ok (vars, out) ->
  ((exists vs, bind_variables sch vars out request = Ok vs) <->
   forall p t, In p ps -> p_type p = Some t ->
     match lookup (p_name p) request with
     | Some j => (exists c, variable_coerces sch t (recorded p) j c) /\ (mentioned sch boolean sites (p_name p) true -> j <> JNull)
     | None => p_default p <> None \/ (required (recorded p) = false /\ ~ mentioned sch boolean sites (p_name p) true)
     end).
Proof.
  intros sch boolean ps sites request vars out (Hs & Hb & Ht & Hd) Rq H. apply operation_inv in H as (H1 & H2 & H3).
  apply (definitions_inv sch) in H1 as (F & Nd & _). pose proof (bound_vars_ok sch _ _ F Nd) as Vok.
  apply (sites_iff sch vars boolean) in H2.
  assert (M : forall id v, nth_error vars id = Some v ->
            (one_of_use (flat_map bound_uses out) id = true <-> mentioned sch boolean sites (v_name v) true)).
  { intros id v E. rewrite one_of_use_iff, (sites_uses sch Hs vars boolean Vok Hb sites out Hd H2). split.
    - intros (x & R & M). apply (refers_nth vars (proj1 Vok)) in R as (v' & E' & <-). congruence.
    - intros M. exists (v_name v). split; [|auto]. apply (refers_nth vars (proj1 Vok)). eauto. }
  assert (Each : forall id p v, nth_error vars id = Some v -> In p ps -> bound_var sch p v ->
    ((exists x, bind_variable sch (one_of_use (flat_map bound_uses out) id) v request = Ok (Some x)) <->
     match lookup (p_name p) request with
     | Some j => (exists c, variable_coerces sch (v_type v) (recorded p) j c) /\ (mentioned sch boolean sites (p_name p) true -> j <> JNull)
     | None => p_default p <> None \/ (required (recorded p) = false /\ ~ mentioned sch boolean sites (p_name p) true)
     end)).
  { intros id p v E Hp B. pose proof (bound_denotes sch _ _ B) as Dv. destruct B as (N1 & Ty & D & Wv & Df).
    specialize (M id v E). rewrite N1 in M. unfold bind_variable. rewrite N1.
    destruct (lookup (p_name p) request) as [j|] eqn:L.
    - apply lookup_in in L. assert (Jo : CS.json_ok j) by (apply (proj1 (Forall_forall _ _) Rq _ L)).
      pose proof (variable_coerces_iff sch (v_type v) (recorded p) j) as K. rewrite <- Wv in K.
      destruct (coerce_variable (erase sch) (types sch (v_type v)) (v_wrapping v) j) as [c| |].
      + split.
        * intros [x Hx]. split; [exists c; apply K; eauto|]. intros Mt. apply M in Mt. rewrite Mt in Hx. cbn [andb] in Hx.
          intros ->. discriminate Hx.
        * intros [_ Nn]. exists (VProvided c). destruct (one_of_use _ id); [|reflexivity]. cbn [andb].
          destruct j; try reflexivity. exfalso. apply Nn; [apply M|]; reflexivity.
      + split; [intros [x Hx]; discriminate|]. intros [[c C] _]. apply K in C; eauto. discriminate.
      + split; [intros [x Hx]; discriminate|]. intros [[c C] _]. apply K in C; eauto. discriminate.
    - rewrite (denotes_is_non_null _ _ Dv). destruct (p_default p) as [l|].
      + destruct Df as (q & -> & _). split; [intros _; left; discriminate|eauto].
      + rewrite Df. destruct (required (recorded p)).
        * split; [intros [x Hx]; discriminate|]. intros [C|[C _]]; [destruct C; reflexivity|discriminate].
        * destruct (one_of_use _ id) eqn:O.
          -- split; [intros [x Hx]; discriminate|]. intros [C|[_ C]]; [destruct C; reflexivity|]. exfalso. apply C. apply M. reflexivity.
          -- split; [|eauto]. intros _. right. split; [reflexivity|]. intros C. apply M in C. discriminate. }
  split.
  - intros [vs Hv] p t Hp Ty. apply variables_inv in Hv as [L Fv]. destruct (forall2_in_l _ _ _ _ F Hp) as (v & Hin & B).
    apply In_nth_error in Hin as [id E]. assert (v_type v = t) as <- by (destruct B as (_ & X & _); congruence).
    apply (Each id p v E Hp B). destruct (Fv id v E) as (x & _ & Hx). eauto.
  - intros Hall. assert (X : exists vs, List.length vs = List.length vars /\ forall k v, nth_error vars k = Some v -> exists x, nth_error vs k = Some x /\
      bind_variable sch (one_of_use (flat_map bound_uses out) k) v request = Ok (Some x)).
    { assert (Y : forall k v, nth_error vars k = Some v -> exists x, bind_variable sch (one_of_use (flat_map bound_uses out) k) v request = Ok (Some x)).
      { intros k v E. destruct (forall2_nth _ _ _ F _ _ E) as (p & Ep & B). apply nth_error_In in Ep. apply (Each k p v E Ep B).
        apply (Hall p (v_type v) Ep). apply B. }
      clear - Y. revert Y. generalize (flat_map bound_uses out). intros us Y.
      assert (Y' : forall i, (forall k v, nth_error vars k = Some v -> exists x, bind_variable sch (one_of_use us (i + k)) v request = Ok (Some x)) ->
        exists vs, List.length vs = List.length vars /\ forall k v, nth_error vars k = Some v -> exists x, nth_error vs k = Some x /\
          bind_variable sch (one_of_use us (i + k)) v request = Ok (Some x)).
      { clear Y. induction vars as [|v vars IH]; intros i Y.
        - exists []. split; [reflexivity|]. intros [|k] v E; discriminate.
        - destruct (IH (S i)) as (vs & L & Fv).
          { intros k v' E. destruct (Y (S k) v' E) as [x Hx]. exists x. rewrite Nat.add_succ_r in Hx. exact Hx. }
          destruct (Y 0 v eq_refl) as [x Hx]. exists (x :: vs). split; [cbn; congruence|]. intros [|k] v' E.
          + injection E as <-. exists x. auto.
          + destruct (Fv k v' E) as (x' & E' & Hx'). exists x'. split; [exact E'|]. rewrite Nat.add_succ_r. exact Hx'. }
      apply (Y' 0). exact Y. }
    destruct X as (vs & L & Fv). exists vs. apply variables_inv. auto.
Qed.
Print Assumptions C71_variables_accepted_iff.
(** A nullable variable with a default refuses null, though the specification allows it: its type was
    made required. *)
Theorem C71_null_for_default_refuted : exists vars out,
  let ps := [pv "x" 0 (Named false) (Some (LInt 5))] in
  let sites := [SField [ad "a" 0 (Named false) None] [("a"%string, LVar "x")]] in
  bind_operation ex_sch 5 ps sites = Ok (vars, out) /\
  bind_variables ex_sch vars out [("x"%string, JNull)] = Err /\
  exists vs, bind_variables ex_sch vars out [] = Ok vs.
Proof. eexists _, _. cbv zeta. split; [vm_compute; reflexivity|]. split; [vm_compute; reflexivity|]. eexists. vm_compute. reflexivity. Qed.
Print Assumptions C71_null_for_default_refuted.
Example C71_example : exists vars out, bind_operation ex_sch 5 ex_ps ex_sites = Ok (vars, out) /\
  (exists vs, bind_variables ex_sch vars out [("y"%string, JObj [("a"%string, JNum (PosInt 1))])] = Ok vs) /\
  bind_variables ex_sch vars out [("y"%string, JNull)] = Err /\
  bind_variables ex_sch vars out [("x"%string, JNum (PosInt 1))] = Err /\
  bind_variables ex_sch vars out [("y"%string, JObj [("a"%string, JNum (PosInt 1)); ("b"%string, JStr "s")])] = Err.
Proof. eexists _, _. split; [vm_compute; reflexivity|]. split; [eexists; vm_compute; reflexivity|]. vm_compute. auto. Qed.
(** No variable gives a field that is @inaccessible: an object with such a field is refused wherever it is
    in the value. *)
Theorem C71_inaccessible : forall (sch : gschema) ints floats id one_of defs f fs c, schema_ok sch -> objects sch id = Some (one_of, defs) ->
  In f defs -> a_inaccessible f = true -> In (a_name f) (CS.keys fs) ->
  ~ CS.coerces_named (erase sch) ints floats (DObj id) (JObj fs) c.
Proof.
  intros sch ints floats id one_of defs f fs c Hs Eo Hf Ia Hk H.
  assert (U : forall g, In g defs -> a_name g = a_name f -> g = f).
  { intros g Hg En. destruct (Hs _ _ _ Eo) as [[_ Nd] _]. clear - Nd Hf Hg En. induction defs as [|x l IH]; [destruct Hf|].
    cbn in Nd. inversion Nd as [|y m Nx Nl]; subst. destruct Hf as [<- | Hf], Hg as [<- | Hg]; [reflexivity | | |apply IH; assumption].
    - exfalso. apply Nx. rewrite <- En. apply in_map. exact Hg.
    - exfalso. apply Nx. rewrite En. apply in_map. exact Hf. }
  inversion H as [| | | | | |? o ? v i g c' Es One Ei Ig En Hc|? o ? buf Es One Im]; subst.
  - apply erase_some in Es as (b & defs' & E' & ->). rewrite Eo in E'. injection E' as <- <-. cbn [input_fields] in Ei.
    apply nth_error_In in Ei. apply in_map_iff in Ei as (h & <- & Hh). destruct Hk as [Hk | []]. cbn in *.
    rewrite (U h Hh Hk) in Ig. congruence.
  - apply erase_some in Es as (b & defs' & E' & ->). rewrite Eo in E'. injection E' as <- <-. cbn [input_fields] in Im.
    destruct Im as (_ & _ & _ & K & _). destruct (K _ Hk) as (g & Hg & Ig & En). apply in_map_iff in Hg as (h & <- & Hh). cbn in *.
    rewrite (U h Hh En) in Ig. congruence.
Qed.
