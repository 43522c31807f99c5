(** Properties of the arguments written in an operation: which are accepted (C67) and what is sent
    for them (C68). *)
From Coq Require Import ZArith QArith String List Bool Lia Arith.
From Verif.Wrapping Require Import Spec Proofs.
From Verif.Coercion Require Import Json Model Properties.
From Verif.Coercion Require Proofs.
From Verif.Arguments Require Import Model Spec Facts.
Import ListNotations.
Local Open Scope list_scope.
Local Open Scope nat_scope.

(** Variable definitions as the binder records them: distinct names, types built by the builder. *)
Definition vars_ok (vars : list vdef) : Prop :=
  NoDup (map v_name vars) /\ Forall (fun v => exists u, denotes (v_wrapping v) u) vars.

Lemma fits_mono sch (U U' : string -> nat -> ty -> Prop) : (forall x t u, U x t u -> U' x t u) ->
  forall v, (forall t u, fits sch U t u v -> fits sch U' t u v) /\
            (forall d, fits_named sch U d v -> fits_named sch U' d v) /\
            (forall f, fits_in sch U f v -> fits_in sch U' f v).
Proof.
  intros HU. induction v as [|z|m e|s|b|s|l IH|fs IH|x] using lit_ind'.
  all: match goal with |- ?A /\ ?B /\ ?C => assert (HB : B); [|assert (HA : A); [|split; [exact HA|split; [exact HB|]]]] end.
  all: try (intros d H; inversion H; subst; econstructor; eassumption).
  all: try (intros t u H; inversion H; subst; [apply fi_null|apply fi_named]; auto; fail).
  all: try (intros t u H; inversion H; subst; apply fi_named; auto; fail).
  all: try (intros f H; inversion H; subst; [eapply ff_direct|eapply ff_single]; eauto; fail).
  - intros t u H. inversion H as [| |t0 e r l0 F|]; subst.
    + apply fi_list. clear - IH F. induction F as [|v l Hv F IHF]; [constructor|]. inversion IH as [|? ? Hx IH']; subst.
      constructor; [apply Hx; auto|auto].
    + apply fi_named; auto.
  - intros d H. inversion H as [| | | | | | | |id defs f v Eo Hf Vf F|id defs fs0 Eo F]; subst.
    + constructor; auto.
    + eapply fn_one_of; eauto. inversion IH as [|? ? Hv _]; subst. apply Hv. exact F.
    + eapply fn_object; eauto. destruct F as (Nd & A & B). split; [auto|]. split; [|auto].
      intros k v Hin. destruct (A k v Hin) as (f & Hf & Vf & En & Fv). exists f. split; [auto|]. split; [auto|]. split; [auto|].
      apply (proj1 (Forall_forall _ _) IH (k, v) Hin). auto.
  - intros t u H. inversion H; subst; [apply fi_var; auto|]. exfalso. eapply H1. reflexivity.
Qed.

(** ** Arguments and fields are consumed alike *)
Lemma take_arg_take g k args : take k (ents g args) =
  match take_arg k args with Some (v, r) => Some (g v, ents g r) | None => None end.
Proof.
  induction args as [|[k' v] args IH]; [reflexivity|]. rewrite ents_cons. cbn [take take_arg].
  destruct (String.eqb k' k); [reflexivity|]. rewrite IH. destruct (take_arg k args) as [[v' r]|]; [|reflexivity].
  rewrite ents_cons. reflexivity.
Qed.
Section Link.
Variable sch : gschema.
Variable vars : list vdef.
Variable is_default : bool.
Notation gq := (gq sch vars is_default).
Lemma bind_arguments_consume defs : forall args out,
  bind_arguments sch vars is_default defs args = Ok (out, false) <-> consume defs (ents gq args) = Ok (out, []).
Proof.
  induction defs as [|f defs IH]; intros args out; cbn [bind_arguments consume].
  - destruct args as [|[k v] args]; [cbn [ents map]; split; intros H; injection H as <-; reflexivity|]. rewrite ents_cons. split; intros H; discriminate H.
  - destruct (a_inaccessible f); [apply IH|]. rewrite take_arg_take.
    destruct (take_arg (a_name f) args) as [[v args']|].
    + change (gq v (a_type f) (a_wrapping f)) with (coerce_query_value sch vars is_default (a_type f) (a_wrapping f) v).
      destruct (coerce_query_value sch vars is_default (a_type f) (a_wrapping f) v) as [q| |]; cbn [bind].
      * destruct (bind_arguments sch vars is_default defs args') as [[out' e']| |] eqn:E1; cbn [bind].
        -- split.
           ++ intros H. injection H as <- ->. rewrite (proj1 (IH _ _) E1). reflexivity.
           ++ destruct (consume defs (ents gq args')) as [[buf rest]| |] eqn:E2; cbn [bind]; try discriminate.
              intros H. injection H as <- ->. apply IH in E2. congruence.
        -- split; [discriminate|]. destruct (consume defs (ents gq args')) as [[buf rest]| |] eqn:E2; cbn [bind]; try discriminate.
           intros H. injection H as <- ->. apply IH in E2. congruence.
        -- split; [discriminate|]. destruct (consume defs (ents gq args')) as [[buf rest]| |] eqn:E2; cbn [bind]; try discriminate.
           intros H. injection H as <- ->. apply IH in E2. congruence.
      * split; [|discriminate]. destruct (bind_arguments sch vars is_default defs args') as [[out' e']| |]; discriminate.
      * split; discriminate.
    + destruct (a_default f) as [d|].
      * destruct (bind_arguments sch vars is_default defs args) as [[out' e']| |] eqn:E1; cbn [bind].
        -- split.
           ++ intros H. injection H as <- ->. rewrite (proj1 (IH _ _) E1). reflexivity.
           ++ destruct (consume defs (ents gq args)) as [[buf rest]| |] eqn:E2; cbn [bind]; try discriminate.
              intros H. injection H as <- ->. apply IH in E2. congruence.
        -- split; [discriminate|]. destruct (consume defs (ents gq args)) as [[buf rest]| |] eqn:E2; cbn [bind]; try discriminate.
           intros H. injection H as <- ->. apply IH in E2. congruence.
        -- split; [discriminate|]. destruct (consume defs (ents gq args)) as [[buf rest]| |] eqn:E2; cbn [bind]; try discriminate.
           intros H. injection H as <- ->. apply IH in E2. congruence.
      * destruct (W.is_non_null (a_wrapping f)); [|apply IH]. split; [|discriminate].
        destruct (bind_arguments sch vars is_default defs args) as [[out' e']| |]; discriminate.
Qed.

Hypothesis Hsch : schema_ok sch.
Hypothesis Hvars : vars_ok vars.
Lemma arguments_accepted defs args : defs_ok sch defs ->
  ((exists out, bind_arguments sch vars is_default defs args = Ok (out, false)) <->
   fields_fit (fits_in sch (usable_var vars is_default)) defs args).
Proof.
  intros [Dok Nd]. destruct Hvars as [Nv Wv].
  transitivity (exists buf, consume defs (ents gq args) = Ok (buf, [])).
  { split; intros [out H]; exists out; apply bind_arguments_consume; auto. }
  rewrite consume_fit; [|auto|].
  - apply fits_in_ext. intros f k v Hf Hin. apply (cqv_iff sch vars is_default (fun _ => None)); auto.
    exact (proj1 (Forall_forall _ _) Dok f Hf).
  - eapply Forall_impl; [|exact Dok]. intros f (_ & H & _). exact H.
Qed.
Lemma arguments_meaning env defs args out : defs_ok sch defs ->
  bind_arguments sch vars is_default defs args = Ok (out, false) ->
  fields_stand (value_of vars env) (stands_in sch (value_of vars env)) defs args (ser_arguments env out).
Proof.
  intros D H. assert (F : fields_fit (fits_in sch (usable_var vars is_default)) defs args).
  { apply arguments_accepted; eauto. }
  destruct D as [Dok Nd]. destruct Hvars as [Nv Wv]. pose proof (proj1 (Forall_forall _ _) Dok) as Din.
  apply bind_arguments_consume in H.
  apply (stand_ext vars env (Rj gq env)).
  { intros f k v j Hf Hin (q & Hq & ->). eapply cqv_stands; eauto. }
  split; [apply F|].
  destruct (consume_sent gq env (value_of vars env) defs (gq_var _ _ _ env) Nd args out []) as (parts & P1 & P2); [|auto|].
  - intros f k v i o Hf Hin Hq. eapply (cqv_refs sch vars is_default env); eauto.
  - exists parts. split; [auto|]. exact P2.
Qed.
End Link.

(** * C67 *)
(** Arguments are accepted exactly when every name is a visible argument's written once, every value
    fits its argument's type — a variable when its declared type may be used there — and no required
    argument is missing. *)
Theorem C67_arguments_accepted_iff : forall (sch : gschema) (vars : list vdef) (defs : list adef) (args : list (string * lit)),
  schema_ok sch -> vars_ok vars -> defs_ok sch defs ->
  ((exists out, bind_arguments sch vars false defs args = Ok (out, false)) <->
   fields_fit (fits_in sch (usable_var vars false)) defs args).
Proof. intros. apply arguments_accepted; auto. Qed.
Print Assumptions C67_arguments_accepted_iff.
(** The default of a variable is accepted exactly when it fits the variable's recorded type and has
    no variable (except inside a custom scalar, where it isn't accepted either). *)
Theorem C67_default_accepted_iff : forall (sch : gschema) (f : adef) (v : lit),
  schema_ok sch -> def_ok sch f ->
  ((exists q, coerce_query_value sch [] true (a_type f) (a_wrapping f) v = Ok q) <->
   fits_in sch (fun _ _ _ => False) f v).
Proof.
  intros sch f v Hs Hf.
  rewrite (cqv_iff sch [] true (fun _ => None)); auto; [|constructor].
  split; apply fits_mono; [intros x t u [H _]; discriminate|intros x t u []].
Qed.
Print Assumptions C67_default_accepted_iff.

(** Concrete schema: [input In { n: Int! = 4, xs: [Int!], c: Color }], [enum Color { RED, GREEN @inaccessible }],
    [input One @oneOf { a: Int, b: String }]. *)
Definition ad n t u d := {| a_name := n; a_inaccessible := false; a_type := t; a_wrapping := enc u; a_default := d |}.
Definition ex_in : list adef :=
  [ad "n" 0 (Named true) (Some (SvInt 4)); ad "xs" 0 (ListOf (Named true) false) None; ad "c" 1 (Named false) None].
Definition ex_one : list adef := [ad "a" 0 (Named false) None; ad "b" 4 (Named false) None].
Definition ex_sch : gschema := {|
  types := fun t => match t with
    | 0 => DScalar SInt | 1 => DEnum [("RED"%string, false); ("GREEN"%string, true)] | 2 => DObj 0 | 3 => DObj 1
    | 4 => DScalar SString | 5 => DScalar SBoolean | 6 => DScalar SUnknown | _ => DScalar SFloat end;
  objects := fun o => match o with 0 => Some (false, ex_in) | 1 => Some (true, ex_one) | _ => None end |}.
Lemma ad_ok sch n t u d : type_ok sch t -> depth u <= 10 ->
  (forall s, d = Some s -> accepted sch t u (ser_sval s)) -> def_ok sch (ad n t u d).
Proof.
  intros Ht Hu Hd. split; [exact Ht|]. assert (D : type_of (ad n t u d) u) by (apply denotes_iff; auto). split; [eauto|].
  intros s E. econstructor; [exact D|]. apply Hd. exact E.
Qed.
Ltac nodup := repeat (constructor; [cbn; intuition discriminate|]); constructor.
Lemma ex_sch_ok : schema_ok ex_sch.
Proof.
  intros id o defs H. assert (T : forall t, type_ok ex_sch t).
  { intros t. unfold type_ok. do 7 (destruct t as [|t]; cbn; [solve [auto|nodup|eauto]|]). auto. }
  destruct id as [|[|id]]; cbn in H; try discriminate; injection H as <- <-.
  - split; [|discriminate]. split; [|nodup]. unfold ex_in.
    repeat (constructor; [apply ad_ok; [apply T|cbn; lia|]; try discriminate|]); [|constructor].
    intros s E. injection E as <-. apply ac_named; [discriminate|]. apply (an_int _ _ 4%Z); [reflexivity|unfold int32; lia].
  - split; [|intros _; repeat constructor]. split; [|nodup]. unfold ex_one.
    repeat (constructor; [apply ad_ok; [apply T|cbn; lia|discriminate]|]). constructor.
Qed.
Definition ex_defs : list adef := [ad "in" 2 (Named true) None; ad "one" 3 (Named false) None; ad "l" 0 (ListOf (ListOf (Named false) false) false) None].
Definition ex_vars : list vdef := [{| v_name := "v"; v_type := 0; v_wrapping := enc (Named true); v_default := None |}].
Example C67_example :
  let bind' := bind_arguments ex_sch ex_vars false ex_defs in
  let ok args := match bind' args with Ok (_, false) => true | _ => false end in
  ok [("in"%string, LObj [("c"%string, LEnum "RED"); ("xs"%string, LVar "v")]); ("l"%string, LInt 1)] = true /\
  ok [("one"%string, LObj [("a"%string, LVar "v")]); ("in"%string, LObj [])] = true /\
  ok [("in"%string, LObj [("c"%string, LEnum "GREEN")])] = false /\
  ok [("in"%string, LObj [("xs"%string, LList [LInt 1; LNull])])] = false /\
  ok [("in"%string, LObj [("n"%string, LNull)])] = false /\
  ok [("in"%string, LObj []); ("in"%string, LObj [])] = false /\
  ok [("in"%string, LObj []); ("l"%string, LList [LInt 1])] = false /\
  ok [("in"%string, LObj []); ("one"%string, LObj [])] = false /\
  ok [] = false.
Proof. vm_compute. intuition reflexivity. Qed.

(** Where this differs from the GraphQL specification.  2147483647.0 is an integral value of an Int
    but refused, while -10000000000.0 is out of range and accepted (and changed, see C68). *)
Theorem C67_int_from_float_refuted :
  (exists m e, integral m e 2147483647 /\ forall vars d, coerce_query_value ex_sch vars d 0 (enc (Named true)) (LFloat m e) = Err) /\
  (exists m e k, integral m e k /\ (k < -2147483648)%Z /\
     forall vars d, exists q, coerce_query_value ex_sch vars d 0 (enc (Named true)) (LFloat m e) = Ok q).
Proof.
  split.
  - exists 2147483647%Z, 0%Z. split; [reflexivity|]. intros vars d. reflexivity.
  - exists (-10000000000)%Z, 0%Z, (-10000000000)%Z. split; [reflexivity|]. split; [lia|]. intros vars d. eexists. reflexivity.
Qed.
Print Assumptions C67_int_from_float_refuted.
(** The specification wants the single field of a @oneOf object not null; null is accepted.  And an
    enum value is a value any custom scalar could accept; it never is. *)
Theorem C67_one_of_null_refuted : forall (vars : list vdef) d, exists q,
  coerce_query_value ex_sch vars d 3 (enc (Named true)) (LObj [("a"%string, LNull)]) = Ok q.
Proof. intros. eexists. reflexivity. Qed.
Print Assumptions C67_one_of_null_refuted.
Theorem C67_custom_enum_refuted : forall sch vars d t n, types sch t = DScalar SUnknown ->
  coerce_query_value sch vars d t (enc (Named false)) (LEnum n) = Err.
Proof.
  intros. unfold coerce_query_value, input_value. change (W.is_list (enc (Named false))) with false. cbn [andb].
  rewrite snd_coerce by discriminate. change (W.pop_outermost_list_wrapping (enc (Named false))) with (Some (enc (Named false), None : option W.list_wrapping)).
  cbn [l_is_null]. rewrite fst_coerce, H. reflexivity.
Qed.
Print Assumptions C67_custom_enum_refuted.
(** The schema reads [ID] as [String] (engine/schema/src/lib.rs:302-322), so an integer literal is
    refused for an ID though the specification accepts it. *)
Theorem C67_id_integer_refuted : forall sch vars d t z, types sch t = DScalar SString ->
  coerce_query_value sch vars d t (enc (Named false)) (LInt z) = Err.
Proof.
  intros. unfold coerce_query_value, input_value. change (W.is_list (enc (Named false))) with false. cbn [andb].
  rewrite snd_coerce by discriminate. change (W.pop_outermost_list_wrapping (enc (Named false))) with (Some (enc (Named false), None : option W.list_wrapping)).
  cbn [l_is_null]. rewrite fst_coerce, H. reflexivity.
Qed.
Print Assumptions C67_id_integer_refuted.

(** * C68 *)
(** What a field is executed with, once arguments are accepted: for each visible argument in the
    order of the schema, the JSON its literal stands for (with the values of variables and lists
    around single values), its default when it isn't written or its variable has no value, or nothing. *)
Theorem C68_arguments_meaning : forall (sch : gschema) (vars : list vdef) (env : nat -> option json) (defs : list adef)
    (args : list (string * lit)) (out : list (adef * qval)),
  schema_ok sch -> vars_ok vars -> defs_ok sch defs ->
  bind_arguments sch vars false defs args = Ok (out, false) ->
  fields_stand (value_of vars env) (stands_in sch (value_of vars env)) defs args (ser_arguments env out).
Proof. intros. eapply arguments_meaning; eauto. Qed.
Print Assumptions C68_arguments_meaning.

Lemma integral_fun m e k k' : integral m e k -> integral m e k' -> k = k'.
Proof. unfold integral. intros H H'. rewrite H in H'. unfold Qeq in H'. cbn in H'. lia. Qed.
Lemma nodup_value {A} k (v v' : A) fs : NoDup (names fs) -> In (k, v) fs -> In (k, v') fs -> v = v'.
Proof.
  intros N1. induction fs as [|[k0 v0] fs IH]; [intros []|]. cbn [names map fst] in N1. inversion N1 as [|? ? Nin N2]; subst.
  intros [H|H] [H'|H']; [congruence| | |auto]; exfalso; apply Nin.
  - injection H as -> ->. apply in_names. eauto.
  - injection H' as -> ->. apply in_names. eauto.
Qed.
Lemma nodup_def (f f' : adef) defs : NoDup (map a_name defs) -> In f defs -> In f' defs -> a_name f = a_name f' -> f = f'.
Proof.
  intros N1. induction defs as [|f0 defs IH]; [intros []|]. cbn [map] in N1. inversion N1 as [|? ? Nin N2]; subst.
  intros [H|H] [H'|H'] E; [congruence| | |auto]; exfalso; apply Nin.
  - subst. rewrite E. apply in_map. auto.
  - subst. rewrite <- E. apply in_map. auto.
Qed.
Section Unique.
Variable sch : gschema.
Variable value : string -> option json.
Hypothesis Hsch : schema_ok sch.
Notation stands := (stands sch value).
Notation stands_named := (stands_named sch value).
Notation stands_in := (stands_in sch value).
Definition uni (v : lit) : Prop := forall f j j', stands_in f v j -> stands_in f v j' -> j = j'.
Lemma sent_unique fs f p p' : NoDup (names fs) -> Forall (fun kv => uni (snd kv)) fs ->
  sent_for value stands_in fs f p -> sent_for value stands_in fs f p' -> p = p'.
Proof.
  intros N1 U H H'.
  destruct H as [(v & j & Hin & Hv & Hr & ->)|[(x & Hin & Hx & ->)|(Nin & ->)]];
  destruct H' as [(v' & j' & Hin' & Hv' & Hr' & ->)|[(x' & Hin' & Hx' & ->)|(Nin' & ->)]]; auto.
  - assert (v' = v) by (eapply nodup_value; eauto). subst v'. f_equal. f_equal.
    eapply (proj1 (Forall_forall _ _) U _ Hin); eauto.
  - assert (v = LVar x') by (eapply nodup_value; eauto). subst v. exfalso. eapply Hv; eauto.
  - exfalso. apply Nin'. apply in_names. eauto.
  - assert (v' = LVar x) by (eapply nodup_value; eauto). subst v'. exfalso. eapply Hv'; eauto.
  - exfalso. apply Nin. apply in_names. eauto.
Qed.
Lemma fields_unique defs fs js js' : Forall (fun kv => uni (snd kv)) fs ->
  fields_stand value stands_in defs fs js -> fields_stand value stands_in defs fs js' -> js = js'.
Proof.
  intros U (N1 & parts & F & ->) (_ & parts' & F' & ->). f_equal. revert parts' F'.
  induction F as [|f p l ps H F IH]; intros parts' F'; inversion F' as [|? p' ? ps' H' F'']; subst; [reflexivity|].
  f_equal; [eapply sent_unique; eauto|auto].
Qed.
Lemma custom_unique v : forall j j', stands_custom v j -> stands_custom v j' -> j = j'.
Proof.
  induction v as [|z|m e|s|b|s|l IH|fs IH|x] using lit_ind'; intros j j' H H';
    try solve [inversion H; inversion H'; subst; auto].
  - inversion H as [| | | | |l1 js1 F1|]; subst. inversion H' as [| | | | |l2 js2 F2|]; subst. clear H H'. f_equal.
    revert js2 F2. induction F1 as [|v j l js Hv F IHF]; intros js2 F2; inversion F2; subst; [reflexivity|].
    inversion IH as [|? ? Hx IH']; subst. f_equal; [apply Hx; auto|]. apply IHF; auto.
  - inversion H as [| | | | | |l1 js1 F1]; subst. inversion H' as [| | | | | |l2 js2 F2]; subst. clear H H'. f_equal.
    revert js2 F2. induction F1 as [|[k v] [k1 j] l js Hv F IHF]; intros js2 F2; inversion F2 as [|? [k2 j2] ? ? Hv2 F3]; subst; [reflexivity|].
    inversion IH as [|? ? Hx IH']; subst. cbn [fst snd] in *. destruct Hv, Hv2. subst. f_equal; [f_equal; apply Hx; auto|].
    apply IHF; auto.
Qed.
Lemma stands_unique v :
  (forall t u j j', stands t u v j -> stands t u v j' -> j = j') /\
  (forall d j j', stands_named d v j -> stands_named d v j' -> j = j') /\ uni v.
Proof.
  induction v as [|z|m e|s|b|s|l IH|fs IH|x] using lit_ind'.
  all: match goal with |- ?A /\ ?B /\ ?C => assert (HB : B); [|assert (HA : A); [|split; [exact HA|split; [exact HB|]]]] end.
  all: try solve [intros d j j' H H'; inversion H; subst; inversion H'; subst; auto;
                  first [eapply custom_unique; eassumption | congruence
                        | do 2 f_equal; eapply integral_fun; eassumption]].
  all: try solve [intros t u j j' H H'; inversion H; subst; inversion H'; subst; auto; try congruence; eapply HB; eauto].
  all: try solve [intros f j j' H H'; inversion H; subst; inversion H'; subst;
     match goal with A : type_of _ ?u, B : type_of _ ?u' |- _ =>
       assert (u' = u) by (eapply denotes_fun; eauto); subst end;
     [eapply HA; eauto
     |match goal with L : listp ?u = true |- _ => destruct u; [discriminate|] end;
        match goal with S : Spec.stands _ _ _ (ListOf _ _) _ _ |- _ => inversion S; subst; congruence end
     |match goal with L : listp ?u = true |- _ => destruct u; [discriminate|] end;
        match goal with S : Spec.stands _ _ _ (ListOf _ _) _ _ |- _ => inversion S; subst; congruence end
     |f_equal; eapply HB; eauto]].
  - intros t u j j' H H'. inversion H as [| | |t0 e r l0 js F| ]; subst.
    + inversion H' as [| | |t0 e0 r0 l0 js' F'| ]; subst. f_equal. clear H H' HB. revert js' F'.
      induction F as [|v j l js Hv F IHF]; intros js' F'; inversion F'; subst; [reflexivity|].
      inversion IH as [|? ? Hx IH']; subst. destruct Hx as [Hx _]. f_equal; [eapply Hx; eauto|]. apply IHF; auto.
    + inversion H'; subst. eapply HB; eauto.
  - intros d j j' H H'. assert (U : Forall (fun kv => uni (snd kv)) fs).
    { eapply Forall_impl; [|exact IH]. intros kv Hkv. apply Hkv. }
    inversion H as [| | | | | |v0 j0 C0| |id defs f v part Eo Hf Vf F|id defs fs0 js Eo F]; subst.
    + inversion H' as [| | | | | |v0 j1 C1| | |]; subst. eapply custom_unique; eauto.
    + inversion H' as [| | | | | | | |id' defs' f' v' part' Eo' Hf' Vf' F'|id' defs' fs0 js Eo' F']; subst; [|congruence].
      assert (defs' = defs) by congruence. subst defs'. destruct (Hsch _ _ _ Eo) as [[_ Nd] _].
      assert (f' = f) by (eapply nodup_def; eauto). subst f'. f_equal. eapply sent_unique; eauto.
      cbn. constructor; [intros []|constructor].
    + inversion H' as [| | | | | | | |id' defs' f' v' part' Eo' Hf' Vf' F'|id' defs' fs0' js' Eo' F']; subst; [congruence|].
      assert (defs' = defs) by congruence. subst defs'. f_equal. eapply fields_unique; eauto.
Qed.
End Unique.
(** It is the only one. *)
Theorem C68_meaning_unique : forall (sch : gschema) (value : string -> option json) (defs : list adef) (args : list (string * lit)) js js',
  schema_ok sch ->
  fields_stand value (stands_in sch value) defs args js -> fields_stand value (stands_in sch value) defs args js' -> js = js'.
Proof.
  intros sch value defs args js js' Hs. apply fields_unique. apply Forall_forall. intros kv _. apply stands_unique. auto.
Qed.
Print Assumptions C68_meaning_unique.
Example C68_example : exists out,
  bind_arguments ex_sch ex_vars false ex_defs
    [("l"%string, LInt 1); ("in"%string, LObj [("c"%string, LEnum "RED"); ("xs"%string, LList [LVar "v"; LFloat 6 (-1)])])] = Ok (out, false) /\
  ser_arguments (fun _ => Some (jint 9)) out =
    [("in"%string, JObj [("n"%string, jint 4); ("xs"%string, JArr [jint 9; jint 3]); ("c"%string, JStr "RED")]);
     ("l"%string, JArr [JArr [jint 1]])].
Proof. eexists. split; vm_compute; reflexivity. Qed.
(** The numbers and defaults of the statements above, written out: numbers keep their value and sign, defaults
    their names, order and values. *)
Inductive default_json : sval -> json -> Prop :=
| dj_null : default_json SvNull JNull
| dj_str s : default_json (SvStr s) (JStr s)
| dj_enum s : default_json (SvEnum s) (JStr s)
| dj_unbound s : default_json (SvUnbound s) (JStr s)
| dj_int z n : (n = PosInt z /\ 0 <= z \/ n = NegInt z /\ z < 0)%Z -> default_json (SvInt z) (JNum n)
| dj_i64 z n : (n = PosInt z /\ 0 <= z \/ n = NegInt z /\ z < 0)%Z -> default_json (SvI64 z) (JNum n)
| dj_float m e : default_json (SvFloat m e) (JNum (Flt m e))
| dj_bool b : default_json (SvBool b) (JBool b)
| dj_obj fs js : Forall2 (fun kv kj => fst kv = fst kj /\ default_json (snd kv) (snd kj)) fs js -> default_json (SvObj fs) (JObj js)
| dj_map fs js : Forall2 (fun kv kj => fst kv = fst kj /\ default_json (snd kv) (snd kj)) fs js -> default_json (SvMap fs) (JObj js)
| dj_list l js : Forall2 default_json l js -> default_json (SvList l) (JArr js).
Theorem C68_default_json : (forall z, jint z = JNum (PosInt z) /\ (0 <= z)%Z \/ jint z = JNum (NegInt z) /\ (z < 0)%Z) /\
  forall s, default_json s (ser_sval s).
Proof.
  assert (J : forall z, jint z = JNum (PosInt z) /\ (0 <= z)%Z \/ jint z = JNum (NegInt z) /\ (z < 0)%Z).
  { intros z. unfold jint. destruct (Z.leb_spec 0 z); auto. }
  split; [exact J|].
  assert (JI : forall z n, JNum n = jint z -> (n = PosInt z /\ 0 <= z \/ n = NegInt z /\ z < 0)%Z).
  { intros z n E. destruct (J z) as [[X Y]|[X Y]]; rewrite X in E; inversion E; auto. }
  fix IH 1. intros s. destruct s as [|s|s|s|z|z|m e|b|fs|l|fs]; cbn [ser_sval].
  - constructor.
  - constructor.
  - constructor.
  - constructor.
  - destruct (jint z) as [| |n| | |] eqn:E; try (destruct (J z) as [[X _]|[X _]]; congruence). constructor. apply JI. congruence.
  - destruct (jint z) as [| |n| | |] eqn:E; try (destruct (J z) as [[X _]|[X _]]; congruence). constructor. apply JI. congruence.
  - constructor.
  - constructor.
  - constructor. induction fs as [|[k v] fs IHf]; cbn [map]; constructor; [split; [reflexivity | apply IH] | exact IHf].
  - constructor. induction l as [|v l IHl]; cbn [map]; constructor; [apply IH | exact IHl].
  - constructor. induction fs as [|[k v] fs IHf]; cbn [map]; constructor; [split; [reflexivity | apply IH] | exact IHf].
Qed.
Example ex_default_json : ser_sval (SvObj [("b"%string, SvInt (-1)); ("a"%string, SvList [SvEnum "X"; SvNull])]) =
  JObj [("b"%string, JNum (NegInt (-1))); ("a"%string, JArr [JStr "X"; JNull])].
Proof. reflexivity. Qed.

(** A number that isn't in the range of an Int is replaced by the closest that is. *)
Theorem C68_int_value_changed_refuted : exists (m e k : Z) q, integral m e k /\ (k < -2147483648)%Z /\
  coerce_query_value ex_sch [] false 0 (enc (Named true)) (LFloat m e) = Ok q /\
  ser_q (fun _ => None) q = jint (-2147483648).
Proof.
  exists (-10000000000)%Z, 0%Z, (-10000000000)%Z. eexists. split; [reflexivity|]. split; [lia|]. split; vm_compute; reflexivity.
Qed.
Print Assumptions C68_int_value_changed_refuted.
