(* What composition does with all the definitions of a name. *)
From Coq Require Import String List Bool Arith ZArith Lia.
From Verif.SchemaDiff Require Import Search.
From Verif.Compose Require Import Model Spec Facts SchemaFacts.
Import ListNotations.
Local Open Scope string_scope.
Local Open Scope list_scope.

(* Fields *)
Definition all_fields (defs : list dview) : list fview := flat_map fields_of defs.

Lemma all_fields_in : forall defs x, In x (all_fields defs) <->
  In (v_parent x) defs /\ In (v_field x) (d_fields (v_def (v_parent x))).
Proof.
  intros defs x. unfold all_fields. rewrite in_flat_map. split.
  - intros (v & I & J). unfold fields_of in J. apply in_map_iff in J. destruct J as (f & <- & J). cbn. auto.
  - intros (I & J). exists (v_parent x). split; [exact I|]. unfold fields_of. apply in_map_iff.
    exists (v_field x). split; [destruct x; reflexivity|exact J].
Qed.

Lemma compose_field_total : forall l, l <> nil -> fst (compose_field l) = nil -> exists f, compose_field l = (nil, Some f).
Proof.
  intros [|x r] NE D; [congruence|]. unfold compose_field in *.
  destruct (merge_field_arguments (x :: r)) as [ad args].
  destruct (compose_field_types compose_for_output (x :: r)) as [[t|d]|] eqn:T; cbv zeta in *; cbn [fst] in D.
  - rewrite D. eauto.
  - exfalso. apply app_eq_nil in D. destruct D as (_ & D). apply app_eq_nil in D. destruct D as (_ & D).
    apply app_eq_nil in D. destruct D as (_ & D). discriminate.
  - exfalso. unfold compose_field_types in T. destruct (own_type (v_field x)); discriminate.
Qed.

Lemma compose_field_name : forall l ds f, compose_field l = (ds, Some f) -> exists x r, l = x :: r /\ of_name f = vf_name x.
Proof.
  intros [|x r] ds f E; [discriminate|]. exists x, r. split; [reflexivity|]. unfold compose_field in E.
  destruct (merge_field_arguments (x :: r)) as [ad args].
  destruct (compose_field_types compose_for_output (x :: r)) as [[t|d]|]; try discriminate.
  injection E as _ <-. reflexivity.
Qed.

Lemma fmn_parts : forall A (g : A -> list diag * option ofield) ns,
  flat_map (fun p => match snd p with Some f => [f] | None => nil end) (map g ns) =
  flat_map (fun n => match snd (g n) with Some f => [f] | None => nil end) ns.
Proof. induction ns as [|n ns IH]; [reflexivity|]. cbn. rewrite IH. reflexivity. Qed.

Lemma sel_nonempty : forall A (k : A -> name) l n, In n (map k l) -> sel k l n <> nil.
Proof.
  intros A k l n I E. apply in_map_iff in I. destruct I as (x & X & I).
  assert (J : In x (sel k l n)) by (apply sel_in; auto). rewrite E in J. contradiction.
Qed.

(* The fields that come out, when nothing is reported. *)
Lemma compose_fields_spec : forall defs, fst (compose_fields defs) = nil ->
  (forall x, In x (all_fields defs) -> exists f, In f (snd (compose_fields defs)) /\ of_name f = vf_name x) /\
  (forall f, In f (snd (compose_fields defs)) ->
     compose_field (sel vf_name (all_fields defs) (of_name f)) = (nil, Some f) /\
     exists x, In x (all_fields defs) /\ vf_name x = of_name f) /\
  NoDup (map of_name (snd (compose_fields defs))).
Proof.
  intros defs D. unfold compose_fields in *. cbn [fst snd] in *. fold (all_fields defs) in *.
  destruct (groups_spec vf_name (all_fields defs)) as (ns & E & ND & M). rewrite E in *. clear E.
  rewrite map_map in *. rewrite fmn_parts.
  rewrite flat_map_nil in D.
  assert (H : forall n, In n ns -> exists f, compose_field (sel vf_name (all_fields defs) n) = (nil, Some f) /\ of_name f = n).
  { intros n I. pose proof (M n) as (I' & _). specialize (I' I).
    assert (NE : sel vf_name (all_fields defs) n <> nil) by (apply sel_nonempty; exact I').
    destruct (compose_field_total _ NE) as (f & F).
    - apply D. apply in_map_iff. exists n. auto.
    - exists f. split; [exact F|]. destruct (compose_field_name _ _ _ F) as (x & r & S & ->).
      assert (J : In x (sel vf_name (all_fields defs) n)) by (rewrite S; left; reflexivity).
      apply sel_in in J. apply J. }
  split; [|split].
  - intros x I. assert (J : In (vf_name x) ns) by (apply M; apply in_map; exact I).
    destruct (H _ J) as (f & F & N). exists f. split; [|exact N].
    apply in_flat_map. exists (vf_name x). split; [exact J|]. rewrite F. left. reflexivity.
  - intros f I. apply in_flat_map in I. destruct I as (n & J & I).
    destruct (H n J) as (f' & F & N). rewrite F in I. destruct I as [<-|[]]. rewrite N. split; [exact F|].
    apply M, in_map_iff in J. destruct J as (x & <- & J). exists x. auto.
  - clear D M. induction ns as [|n ns IH]; [constructor|]. cbn [flat_map].
    inversion ND as [|? ? NI ND']; subst.
    destruct (H n (or_introl eq_refl)) as (f & F & N). rewrite F. cbn [snd List.app map].
    constructor.
    + rewrite N. intros J. apply in_map_iff in J. destruct J as (f' & N' & J).
      apply in_flat_map in J. destruct J as (m & K & J).
      destruct (H m (or_intror K)) as (f'' & F'' & N''). rewrite F'' in J. destruct J as [<-|[]]. congruence.
    + apply IH; [exact ND'|]. intros m K. apply H. right. exact K.
Qed.

(* Input fields *)
Lemma merge_input_field_spec : forall n common l, l <> nil -> fst (merge_input_field n common l) = nil ->
  exists x r, l = x :: r /\
  (if mem (vf_name x) common
   then exists t, compose_field_types compose_for_input l = Some (inl t) /\
     snd (merge_input_field n common l) =
       [mkoinput (vf_name x) t (first_field_default l) (collect (map (fun f => f_dirs (v_field f)) l))]
   else snd (merge_input_field n common l) = nil /\ forall f, In f l -> is_required (f_type (v_field f)) = false).
Proof.
  intros n common [|x r] NE D; [congruence|]. exists x, r. split; [reflexivity|]. unfold merge_input_field in *.
  destruct (mem (vf_name x) common); cbn [negb] in *.
  - destruct (compose_field_types compose_for_input (x :: r)) as [[t|d]|] eqn:T.
    + exists t. auto.
    + discriminate.
    + exfalso. unfold compose_field_types in T. destruct (own_type (v_field x)); discriminate.
  - cbn [fst snd] in *. split; [reflexivity|]. intros f I.
    destruct (existsb (fun f => is_required (f_type (v_field f))) (x :: r)) eqn:E; [discriminate|].
    destruct (is_required (f_type (v_field f))) eqn:R; [|reflexivity].
    assert (existsb (fun f => is_required (f_type (v_field f))) (x :: r) = true); [|congruence].
    apply existsb_exists. exists f. auto.
Qed.

Definition input_fields (n : name) (defs : list dview) : list oinput :=
  flat_map snd (map (merge_input_field n (input_intersection defs)) (groups vf_name (all_fields defs))).
Definition input_diags (n : name) (defs : list dview) : list diag :=
  flat_map fst (map (merge_input_field n (input_intersection defs)) (groups vf_name (all_fields defs))).

Lemma field_by_name_in : forall d f, field_by_name d f <> None <-> In f (map f_name (d_fields d)).
Proof.
  intros d f. unfold field_by_name. split.
  - destruct (find _ _) as [x|] eqn:E; [|congruence]. intros _. apply find_some in E. destruct E as (I & E).
    apply String.eqb_eq in E. subst. apply in_map. exact I.
  - intros I E. apply in_map_iff in I. destruct I as (x & <- & I).
    pose proof (find_none _ _ E x I) as X. cbn in X. rewrite String.eqb_refl in X. discriminate.
Qed.

Lemma some_true : forall A (o : option A), match o with Some _ => true | None => false end = true <-> o <> None.
Proof. intros A [x|]; split; congruence. Qed.

Lemma input_intersection_in : forall defs f, defs <> nil ->
  (In f (input_intersection defs) <-> forall v, In v defs -> In f (map f_name (d_fields (v_def v)))).
Proof.
  intros [|v vs] f NE; [congruence|]. unfold input_intersection. rewrite filter_In, forallb_forall. split.
  - intros (I & H) w [<-|J]; [exact I|]. apply field_by_name_in. specialize (H w J). apply some_true in H. exact H.
  - intros H. split; [apply H; left; reflexivity|]. intros w J. apply some_true. apply field_by_name_in. apply H. right. exact J.
Qed.

(* A field of the composed input type is in all of them, with its type; what is
   left out is never required. *)
Lemma input_fields_spec : forall n defs, defs <> nil -> input_diags n defs = nil ->
  (forall i, In i (input_fields n defs) ->
     (forall v, In v defs -> In (oi_name i) (map f_name (d_fields (v_def v)))) /\
     compose_field_types compose_for_input (sel vf_name (all_fields defs) (oi_name i)) = Some (inl (oi_type i)) /\
     oi_default i = first_field_default (sel vf_name (all_fields defs) (oi_name i)) /\
     oi_dirs i = collect (map (fun f => f_dirs (v_field f)) (sel vf_name (all_fields defs) (oi_name i)))) /\
  (forall x, In x (all_fields defs) ->
     (exists i, In i (input_fields n defs) /\ oi_name i = vf_name x) \/
     (is_required (f_type (v_field x)) = false /\ exists v, In v defs /\ ~ In (vf_name x) (map f_name (d_fields (v_def v))))) /\
  NoDup (map oi_name (input_fields n defs)).
Proof.
  intros n defs NE D. unfold input_fields, input_diags in *.
  destruct (groups_spec vf_name (all_fields defs)) as (ns & E & ND & M). rewrite E in *. clear E.
  rewrite map_map in *. rewrite flat_map_nil in D.
  set (mif := merge_input_field n (input_intersection defs)) in *.
  assert (H : forall m, In m ns ->
    (In m (input_intersection defs) /\
     exists t, compose_field_types compose_for_input (sel vf_name (all_fields defs) m) = Some (inl t) /\
       snd (mif (sel vf_name (all_fields defs) m)) =
       [mkoinput m t (first_field_default (sel vf_name (all_fields defs) m))
          (collect (map (fun f => f_dirs (v_field f)) (sel vf_name (all_fields defs) m)))]) \/
    (~ In m (input_intersection defs) /\ snd (mif (sel vf_name (all_fields defs) m)) = nil /\
     forall f, In f (sel vf_name (all_fields defs) m) -> is_required (f_type (v_field f)) = false)).
  { intros m I. pose proof (M m) as (I' & _). specialize (I' I).
    assert (NE' : sel vf_name (all_fields defs) m <> nil) by (apply sel_nonempty; exact I').
    destruct (merge_input_field_spec n (input_intersection defs) _ NE') as (x & r & S & H).
    - apply D. apply in_map_iff. exists m. auto.
    - assert (J : In x (sel vf_name (all_fields defs) m)) by (rewrite S; left; reflexivity).
      apply sel_in in J. destruct J as (_ & J). rewrite J in H.
      destruct (mem m (input_intersection defs)) eqn:ME.
      + left. split; [apply mem_in; exact ME|]. exact H.
      + right. split; [apply mem_not_in; exact ME|]. exact H. }
  split; [|split].
  - intros i I. apply in_flat_map in I. destruct I as (p & J & I). apply in_map_iff in J. destruct J as (m & <- & J).
    destruct (H m J) as [(IN & t & T & S)|(_ & S & _)]; rewrite S in I; [|contradiction].
    destruct I as [<-|[]]. cbn. split; [|auto]. apply input_intersection_in; assumption.
  - intros x I. assert (J : In (vf_name x) ns) by (apply M; apply in_map; exact I).
    destruct (H _ J) as [(IN & t & T & S)|(NI & S & R)].
    + left. eexists. split; [|].
      * apply in_flat_map. exists (mif (sel vf_name (all_fields defs) (vf_name x))). split.
        -- apply in_map_iff. exists (vf_name x). auto.
        -- rewrite S. left. reflexivity.
      * reflexivity.
    + right. split.
      * apply R. apply sel_in. auto.
      * destruct (existsb (fun v => negb (mem (vf_name x) (map f_name (d_fields (v_def v))))) defs) eqn:EX.
        -- apply existsb_exists in EX. destruct EX as (v & IV & EV). exists v. split; [exact IV|].
           apply negb_true_iff, mem_not_in in EV. exact EV.
        -- exfalso. apply NI. apply input_intersection_in; [exact NE|]. intros v IV.
           destruct (mem (vf_name x) (map f_name (d_fields (v_def v)))) eqn:ME; [apply mem_in; exact ME|].
           assert (existsb (fun v => negb (mem (vf_name x) (map f_name (d_fields (v_def v))))) defs = true); [|congruence].
           apply existsb_exists. exists v. rewrite ME. auto.
  - clear D M. induction ns as [|m ns IH]; [constructor|]. cbn [flat_map map].
    inversion ND as [|? ? NI ND']; subst.
    assert (IH' := IH ND' (fun k K => H k (or_intror K))). rewrite map_app.
    destruct (H m (or_introl eq_refl)) as [(_ & t & _ & S)|(_ & S & _)]; rewrite S; cbn [map List.app]; [|exact IH'].
    constructor; [|exact IH']. cbn. intros J. apply in_map_iff in J. destruct J as (i & N & J).
    apply in_flat_map in J. destruct J as (p & K & J). apply in_map_iff in K. destruct K as (k & <- & K).
    destruct (H k (or_intror K)) as [(_ & t' & _ & S')|(_ & S' & _)]; rewrite S' in J; [|contradiction].
    destruct J as [<-|[]]. cbn in N. congruence.
Qed.

(* Arguments *)
Lemma argument_by_name_in : forall f a, argument_by_name f a <> None <-> In a (map a_name (f_args f)).
Proof.
  intros d f. unfold argument_by_name. split.
  - destruct (find _ _) as [x|] eqn:E; [|congruence]. intros _. apply find_some in E. destruct E as (I & E).
    apply String.eqb_eq in E. subst. apply in_map. exact I.
  - intros I E. apply in_map_iff in I. destruct I as (x & <- & I).
    pose proof (find_none _ _ E x I) as X. cbn in X. rewrite String.eqb_refl in X. discriminate.
Qed.

Lemma argument_intersection_in : forall l a, l <> nil ->
  (In a (argument_intersection l) <-> forall x, In x l -> In a (map a_name (f_args (v_field x)))).
Proof.
  intros [|v vs] f NE; [congruence|]. unfold argument_intersection. rewrite filter_In, forallb_forall. split.
  - intros (I & H) w [<-|J]; [exact I|]. apply argument_by_name_in. specialize (H w J). apply some_true in H. exact H.
  - intros H. split; [apply H; left; reflexivity|]. intros w J. apply some_true. apply argument_by_name_in. apply H. right. exact J.
Qed.

Definition all_args (l : list fview) : list aview := flat_map args_of l.

Lemma all_args_in : forall l x, In x (all_args l) <-> In (v_of x) l /\ In (v_arg x) (f_args (v_field (v_of x))).
Proof.
  intros l x. unfold all_args. rewrite in_flat_map. split.
  - intros (v & I & J). unfold args_of in J. apply in_map_iff in J. destruct J as (f & <- & J). cbn. auto.
  - intros (I & J). exists (v_of x). split; [exact I|]. unfold args_of. apply in_map_iff.
    exists (v_arg x). split; [destruct x; reflexivity|exact J].
Qed.

Lemma merge_argument_spec : forall n fn common l, l <> nil -> fst (merge_argument n fn common l) = nil ->
  exists x r, l = x :: r /\ conflicting_defaults l = nil /\
  (if mem (va_name x) common
   then exists t, fold_arg_types (a_type (v_arg x)) r = Some t /\
     snd (merge_argument n fn common l) =
       [mkoinput (va_name x) t (first_default l) (collect (map (fun a => a_dirs (v_arg a)) l))]
   else snd (merge_argument n fn common l) = nil /\ forall a, In a l -> is_required (a_type (v_arg a)) = false).
Proof.
  intros n fn common [|x r] NE D; [congruence|]. exists x, r. split; [reflexivity|]. unfold merge_argument in *.
  assert (CD : conflicting_defaults (x :: r) = nil).
  { destruct (mem (va_name x) common); cbn [negb] in D.
    - destruct (fold_arg_types (a_type (v_arg x)) r) as [t|]; cbn [fst] in D; apply app_eq_nil in D; destruct D as (D & _);
        apply map_eq_nil in D; exact D.
    - cbn [fst] in D. apply app_eq_nil in D. destruct D as (D & _). apply map_eq_nil in D. exact D. }
  split; [exact CD|]. rewrite CD in D. rewrite CD. cbn [map List.app] in *.
  destruct (mem (va_name x) common); cbn [negb] in *.
  - destruct (fold_arg_types (a_type (v_arg x)) r) as [t|] eqn:T; [|discriminate]. exists t. auto.
  - cbn [fst snd] in *. split; [reflexivity|]. intros f I.
    destruct (existsb (fun a => is_required (a_type (v_arg a))) (x :: r)) eqn:E; [discriminate|].
    destruct (is_required (a_type (v_arg f))) eqn:R; [|reflexivity].
    assert (existsb (fun a => is_required (a_type (v_arg a))) (x :: r) = true); [|congruence].
    apply existsb_exists. exists f. auto.
Qed.

Lemma merge_field_arguments_spec : forall l, l <> nil -> fst (merge_field_arguments l) = nil ->
  (forall i, In i (snd (merge_field_arguments l)) ->
     (forall x, In x l -> In (oi_name i) (map a_name (f_args (v_field x)))) /\
     (exists x r, sel va_name (all_args l) (oi_name i) = x :: r /\ fold_arg_types (a_type (v_arg x)) r = Some (oi_type i)) /\
     conflicting_defaults (sel va_name (all_args l) (oi_name i)) = nil /\
     oi_default i = first_default (sel va_name (all_args l) (oi_name i)) /\
     oi_dirs i = collect (map (fun a => a_dirs (v_arg a)) (sel va_name (all_args l) (oi_name i)))) /\
  (forall x, In x (all_args l) ->
     (exists i, In i (snd (merge_field_arguments l)) /\ oi_name i = va_name x) \/
     (is_required (a_type (v_arg x)) = false /\ exists y, In y l /\ ~ In (va_name x) (map a_name (f_args (v_field y))))) /\
  NoDup (map oi_name (snd (merge_field_arguments l))).
Proof.
  intros l NE D. unfold merge_field_arguments in *. destruct l as [|first rest]; [congruence|].
  cbv zeta in *. cbn [fst snd] in *. fold (all_args (first :: rest)) in *. set (l := first :: rest) in *.
  destruct (groups_spec va_name (all_args l)) as (ns & E & ND & M). rewrite E in *. clear E.
  rewrite map_map in *. rewrite flat_map_nil in D.
  set (ma := merge_argument (parent_of first) (vf_name first) (argument_intersection l)) in *.
  assert (H : forall m, In m ns ->
    conflicting_defaults (sel va_name (all_args l) m) = nil /\
    ((In m (argument_intersection l) /\
     exists x r t, sel va_name (all_args l) m = x :: r /\ fold_arg_types (a_type (v_arg x)) r = Some t /\
       snd (ma (sel va_name (all_args l) m)) =
       [mkoinput m t (first_default (sel va_name (all_args l) m))
          (collect (map (fun a => a_dirs (v_arg a)) (sel va_name (all_args l) m)))]) \/
    (~ In m (argument_intersection l) /\ snd (ma (sel va_name (all_args l) m)) = nil /\
     forall a, In a (sel va_name (all_args l) m) -> is_required (a_type (v_arg a)) = false))).
  { intros m I. pose proof (M m) as (I' & _). specialize (I' I).
    assert (NE' : sel va_name (all_args l) m <> nil) by (apply sel_nonempty; exact I').
    destruct (merge_argument_spec (parent_of first) (vf_name first) (argument_intersection l) _ NE') as (x & r & S & CD & H).
    - apply D. apply in_map_iff. exists m. auto.
    - split; [exact CD|]. assert (J : In x (sel va_name (all_args l) m)) by (rewrite S; left; reflexivity).
      apply sel_in in J. destruct J as (_ & J). rewrite J in H.
      destruct (mem m (argument_intersection l)) eqn:ME.
      + left. split; [apply mem_in; exact ME|]. destruct H as (t & T & H). exists x, r, t. auto.
      + right. split; [apply mem_not_in; exact ME|]. exact H. }
  split; [|split].
  - intros i I. apply in_flat_map in I. destruct I as (p & J & I). apply in_map_iff in J. destruct J as (m & <- & J).
    destruct (H m J) as (CD & [(IN & x & r & t & SE & T & S)|(_ & S & _)]); rewrite S in I; [|contradiction].
    destruct I as [<-|[]]. cbn [oi_name oi_type oi_default oi_dirs]. split; [apply argument_intersection_in; assumption|].
    split; [exists x, r; auto|]. auto.
  - intros x I. assert (J : In (va_name x) ns) by (apply M; apply in_map; exact I).
    destruct (H _ J) as (CD & [(IN & y & r & t & SE & T & S)|(NI & S & R)]).
    + left. eexists. split; [|].
      * apply in_flat_map. exists (ma (sel va_name (all_args l) (va_name x))). split.
        -- apply in_map_iff. exists (va_name x). auto.
        -- rewrite S. left. reflexivity.
      * reflexivity.
    + right. split.
      * apply R. apply sel_in. auto.
      * destruct (existsb (fun v => negb (mem (va_name x) (map a_name (f_args (v_field v))))) l) eqn:EX.
        -- apply existsb_exists in EX. destruct EX as (v & IV & EV). exists v. split; [exact IV|].
           apply negb_true_iff, mem_not_in in EV. exact EV.
        -- exfalso. apply NI. apply argument_intersection_in; [exact NE|]. intros v IV.
           destruct (mem (va_name x) (map a_name (f_args (v_field v)))) eqn:ME; [apply mem_in; exact ME|].
           assert (existsb (fun v => negb (mem (va_name x) (map a_name (f_args (v_field v))))) l = true); [|congruence].
           apply existsb_exists. exists v. rewrite ME. auto.
  - clear D M. clearbody l ma. induction ns as [|m ns IH]; [constructor|]. cbn [flat_map map].
    inversion ND as [|? ? NI ND']; subst.
    assert (IH' := IH ND' (fun k K => H k (or_intror K))). rewrite map_app.
    destruct (H m (or_introl eq_refl)) as (_ & [(_ & x & r & t & _ & _ & S)|(_ & S & _)]); rewrite S; cbn [map List.app]; [|exact IH'].
    constructor; [|exact IH']. cbn. intros J. apply in_map_iff in J. destruct J as (i & N & J).
    apply in_flat_map in J. destruct J as (p & K & J). apply in_map_iff in K. destruct K as (k & <- & K).
    destruct (H k (or_intror K)) as (_ & [(_ & x' & r' & t' & _ & _ & S')|(_ & S' & _)]); rewrite S' in J; [|contradiction].
    destruct J as [<-|[]]. cbn in N. congruence.
Qed.

(* a composed field that nothing is reported about has arguments that nothing
   is reported about *)
Lemma compose_field_args : forall l f, compose_field l = (nil, Some f) ->
  fst (merge_field_arguments l) = nil /\ of_args f = snd (merge_field_arguments l) /\
  compose_field_types compose_for_output l = Some (inl (of_type f)) /\
  of_dirs f = collect (map (fun x => f_dirs (v_field x)) l).
Proof.
  intros [|x r] f E; [discriminate|]. unfold compose_field in E.
  destruct (merge_field_arguments (x :: r)) as [ad args]. cbv zeta in E.
  destruct (compose_field_types compose_for_output (x :: r)) as [[t|d]|]; try discriminate.
  injection E as D <-. cbn [of_args of_type of_dirs fst snd]. split; [|auto].
  apply app_eq_nil in D. destruct D as (_ & D). apply app_eq_nil in D. destruct D as (_ & D).
  apply app_eq_nil in D. apply D.
Qed.
