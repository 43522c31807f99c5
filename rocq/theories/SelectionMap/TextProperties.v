(** C103: field selection maps are read by the grammar, printed maps read back. *)
From Coq Require Import List NArith Bool Lia.
From Verif Require Import SelectionMap.Model SelectionMap.Spec SelectionMap.ReadBack.
Import ListNotations.
Local Open Scope list_scope.
Local Open Scope N_scope.

(** Exactly the texts of the grammar are read, as what they spell. *)
Theorem C103_grammar t v : parse t = Some v <-> exists a u b, blank a /\ spells v u /\ blank b /\ t = a ++ u ++ b.
Proof. apply parse_iff. Qed.

(** No text spells two values. *)
Theorem C103_one v w t : spells v t -> spells w t -> v = w.
Proof.
  intros V W.
  assert (parse t = Some v) as E.
  { apply parse_iff. exists [], t, []. rewrite app_nil_r. split; [constructor|]. split; [exact V|]. split; [constructor|reflexivity]. }
  assert (parse t = Some w) as F.
  { apply parse_iff. exists [], t, []. rewrite app_nil_r. split; [constructor|]. split; [exact W|]. split; [constructor|reflexivity]. }
  congruence.
Qed.

Lemma print_segment_spells s : ok_segment s -> spells_segment s (print_segment s).
Proof.
  destruct s as [n [m|]]; intros [N M]; cbn in *; [|constructor; exact N].
  change (n ++ 60 :: m ++ [62]) with (n ++ [] ++ [60] ++ [] ++ m ++ [] ++ [62]). constructor; try assumption; constructor.
Qed.
Lemma print_segments_spells l : l <> [] -> Forall ok_segment l -> spells_segments l (intersperse [46] (map print_segment l)).
Proof.
  intros NE F. destruct l as [|s l]; [congruence|]. clear NE. revert s F. induction l as [|s' l IH]; intros s F.
  - cbn [map intersperse flat_map]. rewrite app_nil_r. constructor. inversion F. apply print_segment_spells. assumption.
  - inversion F as [|? ? S F']. subst. cbn [map intersperse flat_map]. rewrite <- app_assoc.
    constructor; [apply print_segment_spells, S|exists [], []; split; [constructor|split; [constructor|reflexivity]]|exact (IH s' F')].
Qed.
Lemma print_path_spells p : ok_path p -> spells_path p (print_path p).
Proof.
  destruct p as [ty l]. intros (NE & F & T). cbn in NE, F, T. unfold print_path. cbn [p_ty p_segments].
  pose proof (print_segments_spells l NE F) as S. destruct ty as [n|]; [|constructor; exact S].
  change (([60] ++ n ++ [62; 46]) ++ intersperse [46] (map print_segment l))
    with ([60] ++ [] ++ (n ++ [62; 46]) ++ intersperse [46] (map print_segment l)).
  rewrite <- app_assoc. change ([62; 46] ++ intersperse [46] (map print_segment l))
    with ([] ++ [62] ++ [] ++ [46] ++ intersperse [46] (map print_segment l)).
  constructor; try assumption; constructor.
Qed.

Section Induction.
  Variables (P : value -> Prop) (Q : entry -> Prop) (R : ofield -> Prop).
  Hypothesis HV : forall l, Forall Q l -> P (Value l).
  Hypothesis HI : Q Identity.
  Hypothesis HP : forall p, Q (EPath p).
  Hypothesis HO : forall p l, Forall R l -> Q (EObject p l).
  Hypothesis HL : forall p v, P v -> Q (EList p v).
  Hypothesis HN : forall k, R (OField k None).
  Hypothesis HS : forall k v, P v -> R (OField k (Some v)).
  Fixpoint value_rec_ (v : value) : P v :=
    match v with
    | Value l => HV l ((fix go l := match l return Forall Q l with [] => Forall_nil _ | e :: l => Forall_cons _ (entry_rec_ e) (go l) end) l)
    end
  with entry_rec_ (e : entry) : Q e :=
    match e with
    | Identity => HI
    | EPath p => HP p
    | EObject p l => HO p l ((fix go l := match l return Forall R l with [] => Forall_nil _ | e :: l => Forall_cons _ (field_rec_ e) (go l) end) l)
    | EList p v => HL p v (value_rec_ v)
    end
  with field_rec_ (f : ofield) : R f :=
    match f with OField k None => HN k | OField k (Some v) => HS k v (value_rec_ v) end.
End Induction.

Lemma spells_all {A} (print1 : A -> text) (good spelled1 : A -> Prop) sep (spelled : list A -> text -> Prop) :
  (forall e, spelled1 e -> spelled [e] (print1 e)) ->
  (forall e l u, spelled1 e -> spelled l u -> spelled (e :: l) (print1 e ++ sep ++ u)) ->
  forall l, l <> [] -> Forall good l -> Forall (fun e => good e -> spelled1 e) l -> spelled l (intersperse sep (map print1 l)).
Proof.
  intros H1 H2 l NE G F. destruct l as [|e l]; [congruence|]. clear NE. revert e G F. induction l as [|e' l IH]; intros e G F.
  - cbn [map intersperse flat_map]. rewrite app_nil_r. inversion G. inversion F. auto.
  - inversion G as [|? ? Ge G']. inversion F as [|? ? Fe F']. subst.
    cbn [map intersperse flat_map]. rewrite <- app_assoc. apply H2; [auto|exact (IH e' G' F')].
Qed.
Lemma print_spells v : ok v -> spells v (print v).
Proof.
  revert v. apply (value_rec_ (fun v => ok v -> spells v (print v))
    (fun e => ok_entry e -> spells_entry e (print_entry e)) (fun f => ok_field f -> spells_field f (print_field f))).
  - intros l F O. inversion O as [? NE G]. subst. constructor. cbn [print].
    apply (spells_all print_entry ok_entry (fun e => spells_entry e (print_entry e))); [| |exact NE|exact G|exact F].
    + intros e E. constructor. exact E.
    + intros e l' u E U. apply al_more; [exact E| |exact U].
      exists [32], [32]. split; [repeat constructor|split; [repeat constructor|reflexivity]].
  - intros _. constructor.
  - intros p O. inversion O. constructor. apply print_path_spells. assumption.
  - intros p l F O. inversion O as [| |? ? P G|]. subst.
    assert (X : spells_object l ([123; 32] ++ intersperse [32] (map print_field l) ++ [32; 125])).
    { destruct l as [|f l]; [apply (ob_none [32; 32]); repeat constructor|].
      apply (ob_some [32] (f :: l) _ [32]); [repeat constructor| |repeat constructor].
      apply (spells_all print_field ok_field (fun e => spells_field e (print_field e))); [| |discriminate|exact G|exact F].
      - intros e E. constructor. exact E.
      - intros e l' u E U. apply (fi_more e _ 32 []); [exact E|repeat constructor|exact U]. }
    cbn [print_entry]. destruct p as [p|]; [|constructor; exact X]. rewrite <- app_assoc.
    apply en_path_object; [apply print_path_spells, P|exists [], []; split; [constructor|split; [constructor|reflexivity]]|exact X].
  - intros p v IH O. inversion O as [| | |? ? P V]. subst.
    assert (X : spells_list v ([91] ++ print v ++ [93])).
    { apply (li_list [] v (print v) []); [constructor|apply IH, V|constructor]. }
    cbn [print_entry]. destruct p as [p|]; [|constructor; exact X].
    apply (en_path_list p (print_path p) [] v); [apply print_path_spells, P|constructor|exact X].
  - intros k O. inversion O. constructor. assumption.
  - intros k v IH O. inversion O. subst. cbn [print_field].
    apply (fd_long k [58; 32]); [assumption|exists [], [32]; split; [constructor|split; [repeat constructor|reflexivity]]|auto].
Qed.

(** What is printed is read back. *)
Theorem C103_print v : ok v -> parse (print v) = Some v.
Proof.
  intros O. apply parse_iff. exists [], (print v), []. rewrite app_nil_r. split; [constructor|].
  split; [apply print_spells, O|]. split; [constructor|reflexivity].
Qed.

Lemma segment_ok s t : spells_segment s t -> ok_segment s.
Proof. destruct 1; split; cbn; auto. Qed.
Lemma segments_ok_ l t : spells_segments l t -> l <> [] /\ Forall ok_segment l.
Proof.
  induction 1 as [s t S|s t d l u S D U [_ IH]]; (split; [discriminate|]).
  - constructor; [eapply segment_ok, S|constructor].
  - constructor; [eapply segment_ok, S|exact IH].
Qed.
Lemma path_ok p t : spells_path p t -> ok_path p.
Proof.
  destruct 1 as [l t S|n a b c l t Hn A B C S]; destruct (segments_ok_ _ _ S) as [NE F];
    (split; [exact NE|split; [exact F|]]); cbn; auto.
Qed.
Lemma spells_ok :
  (forall v t, spells v t -> ok v) /\ (forall l t, spells_alternatives l t -> l <> [] /\ Forall ok_entry l) /\
  (forall e t, spells_entry e t -> ok_entry e) /\ (forall l t, spells_object l t -> Forall ok_field l) /\
  (forall l t, spells_fields l t -> Forall ok_field l) /\ (forall f t, spells_field f t -> ok_field f) /\
  (forall v t, spells_list v t -> ok v).
Proof.
  apply spells_mut; intros.
  - destruct H0. constructor; assumption.
  - split; [discriminate|]. constructor; [assumption|constructor].
  - destruct H3. split; [discriminate|]. constructor; assumption.
  - constructor.
  - constructor. eapply path_ok; eassumption.
  - constructor; [exact Logic.I|assumption].
  - constructor; [eapply path_ok; eassumption|assumption].
  - constructor; [exact Logic.I|assumption].
  - constructor; [eapply path_ok; eassumption|assumption].
  - constructor.
  - assumption.
  - constructor; [assumption|constructor].
  - constructor; assumption.
  - constructor; assumption.
  - constructor; assumption.
  - assumption.
Qed.
(** What is read is printed and read again as itself: the form kept in the schema loses nothing. *)
Theorem C103_again t v : parse t = Some v -> parse (print v) = Some v.
Proof.
  intros P. apply parse_iff in P. destruct P as (a & u & b & _ & U & _). apply C103_print. eapply (proj1 spells_ok), U.
Qed.

(** [{ id: user<User>.id  tags: a.b[ { x } ] | . }] *)
Definition ex_text : text :=
  [123;32;105;100;58;32;117;115;101;114;60;85;115;101;114;62;46;105;100;32;32;116;97;103;115;58;32;97;46;98;91;32;123;32;120;32;125;32;93;32;124;32;46;32;125].
Example C103_ex :
  parse ex_text = Some (Value [EObject None
    [OField [105;100] (Some (Value [EPath (Path None [Segment [117;115;101;114] (Some [85;115;101;114]); Segment [105;100] None])]));
     OField [116;97;103;115] (Some (Value [EList (Some (Path None [Segment [97] None; Segment [98] None]))
                                             (Value [EObject None [OField [120] None]]); Identity]))]]).
Proof. vm_compute. reflexivity. Qed.
(** [<A>.b] reads back, [< A > . b] does not: no white space after this ".". *)
Example C103_leading_type_ex :
  parse [60;65;62;46;98] = Some (Value [EPath (Path (Some [65]) [Segment [98] None])]) /\ parse [60;32;65;32;62;32;46;32;98] = None.
Proof. split; vm_compute; reflexivity. Qed.
(** In GraphQL texts commas and comments are nothing but white space, and tokens need no white
    space between them: here [{ a, b }] and [{a:{b}c}] are refused though [{ a b }] and
    [{a:{b} c}] are read. *)
Theorem C103_graphql_refuted :
  (parse [123;32;97;32;98;32;125] <> None /\ parse [123;32;97;44;32;98;32;125] = None) /\
  (parse [123;97;58;123;98;125;32;99;125] <> None /\ parse [123;97;58;123;98;125;99;125] = None).
Proof. split; split; vm_compute; [discriminate|reflexivity|discriminate|reflexivity]. Qed.
