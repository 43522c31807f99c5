(** The text of a document without its literals, for the traces (C44): two
    documents have the same text exactly when they are alike up to their
    literals. *)

From Coq Require Import String Ascii List Bool NArith ZArith.
From Verif Require Import Normalizer.Model Normalizer.Normal.
Import ListNotations.
Local Open Scope string_scope.
Local Open Scope list_scope.

(** *** Specification *)

Inductive alike_value : value -> value -> Prop :=
| al_var n : alike_value (VVar n) (VVar n)
| al_int_int i j : alike_value (VInt i) (VInt j)
| al_int_float i j : alike_value (VInt i) (VFloat j)
| al_float_int i j : alike_value (VFloat i) (VInt j)
| al_float_float i j : alike_value (VFloat i) (VFloat j)
| al_str s t : alike_value (VStr s) (VStr t)
| al_bool b : alike_value (VBool b) (VBool b)
| al_null : alike_value VNull VNull
| al_enum n : alike_value (VEnum n) (VEnum n)
| al_list l m : alike_value (VList l) (VList m)
| al_obj l m : Forall2 (fun a b => fst a = fst b /\ alike_value (snd a) (snd b)) l m -> alike_value (VObj l) (VObj m).

Definition alike_arg (a b : string * value) : Prop := fst a = fst b /\ alike_value (snd a) (snd b).
Definition alike_dir (a b : directive) : Prop := dir_name a = dir_name b /\ Forall2 alike_arg (dir_args a) (dir_args b).

(** The directives on spreads don't count. *)
Inductive alike_sel : selection -> selection -> Prop :=
| al_field alias n args args' dirs dirs' sels sels' :
    Forall2 alike_arg args args' -> Forall2 alike_dir dirs dirs' -> Forall2 alike_sel sels sels' ->
    alike_sel (Field alias n args dirs sels) (Field alias n args' dirs' sels')
| al_spread n dirs dirs' : alike_sel (Spread n dirs) (Spread n dirs')
| al_inline c dirs dirs' sels sels' :
    Forall2 alike_dir dirs dirs' -> Forall2 alike_sel sels sels' -> alike_sel (Inline c dirs sels) (Inline c dirs' sels').

(** Nor do default values, nor the directives on an operation. *)
Definition alike_variable (v w : variable) : Prop := var_name v = var_name w /\ var_type v = var_type w.

Definition as_operation (d : definition) : option operation :=
  match d with DOp o => Some o | DSet s => Some (Operation Query None [] [] s) | DFrag _ => None end.

Inductive alike_def : definition -> definition -> Prop :=
| al_op a b o p : as_operation a = Some o -> as_operation b = Some p ->
    op_type o = op_type p -> op_name o = op_name p -> Forall2 alike_variable (op_vars o) (op_vars p) ->
    Forall2 alike_sel (op_sels o) (op_sels p) -> alike_def a b
| al_frag f g : frag_name f = frag_name g -> frag_cond f = frag_cond g ->
    Forall2 alike_dir (frag_dirs f) (frag_dirs g) -> Forall2 alike_sel (frag_sels f) (frag_sels g) ->
    alike_def (DFrag f) (DFrag g).

Definition alike : document -> document -> Prop := Forall2 alike_def.

(** Documents that a parser can return: names as in the grammar, enum values
    other than true, false and null, no empty selection set except after fields,
    no non-null type of a non-null type. *)
Definition between (lo hi : ascii) (c : ascii) : bool :=
  (N.leb (N_of_ascii lo) (N_of_ascii c) && N.leb (N_of_ascii c) (N_of_ascii hi))%bool.
Definition name_start (c : ascii) : bool := (between "a" "z" c || between "A" "Z" c || Ascii.eqb c "_")%bool.
Definition name_char (c : ascii) : bool := (name_start c || between "0" "9" c)%bool.
Definition valid_name (s : string) : bool :=
  match list_ascii_of_string s with c :: r => (name_start c && forallb name_char r)%bool | [] => false end.

Fixpoint valid_value (v : value) : bool :=
  match v with
  | VVar n => valid_name n
  | VEnum n => (valid_name n && negb (String.eqb n "true") && negb (String.eqb n "false") && negb (String.eqb n "null"))%bool
  | VObj l => forallb (fun a => (valid_name (fst a) && valid_value (snd a))%bool) l
  | _ => true
  end.

Definition valid_arg (a : string * value) : bool := (valid_name (fst a) && valid_value (snd a))%bool.
Definition valid_dir (d : directive) : bool := (valid_name (dir_name d) && forallb valid_arg (dir_args d))%bool.
Definition some {A} (l : list A) : bool := match l with [] => false | _ => true end.

Fixpoint valid_sel (s : selection) : bool :=
  match s with
  | Field alias n args dirs sels =>
      (match alias with Some a => valid_name a | None => true end && valid_name n && forallb valid_arg args
       && forallb valid_dir dirs && forallb valid_sel sels)%bool
  | Spread n _ => valid_name n
  | Inline c dirs sels =>
      (match c with Some t => valid_name t | None => true end && forallb valid_dir dirs && forallb valid_sel sels && some sels)%bool
  end.

Fixpoint valid_type (t : gtype) : bool :=
  match t with
  | TNamed n => valid_name n
  | TList t => valid_type t
  | TNonNull t => (valid_type t && match t with TNonNull _ => false | _ => true end)%bool
  end.

Definition valid_var (v : variable) : bool := (valid_name (var_name v) && valid_type (var_type v))%bool.

Definition valid_def (d : definition) : bool :=
  match d with
  | DOp o => (match op_name o with Some n => valid_name n | None => true end && forallb valid_var (op_vars o)
              && forallb valid_sel (op_sels o) && some (op_sels o))%bool
  | DSet s => (forallb valid_sel s && some s)%bool
  | DFrag f => (valid_name (frag_name f) && valid_name (frag_cond f) && forallb valid_dir (frag_dirs f)
                && forallb valid_sel (frag_sels f) && some (frag_sels f))%bool
  end.

Definition valid (ds : document) : bool := forallb valid_def ds.

(** *** Texts of names *)

Lemma value_ind' (P : value -> Prop) :
  (forall n, P (VVar n)) -> (forall z, P (VInt z)) -> (forall z, P (VFloat z)) -> (forall s, P (VStr s)) ->
  (forall b, P (VBool b)) -> P VNull -> (forall n, P (VEnum n)) -> (forall l, P (VList l)) ->
  (forall l, Forall (fun a => P (snd a)) l -> P (VObj l)) -> forall v, P v.
Proof.
  intros H1 H2 H3 H4 H5 H6 H7 H8 H9. fix F 1.
  intros [n|z|z|s|b| |n|l|l]; [apply H1|apply H2|apply H3|apply H4|apply H5|apply H6|apply H7|apply H8|].
  apply H9. induction l as [|a r IH]; constructor; [apply F|exact IH].
Qed.

Definition stop (r : text) : Prop := match r with [] => True | c :: _ => name_char c = false end.

Lemma lit_inj : forall s t, lit s = lit t -> s = t.
Proof.
  intros s t H. apply (f_equal string_of_list_ascii) in H. unfold lit in H.
  rewrite !string_of_list_ascii_of_string in H. exact H.
Qed.

Lemma valid_chars : forall n, valid_name n = true -> forallb name_char (lit n) = true /\ exists c r, lit n = c :: r /\ name_start c = true.
Proof.
  intros n H. unfold valid_name in H. fold (lit n) in H. destruct (lit n) as [|c r]; [discriminate|].
  apply andb_prop in H. destruct H as [H1 H2]. split; [|eauto]. cbn [forallb]. unfold name_char at 1. rewrite H1, H2. reflexivity.
Qed.

Lemma chars_split : forall l m r1 r2, forallb name_char l = true -> forallb name_char m = true ->
  stop r1 -> stop r2 -> l ++ r1 = m ++ r2 -> l = m /\ r1 = r2.
Proof.
  induction l as [|c l IH]; intros [|d m] r1 r2 Hl Hm S1 S2 E; cbn [app forallb] in *.
  - auto.
  - apply andb_prop in Hm. subst r1. cbn in S1. destruct Hm. congruence.
  - apply andb_prop in Hl. subst r2. cbn in S2. destruct Hl. congruence.
  - apply andb_prop in Hl, Hm. destruct Hl, Hm. injection E as <- E.
    destruct (IH m r1 r2) as [-> ->]; auto.
Qed.

Lemma name_split : forall n m r1 r2, valid_name n = true -> valid_name m = true -> stop r1 -> stop r2 ->
  lit n ++ r1 = lit m ++ r2 -> n = m /\ r1 = r2.
Proof.
  intros n m r1 r2 Hn Hm S1 S2 E. apply valid_chars in Hn, Hm.
  apply chars_split in E; try apply Hn; try apply Hm; auto. destruct E as [E ->]. apply lit_inj in E. auto.
Qed.

(** A name starts with none of the other characters of a text. *)
Lemma name_head : forall n c r1 r2, valid_name n = true -> name_start c = false -> lit n ++ r1 <> c :: r2.
Proof.
  intros n c r1 r2 H Hc E. apply valid_chars in H. destruct H as [_ (d & r & H & Hd)].
  rewrite H in E. injection E as -> _. congruence.
Qed.

(** *** Lists *)

Section Lists.
  Context {A : Type} (R : A -> A -> Prop) (p : A -> text).

  Lemma elements_cons : forall sep close x y r,
    elements sep close p (x :: y :: r) = p x ++ sep ++ elements sep close p (y :: r).
  Proof. reflexivity. Qed.

  Lemma elements_one : forall sep close x, elements sep close p [x] = p x ++ close.
  Proof. reflexivity. Qed.

  Lemma elements_close : forall sep close l, l <> [] -> elements sep close p l = elements sep [] p l ++ close.
  Proof.
    induction l as [|x [|y r] IH]; intros H; [contradiction| |].
    - rewrite !elements_one, app_nil_r. reflexivity.
    - rewrite !elements_cons, IH by discriminate. rewrite !app_assoc. reflexivity.
  Qed.

  (** Separated by one mark and closed by another. *)
  Lemma elements_split : forall s sep c close,
    name_char s = false -> name_char c = false -> s <> c ->
    forall l m r1 r2, l <> [] -> m <> [] ->
    Forall (fun x => forall y r1 r2, In y m -> stop r1 -> stop r2 -> p x ++ r1 = p y ++ r2 -> R x y /\ r1 = r2) l ->
    elements (s :: sep) (c :: close) p l ++ r1 = elements (s :: sep) (c :: close) p m ++ r2 ->
    Forall2 R l m /\ r1 = r2.
  Proof.
    intros s sep c close Hs Hc N. induction l as [|x l IH]; intros m r1 r2 Hl Hm H E; [contradiction|].
    destruct m as [|y m]; [contradiction|]. apply Forall_cons_iff in H. destruct H as [Hx H].
    destruct l as [|x' l], m as [|y' m];
      rewrite ?elements_cons, ?elements_one, <- ?app_assoc in E; cbn [app] in E;
      apply Hx in E; cbn [stop]; auto; try (left; reflexivity); destruct E as [E1 E2].
    - injection E2 as E2. apply app_inv_head in E2. auto.
    - injection E2 as E2 _. congruence.
    - injection E2 as E2 _. congruence.
    - injection E2 as E2. apply app_inv_head in E2. apply (IH (y' :: m) r1 r2) in E2; try discriminate.
      + destruct E2. auto.
      + eapply Forall_impl; [|exact H]. cbn beta. intros z Hz y0 a b Hy. apply Hz. right. exact Hy.
  Qed.

  (** Such a list in marks of its own, followed by something else. *)
  Lemma enclosed_split : forall o open s sep c close,
    name_char s = false -> name_char c = false -> s <> c ->
    forall l m r1 r2, (forall t, r1 <> o :: t) -> (forall t, r2 <> o :: t) ->
    Forall (fun x => forall y r1 r2, In y m -> stop r1 -> stop r2 -> p x ++ r1 = p y ++ r2 -> R x y /\ r1 = r2) l ->
    enclosed (o :: open) (s :: sep) (c :: close) p l ++ r1 = enclosed (o :: open) (s :: sep) (c :: close) p m ++ r2 ->
    Forall2 R l m /\ r1 = r2.
  Proof.
    intros o open s sep c close Hs Hc N l m r1 r2 H1 H2 H E. unfold enclosed in E.
    destruct l as [|x l], m as [|y m].
    - cbn in E. auto.
    - exfalso. cbn [app] in E. eapply H1, E.
    - exfalso. cbn [app] in E. symmetry in E. eapply H2, E.
    - rewrite <- !app_assoc in E. apply app_inv_head in E.
      eapply elements_split in E; eauto; discriminate.
  Qed.
End Lists.

(** *** Values *)

Ltac clash := exfalso; match goal with
  | V : valid_name ?n = true, E : @eq _ _ _ |- False =>
      first [refine (name_head n _ _ _ V _ E); reflexivity | refine (name_head n _ _ _ V _ (eq_sym E)); reflexivity]
  end.

Lemma value_split : forall v w r1 r2, valid_value v = true -> valid_value w = true -> stop r1 -> stop r2 ->
  san_value v ++ r1 = san_value w ++ r2 -> alike_value v w /\ r1 = r2.
Proof.
  assert (words : valid_name "true" = true /\ valid_name "false" = true /\ valid_name "null" = true)
    by (split; [reflexivity|split; reflexivity]).
  destruct words as (Wt & Wf & Wn).
  assert (enum : forall n, valid_value (VEnum n) = true -> valid_name n = true /\ n <> "true" /\ n <> "false" /\ n <> "null").
  { intros n H. cbn [valid_value] in H. apply andb_prop in H. destruct H as [H H4]. apply andb_prop in H. destruct H as [H H3].
    apply andb_prop in H. destruct H as [H H2].
    split; [exact H|]. split; [|split]; intros ->; cbn in *; discriminate. }
  induction v as [n|z|z|s|b| |n|l|l IH] using value_ind'; intros w r1 r2 Hv Hw S1 S2 E.
  - destruct w as [m|z'|z'|s'|[]| |m|l'|l']; cbn [san_value] in E; try discriminate.
    + injection E as E. apply name_split in E; auto. destruct E as [-> ->]. split; [constructor|reflexivity].
    + apply enum in Hw. destruct Hw as [Hw _]. change (lit "$" ++ lit n) with ("$"%char :: lit n) in E. cbn [app] in E. clash.
  - destruct w as [m|z'|z'|s'|[]| |m|l'|l']; cbn [san_value] in E; try discriminate;
      try (injection E as ->; split; [constructor|reflexivity]).
    apply enum in Hw. destruct Hw as [Hw _]. cbn [lit list_ascii_of_string app] in E. clash.
  - destruct w as [m|z'|z'|s'|[]| |m|l'|l']; cbn [san_value] in E; try discriminate;
      try (injection E as ->; split; [constructor|reflexivity]).
    apply enum in Hw. destruct Hw as [Hw _]. cbn [lit list_ascii_of_string app] in E. clash.
  - destruct w as [m|z'|z'|s'|[]| |m|l'|l']; cbn [san_value] in E; try discriminate;
      try (injection E as ->; split; [constructor|reflexivity]).
    apply enum in Hw. destruct Hw as [Hw _]. cbn [lit list_ascii_of_string app] in E. clash.
  - destruct w as [m|z'|z'|s'|b'| |m|l'|l'].
    all: try (destruct b; cbn [san_value] in E; discriminate).
    + destruct b, b'; cbn [san_value] in E; try discriminate; injection E as ->; split; constructor.
    + apply enum in Hw. destruct Hw as (Hw & N1 & N2 & N3). exfalso.
      destruct b; cbn [san_value] in E; apply name_split in E; auto; destruct E; congruence.
  - destruct w as [m|z'|z'|s'|[]| |m|l'|l']; cbn [san_value] in E; try discriminate.
    + injection E as ->; split; constructor.
    + apply enum in Hw. destruct Hw as (Hw & N1 & N2 & N3). exfalso. apply name_split in E; auto; destruct E; congruence.
  - apply enum in Hv. destruct Hv as (Hv & M1 & M2 & M3).
    destruct w as [m|z'|z'|s'|b'| |m|l'|l']; cbn [san_value] in E; try (cbn [lit list_ascii_of_string app] in E; clash).
    + exfalso. destruct b'; apply name_split in E; auto; destruct E; congruence.
    + exfalso. apply name_split in E; auto; destruct E; congruence.
    + apply enum in Hw. destruct Hw as (Hw & N1 & N2 & N3). apply name_split in E; auto. destruct E as [-> ->]. split; constructor.
  - destruct w as [m|z'|z'|s'|[]| |m|l'|l']; cbn [san_value] in E; try discriminate;
      try (injection E as ->; split; [constructor|reflexivity]).
    apply enum in Hw. destruct Hw as [Hw _]. cbn [lit list_ascii_of_string app] in E. clash.
  - destruct w as [m|z'|z'|s'|[]| |m|l'|l']; cbn [san_value] in E; try discriminate.
    + apply enum in Hw. destruct Hw as [Hw _]. cbn [lit list_ascii_of_string app] in E. clash.
    + cbn [valid_value] in Hv, Hw. rewrite forallb_forall in Hv, Hw.
      change (lit "{") with ["{"%char] in E. change (lit "}") with ["}"%char] in E. cbn [app] in E. injection E as E.
      set (p := fun f : string * value => lit (fst f) ++ lit ": " ++ san_value (snd f)) in *.
      assert (G : Forall2 (fun a b => fst a = fst b /\ alike_value (snd a) (snd b)) l l' /\ r1 = r2).
      { assert (nb : forall x l r r', (forall a, In a (x :: l) -> (valid_name (fst a) && valid_value (snd a))%bool = true) ->
          (elements (lit ", ") [] p (x :: l) ++ ["}"%char]) ++ r <> "}"%char :: r').
        { intros x l0 r r' HV C. specialize (HV x (or_introl eq_refl)). apply andb_prop in HV. destruct HV as [HV _].
          assert (exists t, elements (lit ", ") [] p (x :: l0) = lit (fst x) ++ t) as [t Ht].
          { destruct l0; rewrite ?elements_one, ?elements_cons; unfold p at 1; rewrite <- !app_assoc; eexists; reflexivity. }
          rewrite Ht, <- !app_assoc in C. clash. }
        destruct l as [|x l], l' as [|y l'].
        - cbn in E. injection E as E. auto.
        - exfalso. symmetry in E. eapply nb; [|exact E]. exact Hw.
        - exfalso. eapply nb; [|exact E]. exact Hv.
        - rewrite <- !elements_close in E by discriminate.
          eapply elements_split in E; [exact E|reflexivity|reflexivity|discriminate|discriminate|discriminate|].
          rewrite Forall_forall in IH |- *. intros a Ha b s1 s2 Hb T1 T2 Es.
          pose proof (Hv _ Ha) as Va. pose proof (Hw _ Hb) as Vb. apply andb_prop in Va, Vb. destruct Va, Vb.
          unfold p in Es. rewrite <- !app_assoc in Es. apply name_split in Es; auto; try reflexivity. destruct Es as [En Es].
          cbn [lit list_ascii_of_string app] in Es. injection Es as Es. apply IH in Es; auto. destruct Es. auto. }
      destruct G as [G ->]. split; [constructor; exact G|reflexivity].
Qed.

Lemma value_alike : forall v w, alike_value v w -> san_value v = san_value w.
Proof.
  induction v as [n|z|z|s|b| |n|l|l IH] using value_ind'; intros w H; inversion H; subst; try reflexivity.
  cbn [san_value]. f_equal. f_equal.
  match goal with H : Forall2 _ _ _ |- _ => rename H into HF end. clear H.
  induction HF as [|a b l m [Ha Hb] HF IH2]; [reflexivity|]. apply Forall_cons_iff in IH. destruct IH as [Hx IH].
  destruct HF as [|a' b' l' m' Hab HF']; rewrite ?elements_cons, ?elements_one, Ha, (Hx _ Hb); [reflexivity|].
  rewrite IH2 by exact IH. reflexivity.
Qed.

Lemma arg_split : forall a b r1 r2, valid_arg a = true -> valid_arg b = true -> stop r1 -> stop r2 ->
  san_arg a ++ r1 = san_arg b ++ r2 -> alike_arg a b /\ r1 = r2.
Proof.
  intros [n v] [m w] r1 r2 Ha Hb S1 S2 E. unfold valid_arg in *. apply andb_prop in Ha, Hb. destruct Ha as [Ha Va], Hb as [Hb Vb].
  unfold san_arg in E. rewrite <- !app_assoc in E. apply name_split in E; auto; try reflexivity. destruct E as [En E].
  apply app_inv_head in E. apply value_split in E; auto. destruct E. split; [split|]; auto.
Qed.

Lemma arg_alike : forall a b, alike_arg a b -> san_arg a = san_arg b.
Proof. intros a b [E V]. unfold san_arg. rewrite E, (value_alike _ _ V). reflexivity. Qed.

Lemma args_split : forall s sep l m r1 r2, name_char s = false -> s <> ")"%char ->
  forallb valid_arg l = true -> forallb valid_arg m = true ->
  (forall t, r1 <> "("%char :: t) -> (forall t, r2 <> "("%char :: t) ->
  enclosed (lit "(") (s :: sep) (lit ")") san_arg l ++ r1 = enclosed (lit "(") (s :: sep) (lit ")") san_arg m ++ r2 ->
  Forall2 alike_arg l m /\ r1 = r2.
Proof.
  intros s sep l m r1 r2 Hs N Hl Hm H1 H2 E. rewrite forallb_forall in Hl, Hm.
  eapply enclosed_split in E; [exact E|exact Hs|reflexivity|exact N|exact H1|exact H2|].
  apply Forall_forall. intros x Hx y t1 t2 Hy T1 T2 Ex. apply arg_split in Ex; auto.
Qed.

Lemma elements_alike {A} (R : A -> A -> Prop) (p : A -> text) sep close : (forall x y, R x y -> p x = p y) ->
  forall l m, Forall2 R l m -> elements sep close p l = elements sep close p m.
Proof.
  intros H l m HF. induction HF as [|a b l m Hab HF IH]; [reflexivity|].
  destruct HF; rewrite ?elements_cons, ?elements_one, (H _ _ Hab); [reflexivity|]. rewrite IH. reflexivity.
Qed.

Lemma enclosed_alike {A} (R : A -> A -> Prop) (p : A -> text) open sep close : (forall x y, R x y -> p x = p y) ->
  forall l m, Forall2 R l m -> enclosed open sep close p l = enclosed open sep close p m.
Proof. intros H l m HF. pose proof (elements_alike R p sep close H l m HF) as E. destruct HF; cbn; [reflexivity|]. f_equal. exact E. Qed.

(** *** Directives *)

(** What follows directives. *)
Definition no_dir (r : text) : Prop := exists c t, r = " "%char :: c :: t /\ c <> "@"%char.

Lemma dir_alike : forall a b, alike_dir a b -> san_dir a = san_dir b.
Proof. intros a b [E V]. unfold san_dir. rewrite E, (enclosed_alike _ _ _ _ _ arg_alike _ _ V). reflexivity. Qed.

Lemma dirs_alike : forall l m, Forall2 alike_dir l m -> san_dirs l = san_dirs m.
Proof. intros l m H. induction H as [|a b l m Hab _ IH]; [reflexivity|]. unfold san_dirs in *. cbn [flat_map]. rewrite (dir_alike _ _ Hab), IH. reflexivity. Qed.

Lemma dirs_space : forall l r, no_dir r -> exists c t, san_dirs l ++ r = " "%char :: c :: t.
Proof.
  intros [|d l] r (c & t & -> & _); [eexists _, _; reflexivity|].
  unfold san_dirs. cbn [flat_map]. unfold san_dir. cbn [lit list_ascii_of_string app]. eexists _, _. reflexivity.
Qed.

Lemma space_stop : forall c t, stop (" "%char :: c :: t).
Proof. reflexivity. Qed.

Lemma space_paren : forall (x : ascii) t t', " "%char :: t <> "("%char :: t'.
Proof. discriminate. Qed.

Lemma enclosed_stop : forall l r, (exists c t, r = " "%char :: c :: t) -> stop (enclosed (lit "(") (lit ",") (lit ")") san_arg l ++ r).
Proof. intros [|a l] r (c & t & ->); reflexivity. Qed.

Lemma enclosed_stop2 : forall l r, (exists c t, r = " "%char :: c :: t) -> stop (enclosed (lit "(") (lit ", ") (lit ")") san_arg l ++ r).
Proof. intros [|a l] r (c & t & ->); reflexivity. Qed.

Lemma dirs_split : forall l m r1 r2, forallb valid_dir l = true -> forallb valid_dir m = true -> no_dir r1 -> no_dir r2 ->
  san_dirs l ++ r1 = san_dirs m ++ r2 -> Forall2 alike_dir l m /\ r1 = r2.
Proof.
  induction l as [|a l IH]; intros [|b m] r1 r2 Hl Hm N1 N2 E.
  - auto.
  - exfalso. destruct N1 as (c & t & -> & N). unfold san_dirs in E. cbn [flat_map] in E. unfold san_dir in E.
    cbn [lit list_ascii_of_string app] in E. injection E as E _. congruence.
  - exfalso. destruct N2 as (c & t & -> & N). unfold san_dirs in E. cbn [flat_map] in E. unfold san_dir in E.
    cbn [lit list_ascii_of_string app] in E. injection E as E _. congruence.
  - cbn [forallb] in Hl, Hm. apply andb_prop in Hl, Hm. destruct Hl as [Ha Hl], Hm as [Hb Hm].
    unfold valid_dir in Ha, Hb. apply andb_prop in Ha, Hb. destruct Ha as [Na Va], Hb as [Nb Vb].
    change (san_dirs (a :: l)) with (san_dir a ++ san_dirs l) in E. change (san_dirs (b :: m)) with (san_dir b ++ san_dirs m) in E.
    unfold san_dir in E. rewrite <- !app_assoc in E. apply app_inv_head in E.
    pose proof (dirs_space l r1 N1) as Q1. pose proof (dirs_space m r2 N2) as Q2.
    apply name_split in E; auto using enclosed_stop. destruct E as [En E].
    apply args_split in E; auto; try discriminate;
      try (intros t C; destruct Q1 as (? & ? & Q1), Q2 as (? & ? & Q2); rewrite ?Q1, ?Q2 in C; discriminate).
    destruct E as [Ea E]. apply IH in E; auto. destruct E. split; [|assumption]. constructor; [split; assumption|assumption].
Qed.

(** *** Selections *)

(** What follows a selection: another one, or the end of the set. *)
Definition follow (r : text) : Prop :=
  exists c t, r = " "%char :: c :: t /\ (name_start c = true \/ c = "."%char \/ c = "}"%char).

Lemma follow_no_dir : forall r, follow r -> no_dir r.
Proof.
  intros r (c & t & -> & H). exists c, t. split; [reflexivity|]. intros ->. destruct H as [H|[H|H]]; discriminate.
Qed.

Lemma follow_open : forall r t, follow r -> r <> " "%char :: "{"%char :: t.
Proof. intros r t (c & t' & -> & H) E. injection E as -> _. destruct H as [H|[H|H]]; discriminate. Qed.

Lemma sel_start : forall s, valid_sel s = true -> exists c t, san_sel s = " "%char :: c :: t /\ (name_start c = true \/ c = "."%char).
Proof.
  intros [alias n args dirs sels|n dirs|c dirs sels] H; cbn [valid_sel] in H.
  - repeat (apply andb_prop in H; destruct H as [H ?]).
    cbn [san_sel lit list_ascii_of_string app]. destruct alias as [a|].
    + apply valid_chars in H. destruct H as [_ (c & r & E & Hc)]. unfold lit in E |- *. rewrite E. cbn [app]. eauto.
    + match goal with V : valid_name n = true |- _ => apply valid_chars in V; destruct V as [_ (c & r & E & Hc)] end.
      unfold lit in E |- *. rewrite E. cbn [app]. eauto.
  - cbn [san_sel lit list_ascii_of_string app]. eauto.
  - cbn [san_sel lit list_ascii_of_string app]. eauto.
Qed.

Definition sel_reads (x : selection) : Prop :=
  forall y r1 r2, valid_sel x = true -> valid_sel y = true -> follow r1 -> follow r2 ->
    san_sel x ++ r1 = san_sel y ++ r2 -> alike_sel x y /\ r1 = r2.

(** The selections of a set, up to its end, whatever comes then. *)
Lemma items_split : forall l m r1 r2, l <> [] -> m <> [] -> Forall sel_reads l ->
  forallb valid_sel l = true -> forallb valid_sel m = true ->
  elements [] (lit " }") san_sel l ++ r1 = elements [] (lit " }") san_sel m ++ r2 -> Forall2 alike_sel l m /\ r1 = r2.
Proof.
  assert (after : forall l r, forallb valid_sel l = true -> follow (match l with [] => lit " }" | _ => elements [] (lit " }") san_sel l end ++ r)).
  { intros [|x l] r H; [eexists _, _; split; [reflexivity|auto]|].
    cbn [forallb] in H. apply andb_prop in H. destruct H as [Hx _]. destruct (sel_start _ Hx) as (c & t & E & Hc).
    unfold elements. rewrite E. eexists _, _. split; [reflexivity|]. tauto. }
  assert (unf : forall x l, elements [] (lit " }") san_sel (x :: l) =
    san_sel x ++ match l with [] => lit " }" | _ => elements [] (lit " }") san_sel l end) by (intros x [|]; reflexivity).
  induction l as [|x l IH]; intros [|y m] r1 r2 Nl Nm H Hl Hm E; try contradiction.
  apply Forall_cons_iff in H. destruct H as [Hx H]. cbn [forallb] in Hl, Hm. apply andb_prop in Hl, Hm.
  destruct Hl as [Vx Hl], Hm as [Vy Hm].
  rewrite !unf, <- !app_assoc in E. apply Hx in E; auto. destruct E as [Exy E].
  destruct l as [|x' l], m as [|y' m].
  - apply app_inv_head in E. auto.
  - exfalso. cbn [forallb] in Hm. apply andb_prop in Hm. destruct Hm as [Vy' _].
    destruct (sel_start _ Vy') as (c & t & Es & Hc). rewrite unf, Es in E. cbn [lit list_ascii_of_string app] in E.
    injection E as <- _. destruct Hc; discriminate.
  - exfalso. cbn [forallb] in Hl. apply andb_prop in Hl. destruct Hl as [Vy' _].
    destruct (sel_start _ Vy') as (c & t & Es & Hc). rewrite unf, Es in E. cbn [lit list_ascii_of_string app] in E.
    injection E as -> _. destruct Hc; discriminate.
  - apply IH in E; auto; try discriminate. destruct E. auto.
Qed.

Lemma sels_split : forall l m r1 r2, Forall sel_reads l -> forallb valid_sel l = true -> forallb valid_sel m = true ->
  (l = [] -> follow r1) -> (m = [] -> follow r2) ->
  san_sels l ++ r1 = san_sels m ++ r2 -> Forall2 alike_sel l m /\ r1 = r2.
Proof.
  intros l m r1 r2 H Hl Hm F1 F2 E. unfold san_sels, enclosed in E.
  destruct l as [|x l], m as [|y m].
  - auto.
  - exfalso. cbn [app lit list_ascii_of_string] in E. eapply follow_open; [apply F1; reflexivity|exact E].
  - exfalso. cbn [app lit list_ascii_of_string] in E. symmetry in E. eapply follow_open; [apply F2; reflexivity|exact E].
  - rewrite <- !app_assoc in E. apply app_inv_head in E. apply items_split in E; auto; discriminate.
Qed.

Lemma sels_no_dir : forall l r, (l = [] -> follow r) -> no_dir (san_sels l ++ r).
Proof.
  intros [|x l] r F; [apply follow_no_dir, F; reflexivity|].
  eexists _, _. split; [reflexivity|discriminate].
Qed.

Lemma sel_split : forall x, sel_reads x.
Proof.
  induction x as [alias n args dirs sels IH|n dirs|c dirs sels IH] using selection_ind'; intros y r1 r2 Vx Vy F1 F2 E.
  - destruct y as [alias' n' args' dirs' sels'|n' dirs'|c' dirs' sels'].
    + cbn [valid_sel] in Vx, Vy.
      repeat (apply andb_prop in Vx; destruct Vx as [Vx ?]). repeat (apply andb_prop in Vy; destruct Vy as [Vy ?]).
      cbn [san_sel] in E. fold (san_sels sels) in E. fold (san_sels sels') in E.
      rewrite <- !app_assoc in E. apply app_inv_head in E.
      pose proof (sels_no_dir sels r1 (fun _ => F1)) as N1. pose proof (sels_no_dir sels' r2 (fun _ => F2)) as N2.
      pose proof (dirs_space dirs _ N1) as Q1. pose proof (dirs_space dirs' _ N2) as Q2.
      set (R1 := enclosed (lit "(") (lit ", ") (lit ")") san_arg args ++ san_dirs dirs ++ san_sels sels ++ r1) in *.
      set (R2 := enclosed (lit "(") (lit ", ") (lit ")") san_arg args' ++ san_dirs dirs' ++ san_sels sels' ++ r2) in *.
      assert (S1 : stop R1) by (apply enclosed_stop2, Q1). assert (S2 : stop R2) by (apply enclosed_stop2, Q2).
      assert (C1 : forall t, R1 <> ":"%char :: t).
      { intros t C. subst R1. destruct Q1 as (? & ? & Q1). rewrite Q1 in C. destruct args; discriminate. }
      assert (C2 : forall t, R2 <> ":"%char :: t).
      { intros t C. subst R2. destruct Q2 as (? & ? & Q2). rewrite Q2 in C. destruct args'; discriminate. }
      assert (En : alias = alias' /\ n = n' /\ R1 = R2).
      { destruct alias as [a|], alias' as [a'|]; rewrite <- ?app_assoc in E; cbn [app] in E.
        - apply name_split in E; auto; try reflexivity. destruct E as [-> E]. apply app_inv_head in E.
          apply name_split in E; auto.
        - exfalso. apply name_split in E; auto; try reflexivity. destruct E as [_ E]. symmetry in E. eapply C2, E.
        - exfalso. apply name_split in E; auto; try reflexivity. destruct E as [_ E]. eapply C1, E.
        - apply name_split in E; auto. }
      destruct En as (-> & -> & ER). subst R1 R2.
      apply args_split in ER; auto; try discriminate;
        try (intros t C; destruct Q1 as (? & ? & Q1), Q2 as (? & ? & Q2); rewrite ?Q1, ?Q2 in C; discriminate).
      destruct ER as [Ea ER]. apply dirs_split in ER; auto. destruct ER as [Ed ER].
      apply sels_split in ER; auto. destruct ER as [Es ER]. split; [constructor; assumption|assumption].
    + exfalso. destruct (sel_start _ Vx) as (c & t & Es & _). cbn [valid_sel] in Vx.
      repeat (apply andb_prop in Vx; destruct Vx as [Vx ?]).
      cbn [san_sel] in E. rewrite <- !app_assoc in E. cbn [lit list_ascii_of_string app] in E. injection E as E.
      destruct alias as [a|]; rewrite <- ?app_assoc in E; cbn [app] in E; clash.
    + exfalso. cbn [valid_sel] in Vx.
      repeat (apply andb_prop in Vx; destruct Vx as [Vx ?]).
      cbn [san_sel] in E. rewrite <- !app_assoc in E. cbn [lit list_ascii_of_string app] in E. injection E as E.
      destruct alias as [a|]; rewrite <- ?app_assoc in E; cbn [app] in E; clash.
  - destruct y as [alias' n' args' dirs' sels'|n' dirs'|c' dirs' sels'].
    + exfalso. cbn [valid_sel] in Vy. repeat (apply andb_prop in Vy; destruct Vy as [Vy ?]).
      cbn [san_sel] in E. rewrite <- !app_assoc in E. cbn [lit list_ascii_of_string app] in E. injection E as E.
      destruct alias' as [a|]; rewrite <- ?app_assoc in E; cbn [app] in E; clash.
    + cbn [san_sel] in E. rewrite <- !app_assoc in E. apply app_inv_head in E.
      apply name_split in E; auto; try reflexivity. destruct E as [-> E]. apply app_inv_head in E. split; [constructor|exact E].
    + exfalso. cbn [valid_sel] in Vx. cbn [san_sel] in E. rewrite <- !app_assoc in E. apply app_inv_head in E.
      fold (san_sels sels') in E. pose proof (sels_no_dir sels' r2 (fun _ => F2)) as N2. destruct (dirs_space dirs' _ N2) as (? & ? & Q2).
      rewrite Q2 in E. destruct c' as [t|]; cbn [lit list_ascii_of_string app] in E; clash.
  - destruct y as [alias' n' args' dirs' sels'|n' dirs'|c' dirs' sels'].
    + exfalso. cbn [valid_sel] in Vy. repeat (apply andb_prop in Vy; destruct Vy as [Vy ?]).
      cbn [san_sel] in E. rewrite <- !app_assoc in E. cbn [lit list_ascii_of_string app] in E. injection E as E.
      destruct alias' as [a|]; rewrite <- ?app_assoc in E; cbn [app] in E; clash.
    + exfalso. cbn [valid_sel] in Vy. cbn [san_sel] in E. rewrite <- !app_assoc in E. apply app_inv_head in E.
      fold (san_sels sels) in E. pose proof (sels_no_dir sels r1 (fun _ => F1)) as N1. destruct (dirs_space dirs _ N1) as (? & ? & Q1).
      rewrite Q1 in E. destruct c as [t|]; cbn [lit list_ascii_of_string app] in E; clash.
    + cbn [valid_sel] in Vx, Vy.
      repeat (apply andb_prop in Vx; destruct Vx as [Vx ?]). repeat (apply andb_prop in Vy; destruct Vy as [Vy ?]).
      cbn [san_sel] in E. fold (san_sels sels) in E. fold (san_sels sels') in E.
      rewrite <- !app_assoc in E. apply app_inv_head in E.
      pose proof (sels_no_dir sels r1 (fun _ => F1)) as N1. pose proof (sels_no_dir sels' r2 (fun _ => F2)) as N2.
      pose proof (dirs_space dirs _ N1) as Q1. pose proof (dirs_space dirs' _ N2) as Q2.
      (* without a type condition, what follows is a directive or a brace *)
      assert (NC : forall l ss r t, ss <> [] -> san_dirs l ++ san_sels ss ++ r <> " "%char :: "o"%char :: t).
      { intros [|d l] [|s ss] r t Hss C; try contradiction; discriminate. }
      assert (some_ne : forall l : list selection, some l = true -> l <> []) by (intros []; discriminate).
      assert (Ec : c = c' /\ san_dirs dirs ++ san_sels sels ++ r1 = san_dirs dirs' ++ san_sels sels' ++ r2).
      { destruct c as [t|], c' as [t'|]; rewrite <- ?app_assoc in E; cbn [app] in E.
        - apply app_inv_head in E.
          assert (S1 : stop (san_dirs dirs ++ san_sels sels ++ r1)) by (destruct Q1 as (? & ? & ->); reflexivity).
          assert (S2 : stop (san_dirs dirs' ++ san_sels sels' ++ r2)) by (destruct Q2 as (? & ? & ->); reflexivity).
          apply name_split in E; auto. destruct E as [-> E]. auto.
        - exfalso. symmetry in E. eapply NC; [|exact E]. auto.
        - exfalso. eapply NC; [|exact E]. auto.
        - auto. }
      destruct Ec as [-> Ec]. apply dirs_split in Ec; auto. destruct Ec as [Ed Ec].
      apply sels_split in Ec; auto. destruct Ec. split; [constructor; assumption|assumption].
Qed.

Lemma sel_alike : forall x y, alike_sel x y -> san_sel x = san_sel y.
Proof.
  assert (L : forall sels sels', Forall (fun x => forall y, alike_sel x y -> san_sel x = san_sel y) sels ->
    Forall2 alike_sel sels sels' -> san_sels sels = san_sels sels').
  { intros sels sels' IH H. apply (enclosed_alike (fun x y => san_sel x = san_sel y) san_sel); [auto|].
    induction H as [|x y l m Hxy _ IH2]; [constructor|]. apply Forall_cons_iff in IH. destruct IH. constructor; auto. }
  induction x as [alias n args dirs sels IH|n dirs|c dirs sels IH] using selection_ind'; intros y H; inversion H; subst.
  - cbn [san_sel]. fold (san_sels sels). fold (san_sels sels').
    rewrite (L sels sels'), (dirs_alike dirs dirs'), (enclosed_alike alike_arg san_arg _ _ _ arg_alike args args') by assumption.
    reflexivity.
  - reflexivity.
  - cbn [san_sel]. fold (san_sels sels). fold (san_sels sels'). rewrite (L sels sels'), (dirs_alike dirs dirs') by assumption. reflexivity.
Qed.

Lemma sels_alike : forall l m, Forall2 alike_sel l m -> san_sels l = san_sels m.
Proof. apply enclosed_alike, sel_alike. Qed.

(** *** Types and variables *)

Definition is_non_null (t : gtype) : bool := match t with TNonNull _ => true | _ => false end.

Lemma type_split : forall t,
  (forall t' r1 r2, valid_type t = true -> valid_type t' = true ->
     stop r1 -> stop r2 -> (forall x, r1 <> "!"%char :: x) -> (forall x, r2 <> "!"%char :: x) ->
     print_type t ++ r1 = print_type t' ++ r2 -> t = t' /\ r1 = r2) /\
  (is_non_null t = false -> forall t' r1 r2, valid_type t = true -> valid_type t' = true -> is_non_null t' = false ->
     stop r1 -> stop r2 -> print_type t ++ r1 = print_type t' ++ r2 -> t = t' /\ r1 = r2).
Proof.
  assert (up : forall t,
    (is_non_null t = false -> forall t' r1 r2, valid_type t = true -> valid_type t' = true -> is_non_null t' = false ->
      stop r1 -> stop r2 -> print_type t ++ r1 = print_type t' ++ r2 -> t = t' /\ r1 = r2) -> is_non_null t = false ->
    (forall t' r1 r2, valid_type t = true -> valid_type t' = true ->
      stop r1 -> stop r2 -> (forall x, r1 <> "!"%char :: x) -> (forall x, r2 <> "!"%char :: x) ->
      print_type t ++ r1 = print_type t' ++ r2 -> t = t' /\ r1 = r2)).
  { intros t H N t' r1 r2 V V' S1 S2 B1 B2 E. destruct t' as [n|t'|t'].
    - apply H; auto.
    - apply H; auto.
    - exfalso. cbn [print_type valid_type] in E, V'. apply andb_prop in V'. destruct V' as [V' N'].
      rewrite <- app_assoc in E. apply H in E; auto; [|destruct t'; auto; discriminate|reflexivity].
      destruct E as [_ E]. eapply B1, E. }
  induction t as [n|t [IH1 IH2]|t [IH1 IH2]].
  - assert (Q : is_non_null (TNamed n) = false -> forall t' r1 r2, valid_type (TNamed n) = true -> valid_type t' = true -> is_non_null t' = false ->
      stop r1 -> stop r2 -> print_type (TNamed n) ++ r1 = print_type t' ++ r2 -> TNamed n = t' /\ r1 = r2).
    { intros _ [m|t'|t'] r1 r2 V V' N S1 S2 E; cbn [print_type valid_type] in E, V, V'; [| |discriminate].
      - apply name_split in E; auto. destruct E as [-> ->]. auto.
      - exfalso. cbn [lit list_ascii_of_string app] in E. clash. }
    split; [apply up; [exact Q|reflexivity]|exact Q].
  - assert (Q : is_non_null (TList t) = false -> forall t' r1 r2, valid_type (TList t) = true -> valid_type t' = true -> is_non_null t' = false ->
      stop r1 -> stop r2 -> print_type (TList t) ++ r1 = print_type t' ++ r2 -> TList t = t' /\ r1 = r2).
    { intros _ [m|t'|t'] r1 r2 V V' N S1 S2 E; cbn [print_type valid_type] in E, V, V'; [| |discriminate].
      - exfalso. cbn [lit list_ascii_of_string app] in E. clash.
      - rewrite <- !app_assoc in E. apply app_inv_head in E. apply IH1 in E; auto; try reflexivity; try discriminate.
        destruct E as [-> E]. apply app_inv_head in E. auto. }
    split; [apply up; [exact Q|reflexivity]|exact Q].
  - split; [|discriminate]. intros t' r1 r2 V V' S1 S2 B1 B2 E.
    cbn [valid_type] in V. apply andb_prop in V. destruct V as [V N].
    assert (N0 : is_non_null t = false) by (destruct t; auto; discriminate).
    destruct t' as [m|t'|t'].
    + exfalso. cbn [print_type] in E. rewrite <- app_assoc in E. apply (IH2 N0 (TNamed m)) in E; auto; [|reflexivity].
      destruct E as [_ E]. symmetry in E. eapply B2, E.
    + exfalso. cbn [print_type] in E. rewrite <- app_assoc in E. apply (IH2 N0 (TList t')) in E; auto; [|reflexivity].
      destruct E as [_ E]. symmetry in E. eapply B2, E.
    + cbn [valid_type] in V'. apply andb_prop in V'. destruct V' as [V' N'].
      cbn [print_type] in E. rewrite <- !app_assoc in E. apply (IH2 N0) in E; auto; try reflexivity; [|destruct t'; auto; discriminate].
      destruct E as [-> E]. apply app_inv_head in E. auto.
Qed.

Lemma vars_split : forall l m r1 r2, forallb valid_var l = true -> forallb valid_var m = true ->
  (forall t, r1 <> "("%char :: t) -> (forall t, r2 <> "("%char :: t) ->
  san_vars l ++ r1 = san_vars m ++ r2 -> Forall2 alike_variable l m /\ r1 = r2.
Proof.
  intros l m r1 r2 Hl Hm H1 H2 E. rewrite forallb_forall in Hl, Hm. unfold san_vars in E.
  assert (item : forall v w r1 r2, valid_var v = true -> valid_var w = true -> stop r1 -> stop r2 ->
    (forall x, r1 <> "!"%char :: x) -> (forall x, r2 <> "!"%char :: x) ->
    san_var v ++ r1 = san_var w ++ r2 -> alike_variable v w /\ r1 = r2).
  { intros v w s1 s2 Hv Hw S1 S2 B1 B2 Ev. unfold valid_var in Hv, Hw. apply andb_prop in Hv, Hw. destruct Hv, Hw.
    unfold san_var in Ev. rewrite <- !app_assoc in Ev. apply app_inv_head in Ev.
    apply name_split in Ev; auto; try reflexivity. destruct Ev as [En Ev]. apply app_inv_head in Ev.
    destruct (type_split (var_type v)) as [TS _]. apply TS in Ev; auto. destruct Ev. split; [split|]; auto. }
  assert (go : forall l m r1 r2, l <> [] -> m <> [] -> (forall x, In x l -> valid_var x = true) -> (forall x, In x m -> valid_var x = true) ->
    elements (lit ", ") (lit ")") san_var l ++ r1 = elements (lit ", ") (lit ")") san_var m ++ r2 -> Forall2 alike_variable l m /\ r1 = r2).
  { clear - item. induction l as [|x l IH]; intros m r1 r2 Nl Nm Hl Hm E; [contradiction|]. destruct m as [|y m]; [contradiction|].
    assert (Vx : valid_var x = true) by (apply Hl; left; reflexivity). assert (Vy : valid_var y = true) by (apply Hm; left; reflexivity).
    destruct l as [|x' l], m as [|y' m]; rewrite ?elements_cons, ?elements_one, <- ?app_assoc in E;
      apply item in E; auto; try reflexivity; try discriminate; destruct E as [E1 E2]; try discriminate.
    - apply app_inv_head in E2. auto.
    - apply app_inv_head in E2. apply IH in E2; try discriminate; [destruct E2; auto| |]; intros z Hz; [apply Hl|apply Hm]; right; exact Hz. }
  unfold enclosed in E. destruct l as [|x l], m as [|y m].
  - auto.
  - exfalso. eapply H1, E.
  - exfalso. symmetry in E. eapply H2, E.
  - rewrite <- !app_assoc in E. apply app_inv_head in E. apply go in E; auto; discriminate.
Qed.

Lemma vars_alike : forall l m, Forall2 alike_variable l m -> san_vars l = san_vars m.
Proof. apply enclosed_alike. intros v w [E1 E2]. unfold san_var. rewrite E1, E2. reflexivity. Qed.

(** *** Definitions *)

Lemma def_text : forall d o, as_operation d = Some o -> san_def d = san_op (op_type o) (op_name o) (op_vars o) (op_sels o).
Proof. intros [o|s|f] o' H; cbn in H; injection H as <- || discriminate; reflexivity. Qed.

Lemma all_read : forall l, Forall sel_reads l.
Proof. intros l. apply Forall_forall. intros. apply sel_split. Qed.

Definition valid_op (o : operation) : Prop :=
  match op_name o with Some n => valid_name n = true | None => True end /\ forallb valid_var (op_vars o) = true /\
  forallb valid_sel (op_sels o) = true /\ op_sels o <> [].

Lemma valid_as_op : forall d o, valid_def d = true -> as_operation d = Some o -> valid_op o.
Proof.
  assert (some_ne : forall l : list selection, some l = true -> l <> []) by (intros []; discriminate).
  intros [o|s|f] o' V E; cbn in E; [| |discriminate]; injection E as <-; cbn [valid_def] in V;
    repeat (apply andb_prop in V; destruct V as [V ?]); unfold valid_op; cbn [op_name op_vars op_sels].
  - split; [destruct (op_name o); auto|]. auto.
  - auto.
Qed.

Lemma op_split : forall o p r1 r2, valid_op o -> valid_op p ->
  san_op (op_type o) (op_name o) (op_vars o) (op_sels o) ++ r1 = san_op (op_type p) (op_name p) (op_vars p) (op_sels p) ++ r2 ->
  op_type o = op_type p /\ op_name o = op_name p /\ Forall2 alike_variable (op_vars o) (op_vars p) /\
  Forall2 alike_sel (op_sels o) (op_sels p) /\ r1 = r2.
Proof.
  intros [k n vs ds ss] [k' n' vs' ds' ss'] r1 r2 (Vn & Vv & Vs & Ns) (Vn' & Vv' & Vs' & Ns') E.
  cbn [op_type op_name op_vars op_sels] in *. unfold san_op in E. rewrite <- !app_assoc in E.
  assert (Ek : k = k') by (destruct k, k'; try reflexivity; discriminate). subst k'. apply app_inv_head in E.
  split; [reflexivity|].
  assert (sels_head : forall l r, l <> [] -> exists t, san_sels l ++ r = " "%char :: "{"%char :: t)
    by (intros [|x l] r H; [contradiction|eexists; reflexivity]).
  destruct (sels_head ss r1 Ns) as (t1 & T1). destruct (sels_head ss' r2 Ns') as (t2 & T2).
  assert (S1 : stop (san_vars vs ++ san_sels ss ++ r1)) by (rewrite T1; destruct vs; reflexivity).
  assert (S2 : stop (san_vars vs' ++ san_sels ss' ++ r2)) by (rewrite T2; destruct vs'; reflexivity).
  assert (En : n = n' /\ san_vars vs ++ san_sels ss ++ r1 = san_vars vs' ++ san_sels ss' ++ r2).
  { destruct n as [n|], n' as [n'|]; rewrite <- ?app_assoc in E; cbn [app] in E.
    - apply app_inv_head in E. apply name_split in E; auto. destruct E as [-> E]. auto.
    - exfalso. rewrite T2 in E. cbn [lit list_ascii_of_string app] in E. destruct vs' as [|v vs'].
      + cbn [san_vars enclosed app] in E. injection E as E. clash.
      + unfold san_vars, enclosed in E. cbn [lit list_ascii_of_string app] in E. discriminate.
    - exfalso. rewrite T1 in E. cbn [lit list_ascii_of_string app] in E. destruct vs as [|v vs].
      + cbn [san_vars enclosed app] in E. injection E as E. clash.
      + unfold san_vars, enclosed in E. cbn [lit list_ascii_of_string app] in E. discriminate.
    - auto. }
  destruct En as [-> Ev]. split; [reflexivity|].
  apply vars_split in Ev; auto; [|rewrite T1; discriminate|rewrite T2; discriminate]. destruct Ev as [Hv Ev].
  split; [exact Hv|].
  apply sels_split in Ev; auto using all_read; intros; contradiction.
Qed.

Lemma frag_split : forall f g r1 r2, valid_def (DFrag f) = true -> valid_def (DFrag g) = true ->
  san_frag f ++ r1 = san_frag g ++ r2 -> alike_def (DFrag f) (DFrag g) /\ r1 = r2.
Proof.
  intros [n c ds ss] [n' c' ds' ss'] r1 r2 V V' E. cbn [valid_def frag_name frag_cond frag_dirs frag_sels] in V, V'.
  repeat (apply andb_prop in V; destruct V as [V ?]). repeat (apply andb_prop in V'; destruct V' as [V' ?]).
  unfold san_frag in E. cbn [frag_name frag_cond frag_dirs frag_sels] in E.
  rewrite <- !app_assoc in E. apply app_inv_head in E. apply name_split in E; auto; try reflexivity. destruct E as [-> E].
  apply app_inv_head in E.
  assert (some_ne : forall l : list selection, some l = true -> l <> []) by (intros []; discriminate).
  assert (N1 : no_dir (san_sels ss ++ r1)) by (apply sels_no_dir; intros ->; discriminate).
  assert (N2 : no_dir (san_sels ss' ++ r2)) by (apply sels_no_dir; intros ->; discriminate).
  pose proof (dirs_space ds _ N1) as Q1. pose proof (dirs_space ds' _ N2) as Q2.
  apply name_split in E; auto; [|destruct Q1 as (? & ? & ->); reflexivity|destruct Q2 as (? & ? & ->); reflexivity].
  destruct E as [-> E]. apply dirs_split in E; auto. destruct E as [Ed E].
  apply sels_split in E; auto using all_read; [|intros ->; discriminate|intros ->; discriminate].
  destruct E. split; [|assumption]. constructor; auto.
Qed.

Lemma def_split : forall a b r1 r2, valid_def a = true -> valid_def b = true ->
  san_def a ++ r1 = san_def b ++ r2 -> alike_def a b /\ r1 = r2.
Proof.
  intros a b r1 r2 Va Vb E.
  assert (kinds : forall o f s1 s2, san_op (op_type o) (op_name o) (op_vars o) (op_sels o) ++ s1 <> san_frag f ++ s2).
  { intros o f s1 s2 C. unfold san_op, san_frag in C. rewrite <- !app_assoc in C. destruct (op_type o); discriminate. }
  destruct (as_operation a) as [o|] eqn:Ea, (as_operation b) as [p|] eqn:Eb.
  - rewrite (def_text _ _ Ea), (def_text _ _ Eb) in E.
    apply op_split in E; [|exact (valid_as_op a o Va Ea)|exact (valid_as_op b p Vb Eb)].
    destruct E as (E1 & E2 & E3 & E4 & E5). split; [|exact E5]. exact (al_op a b o p Ea Eb E1 E2 E3 E4).
  - destruct b as [o'|s'|f]; try discriminate. exfalso. rewrite (def_text _ _ Ea) in E. eapply kinds, E.
  - destruct a as [o'|s'|f]; try discriminate. exfalso. rewrite (def_text _ _ Eb) in E. symmetry in E. eapply kinds, E.
  - destruct a as [o'|s'|f], b as [o''|s''|g]; try discriminate. apply frag_split; assumption.
Qed.

Lemma def_alike : forall a b, alike_def a b -> san_def a = san_def b.
Proof.
  intros a b [a' b' o p Ea Eb E1 E2 E3 E4|f g E1 E2 E3 E4].
  - rewrite (def_text _ _ Ea), (def_text _ _ Eb). unfold san_op. rewrite E1, E2, (vars_alike _ _ E3), (sels_alike _ _ E4). reflexivity.
  - cbn [san_def]. unfold san_frag. rewrite E1, E2, (dirs_alike _ _ E3), (sels_alike _ _ E4). reflexivity.
Qed.

(** *** C44 *)

(** Nothing but the outline of the document shows: documents that are alike up
    to their literals have the same text. *)
Theorem C44_private : forall d1 d2, alike d1 d2 -> sanitize d1 = sanitize d2.
Proof. intros d1 d2 H. unfold sanitize. eapply elements_alike; [|exact H]. apply def_alike. Qed.

(** And all of the outline shows. *)
Theorem C44_outline : forall d1 d2, valid d1 = true -> valid d2 = true -> sanitize d1 = sanitize d2 -> alike d1 d2.
Proof.
  assert (tail : forall x r, elements (lit " ") [] san_def (x :: r) = san_def x ++ match r with [] => [] | _ => lit " " ++ elements (lit " ") [] san_def r end)
    by (intros x [|]; reflexivity).
  assert (ne : forall x, san_def x <> []).
  { intros [o|s|f]; cbn [san_def]; unfold san_op; try discriminate. destruct (op_type o); discriminate. }
  unfold sanitize, valid, alike. induction d1 as [|x d1 IH]; intros [|y d2] V1 V2 E.
  - constructor.
  - exfalso. rewrite tail in E. cbn in E. destruct (san_def y) eqn:Ey; [eapply ne; eauto|discriminate].
  - exfalso. rewrite tail in E. cbn in E. destruct (san_def x) eqn:Ey; [eapply ne; eauto|discriminate].
  - cbn [forallb] in V1, V2. apply andb_prop in V1, V2. destruct V1 as [Vx V1], V2 as [Vy V2].
    rewrite !tail in E. apply def_split in E; auto. destruct E as [Exy E]. constructor; [exact Exy|].
    destruct d1 as [|x' d1], d2 as [|y' d2]; try discriminate; [constructor|].
    apply IH; auto. apply app_inv_head in E. exact E.
Qed.

(** query Q($id: [ID!]! = ["a"]) @auth(key: "k") { me: user(name: "Jo", tags: ["x"], at: {n: 2}, on: true) { ...F @include(if: true) } } *)
Definition traced (s t : string) (n : Z) (b : bool) : document :=
  [DOp (Operation Query (Some "Q") [VarDef "id" (TNonNull (TList (TNonNull (TNamed "ID")))) (Some (VList [VStr s]))]
      [Directive "auth" [("key", VStr t)]]
      [Field (Some "me") "user" [("name", VStr s); ("tags", VList [VStr t]); ("at", VObj [("n", VInt n)]); ("on", VBool b)] []
        [Spread "F" [Directive "include" [("if", VBool b)]]]])].

Example C44_example :
  string_of_list_ascii (sanitize (traced "a" "k" 2 true)) =
    "query Q($id: [ID!]!) { me: user(name: """", tags: [], at: {n: 0}, on: true) { ...F  } }" /\
  valid (traced "a" "k" 2 true) = true /\
  sanitize (traced "078-05-1120" "" 7 true) = sanitize (traced "a" "k" 2 true) /\
  sanitize (traced "a" "k" 2 false) <> sanitize (traced "a" "k" 2 true).
Proof. split; [reflexivity|]. split; [reflexivity|]. split; [reflexivity|]. vm_compute. discriminate. Qed.
