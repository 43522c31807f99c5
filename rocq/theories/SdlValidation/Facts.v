(* Reports, maps, duplicates and what the first pass collects. *)
From Coq Require Import Ascii String List Bool Arith Lia.
From Verif.SdlValidation Require Import Model Spec.
Import ListNotations.
Local Open Scope string_scope.
Local Open Scope list_scope.

(* ---------------------------------------------------------------- reports *)

Definition emits (r : report) (e : error) : Prop :=
  match r with Some l => In e l | None => False end.

Lemma andthen_none : forall a b, a ;; b = None <-> a = None \/ b = None.
Proof.
  intros [x|] [y|]; cbn; split; intros H; try tauto; try discriminate;
    destruct H as [H|H]; discriminate.
Qed.

Lemma andthen_ok : forall a b, a ;; b <> None <-> a <> None /\ b <> None.
Proof. intros a b. rewrite andthen_none. tauto. Qed.

Lemma emits_andthen : forall a b e, a ;; b <> None -> (emits (a ;; b) e <-> emits a e \/ emits b e).
Proof.
  intros [x|] [y|] e H; cbn in *; try tauto. now rewrite in_app_iff.
Qed.

Lemma for_each_ok : forall {A} (f : A -> report) l,
  for_each f l <> None <-> (forall x, In x l -> f x <> None).
Proof.
  intros A f l. induction l as [|x l IH]; cbn [for_each].
  - split; [intros _ x []|discriminate].
  - rewrite andthen_ok, IH. split.
    + intros [H1 H2] y [<- | Hy]; auto.
    + intros H. split; [apply H; now left|]. intros y Hy. apply H. now right.
Qed.

Lemma emits_for_each : forall {A} (f : A -> report) l e,
  for_each f l <> None ->
  (emits (for_each f l) e <-> exists x, In x l /\ emits (f x) e).
Proof.
  intros A f l e. induction l as [|x l IH]; cbn [for_each]; intros H.
  - cbn. split; [intros []|intros (x & [] & _)].
  - rewrite emits_andthen by exact H. rewrite andthen_ok in H. destruct H as [_ H].
    rewrite (IH H). split.
    + intros [He | (y & Hy & He)]; [exists x|exists y]; split; auto; [now left|now right].
    + intros (y & [<- | Hy] & He); [now left|right; exists y; auto].
Qed.

Lemma no_error_ok : no_error <> None. Proof. discriminate. Qed.
Lemma push_error_ok : forall e, push_error e <> None. Proof. discriminate. Qed.
Lemma when_ok : forall b e, when b e <> None. Proof. intros [] e; discriminate. Qed.

Lemma emits_no_error : forall e, emits no_error e <-> False.
Proof. intros e. cbn. tauto. Qed.
Lemma emits_push_error : forall e e', emits (push_error e) e' <-> e = e'.
Proof. intros e e'. cbn. tauto. Qed.
Lemma emits_when : forall b e e', emits (when b e) e' <-> b = true /\ e = e'.
Proof.
  intros [] e e'; cbn; [tauto|]. split; [intros []|intros [H _]; discriminate].
Qed.

Ltac split_then :=
  repeat match goal with |- andthen _ _ <> None => apply andthen_ok; split end.

Lemma or_iff_compat : forall A A' B B' : Prop, (A <-> A') -> (B <-> B') -> (A \/ B <-> A' \/ B').
Proof. tauto. Qed.

Lemma or_iff_group : forall A B B' C D : Prop,
  (A <-> B \/ B') -> (C <-> D) -> (A \/ C <-> B \/ B' \/ D).
Proof. tauto. Qed.

(* --------------------------------------------------------------- booleans *)

Lemma existsb_eqb : forall n l, existsb (String.eqb n) l = true <-> In n l.
Proof.
  intros n l. rewrite existsb_exists. split.
  - intros (x & Hx & E). apply String.eqb_eq in E. now subst.
  - intros H. exists n. split; [exact H|apply String.eqb_refl].
Qed.

Lemma existsb_eqb' : forall n l, existsb (fun o => String.eqb o n) l = true <-> In n l.
Proof.
  intros n l. rewrite existsb_exists. split.
  - intros (x & Hx & E). apply String.eqb_eq in E. now subst.
  - intros H. exists n. split; [exact H|apply String.eqb_refl].
Qed.

Lemma existsb_eqb_false : forall n l, existsb (String.eqb n) l = false <-> ~ In n l.
Proof.
  intros n l. rewrite <- existsb_eqb. destruct (existsb (String.eqb n) l); split; intros H; congruence.
Qed.

Lemma location_eqb_eq : forall a b, location_eqb a b = true <-> a = b.
Proof.
  intros a b. split.
  - destruct a, b; cbn; intros H; try reflexivity; discriminate.
  - intros <-. now destruct a.
Qed.

Lemma ty_eqb_eq : forall a b, ty_eqb a b = true <-> a = b.
Proof.
  induction a as [n x|s IH x]; intros [m y|t y]; cbn [ty_eqb].
  - rewrite andb_true_iff, String.eqb_eq, Bool.eqb_true_iff. split; [intros [-> ->]; reflexivity|].
    intros H. now injection H as -> ->.
  - split; discriminate.
  - split; discriminate.
  - rewrite andb_true_iff, IH, Bool.eqb_true_iff. split; [intros [-> ->]; reflexivity|].
    intros H. now injection H as -> ->.
Qed.

Lemma builtin_iff : forall n, is_builtin_scalar n = true <-> specified_scalar n.
Proof.
  intros n. unfold is_builtin_scalar, specified_scalar. rewrite existsb_eqb. cbn [In].
  intuition congruence.
Qed.

Lemma builtin_false_iff : forall n, is_builtin_scalar n = false <-> ~ specified_scalar n.
Proof.
  intros n. rewrite <- builtin_iff. destruct (is_builtin_scalar n); split; intros H; congruence.
Qed.

Lemma starts_dunder_iff : forall n, starts_dunder n = true <-> reserved n.
Proof.
  intros n. unfold starts_dunder, reserved. split.
  - destruct n as [|a [|b s]]; cbn [prefix]; [discriminate| |].
    + destruct (Ascii.ascii_dec "_"%char a); discriminate.
    + destruct (Ascii.ascii_dec "_"%char a) as [<- | ]; [|discriminate].
      destruct (Ascii.ascii_dec "_"%char b) as [<- | ]; [|discriminate].
      intros _. now exists s.
  - intros (s & ->). cbn. now destruct s.
Qed.

Lemma type_name_iff : forall t n, type_name t = n <-> named_in n t.
Proof.
  induction t as [m b|t IH b]; intros n; cbn [type_name]; split.
  - intros ->. constructor.
  - intros H. now inversion H.
  - intros H. constructor. now apply IH.
  - intros H. inversion H as [|? ? ? H1]; subst. now apply IH.
Qed.

(* ------------------------------------------------------------------- maps *)

Section Maps.
Context {A : Type}.

Lemma get_insert : forall n m (v : A) l,
  get n (insert m v l) = if String.eqb m n then Some v else get n l.
Proof.
  intros n m v l. induction l as [|[k w] l IH]; cbn [insert get].
  - reflexivity.
  - destruct (String.eqb_spec k m) as [->|Hkm]; cbn [get].
    + destruct (String.eqb m n); reflexivity.
    + rewrite IH. destruct (String.eqb_spec k n) as [->|]; [|reflexivity].
      destruct (String.eqb_spec m n) as [->|]; [contradiction|reflexivity].
Qed.

Lemma get_in : forall n (v : A) l, get n l = Some v -> In (n, v) l.
Proof.
  intros n v l. induction l as [|[k w] l IH]; cbn [get]; [discriminate|].
  destruct (String.eqb_spec k n) as [->|]; intros H.
  - left. congruence.
  - right. auto.
Qed.

Lemma insert_keys : forall n (v : A) l k,
  In k (map fst (insert n v l)) <-> k = n \/ In k (map fst l).
Proof.
  intros n v l k. induction l as [|[m w] l IH]; cbn [insert map fst In].
  - intuition.
  - destruct (String.eqb_spec m n) as [->|]; cbn [map fst In]; [intuition|].
    rewrite IH. tauto.
Qed.

Lemma insert_nodup : forall n (v : A) l, NoDup (map fst l) -> NoDup (map fst (insert n v l)).
Proof.
  intros n v l. induction l as [|[m w] l IH]; cbn [insert map fst]; intros H.
  - constructor; [intros []|constructor].
  - inversion H as [|? ? H1 H2]; subst.
    destruct (String.eqb_spec m n) as [->|D]; cbn [map fst].
    + constructor; assumption.
    + constructor; [|auto]. rewrite insert_keys. intros [->|X]; [now apply D|contradiction].
Qed.

Lemma in_get : forall n (v : A) l, NoDup (map fst l) -> In (n, v) l -> get n l = Some v.
Proof.
  intros n v l. induction l as [|[k w] l IH]; cbn [get map fst]; [intros _ []|].
  intros H Hin. inversion H as [|? ? H1 H2]; subst.
  destruct Hin as [E|Hin].
  - injection E as -> ->. now rewrite String.eqb_refl.
  - destruct (String.eqb_spec k n) as [->|]; [|auto].
    exfalso. apply H1. apply in_map_iff. now exists (n, v).
Qed.

Lemma get_none_iff : forall n (l : list (name * A)), get n l = None <-> ~ In n (map fst l).
Proof.
  intros n l. induction l as [|[k w] l IH]; cbn [get map fst In].
  - tauto.
  - destruct (String.eqb_spec k n) as [->|D].
    + split; [discriminate|]. intros H. exfalso. apply H. now left.
    + rewrite IH. tauto.
Qed.
End Maps.

Lemma get_push : forall {A} n m (v : A) l,
  get_all n (push m v l) = get_all n l ++ (if String.eqb m n then [v] else []).
Proof.
  intros A n m v l. unfold get_all, push. rewrite get_insert.
  destruct (String.eqb_spec m n) as [->|]; [reflexivity|now rewrite app_nil_r].
Qed.

Lemma get_extend : forall {A} n m (vs : list A) l,
  get_all n (extend m vs l) = get_all n l ++ (if String.eqb m n then vs else []).
Proof.
  intros A n m vs l. unfold get_all, extend. rewrite get_insert.
  destruct (String.eqb_spec m n) as [->|]; [reflexivity|now rewrite app_nil_r].
Qed.

(* ------------------------------------------------------------- duplicates *)

(* `buf` maps the names of `before` to their last index *)
Definition buf_of (before : list name) (buf : list (name * nat)) : Prop :=
  (forall n i, get n buf = Some i -> nth_error before i = Some n) /\
  (forall n, In n before -> get n buf <> None).

Lemma buf_of_insert : forall before buf n,
  buf_of before buf -> buf_of (before ++ [n]) (insert n (length before) buf).
Proof.
  intros before buf n [H1 H2]. split.
  - intros m i. rewrite get_insert. destruct (String.eqb_spec n m) as [<-|D]; intros H.
    + injection H as <-. rewrite nth_error_app2 by lia. now rewrite Nat.sub_diag.
    + apply H1 in H. rewrite nth_error_app1; [exact H|]. apply nth_error_Some. congruence.
  - intros m Hm. rewrite get_insert. destruct (String.eqb_spec n m) as [<-|D]; [discriminate|].
    apply H2. apply in_app_iff in Hm. destruct Hm as [Hm|[Hm|[]]]; [exact Hm|contradiction].
Qed.

Lemma duplicates_from_sound : forall names before buf i j,
  buf_of before buf ->
  In (i, j) (duplicates_from buf (length before) names) ->
  exists n, nth_error (before ++ names) i = Some n /\ nth_error (before ++ names) j = Some n /\
            i < j /\ length before <= j.
Proof.
  induction names as [|n names IH]; intros before buf i j HB; cbn [duplicates_from]; [intros []|].
  rewrite in_app_iff. intros [H|H].
  - destruct (get n buf) as [p|] eqn:E; [|destruct H].
    destruct H as [H|[]]. injection H as -> <-.
    pose proof (proj1 HB n i E) as HI. exists n.
    assert (HL : i < length before) by (apply nth_error_Some; congruence).
    split; [rewrite nth_error_app1; assumption|].
    split; [rewrite nth_error_app2 by lia; rewrite Nat.sub_diag; reflexivity|]. lia.
  - apply (buf_of_insert before buf n) in HB.
    specialize (IH (before ++ [n]) _ i j HB).
    rewrite app_length in IH. cbn [length] in IH. rewrite Nat.add_1_r in IH.
    destruct (IH H) as (m & Hi & Hj & Hlt & Hle).
    exists m. rewrite <- app_assoc in Hi, Hj. cbn [app] in Hi, Hj.
    split; [exact Hi|]. split; [exact Hj|]. lia.
Qed.

Lemma duplicates_from_complete : forall names before buf j n,
  buf_of before buf ->
  nth_error names j = Some n -> In n (before ++ firstn j names) ->
  exists i, In (i, length before + j) (duplicates_from buf (length before) names) /\
            nth_error (before ++ names) i = Some n.
Proof.
  induction names as [|x names IH]; intros before buf j n HB Hj Hin; [destruct j; discriminate|].
  cbn [duplicates_from]. destruct j as [|j]; cbn [nth_error firstn] in *.
  - injection Hj as ->. rewrite app_nil_r in Hin.
    destruct (get n buf) as [p|] eqn:E; [|exfalso; now apply (proj2 HB n Hin)].
    exists p. split; [rewrite Nat.add_0_r; apply in_app_iff; left; now left|].
    pose proof (proj1 HB n p E) as HP. rewrite nth_error_app1; [exact HP|].
    apply nth_error_Some. congruence.
  - pose proof (buf_of_insert before buf x HB) as HB'.
    destruct (IH (before ++ [x]) (insert x (length before) buf) j n HB' Hj) as (i & Hi & Hn).
    { rewrite <- app_assoc. exact Hin. }
    exists i. rewrite app_length in Hi. cbn [length] in Hi. rewrite Nat.add_1_r in Hi.
    split.
    + apply in_app_iff. right. replace (length before + S j) with (S (length before) + j) by lia. exact Hi.
    + rewrite <- app_assoc in Hn. exact Hn.
Qed.

Lemma buf_of_nil : buf_of [] [].
Proof. split; [discriminate|intros n []]. Qed.

Lemma nth_error_twice : forall {A} (l : list A) i j x,
  i < j -> nth_error l i = Some x -> nth_error l j = Some x -> twice l x.
Proof.
  intros A l i j x Hlt Hi Hj.
  apply nth_error_split in Hi. destruct Hi as (a & r & -> & Hl).
  rewrite nth_error_app2 in Hj by lia.
  destruct (j - length a) as [|k] eqn:E; [lia|]. cbn [nth_error] in Hj.
  apply nth_error_split in Hj. destruct Hj as (b & c & -> & _). now exists a, b, c.
Qed.

Lemma twice_nth_error : forall {A} (l : list A) x,
  twice l x -> exists i j, i < j /\ nth_error l i = Some x /\ nth_error l j = Some x /\
                          In x (firstn j l).
Proof.
  intros A l x (a & b & c & ->). exists (length a), (length (a ++ x :: b)).
  rewrite app_length. cbn [length].
  split; [lia|]. split.
  - rewrite nth_error_app2 by lia. now rewrite Nat.sub_diag.
  - replace (a ++ x :: b ++ x :: c) with ((a ++ x :: b) ++ x :: c) by (rewrite <- app_assoc; reflexivity).
    replace (length a + S (length b)) with (length (a ++ x :: b)) by (rewrite app_length; reflexivity).
    split.
    + rewrite nth_error_app2 by lia. now rewrite Nat.sub_diag.
    + rewrite firstn_app, Nat.sub_diag, firstn_all. cbn [firstn]. rewrite app_nil_r.
      apply in_app_iff. right. now left.
Qed.

(* Handlers that look up either index in the list of names. *)
Lemma find_duplicates_ok : forall names handle,
  (forall i j n, nth_error names i = Some n -> nth_error names j = Some n -> i < j -> handle i j <> None) ->
  find_duplicates names handle <> None.
Proof.
  intros names handle H. unfold find_duplicates. apply for_each_ok. intros [i j] Hin. cbn [fst snd].
  destruct (duplicates_from_sound names [] [] i j buf_of_nil Hin) as (n & Hi & Hj & Hlt & _).
  cbn [app] in Hi, Hj. eauto.
Qed.

Lemma emits_find_duplicates : forall names handle e (F : name -> error -> Prop),
  find_duplicates names handle <> None ->
  (forall i j n, nth_error names i = Some n -> nth_error names j = Some n -> i < j ->
                 handle i j <> None -> (emits (handle i j) e <-> F n e)) ->
  (emits (find_duplicates names handle) e <-> exists n, twice names n /\ F n e).
Proof.
  intros names handle e F Hok H. unfold find_duplicates in *. rewrite emits_for_each by exact Hok.
  rewrite for_each_ok in Hok. split.
  - intros ([i j] & Hin & He). cbn [fst snd] in He.
    destruct (duplicates_from_sound names [] [] i j buf_of_nil Hin) as (n & Hi & Hj & Hlt & _).
    cbn [app] in Hi, Hj. exists n. split; [eapply nth_error_twice; eauto|].
    apply (H i j n Hi Hj Hlt); [exact (Hok _ Hin)|exact He].
  - intros (n & Ht & HF). apply twice_nth_error in Ht. destruct Ht as (_ & j & _ & _ & Hj & Hin).
    destruct (duplicates_from_complete names [] [] j n buf_of_nil Hj) as (i & Hd & Hi); [exact Hin|].
    cbn [app length Nat.add] in Hd, Hi.
    destruct (duplicates_from_sound names [] [] i j buf_of_nil Hd) as (m & Hi' & Hj' & Hlt & _).
    cbn [app] in Hi', Hj'. exists (i, j). split; [exact Hd|]. cbn [fst snd].
    apply (H i j n Hi Hj Hlt); [exact (Hok _ Hd)|exact HF].
Qed.

(* ------------------------------------------------------- first and last *)

Fixpoint last_def (doc : document) (n : name) : option typedef :=
  match doc with
  | nil => None
  | d :: rest =>
      match last_def rest n with
      | Some t => Some t
      | None => match d with
                | DType t => if t_extend t then None else if String.eqb (t_name t) n then Some t else None
                | _ => None
                end
      end
  end.

Fixpoint last_directive (doc : document) (n : name) : option dirdef :=
  match doc with
  | nil => None
  | d :: rest =>
      match last_directive rest n with
      | Some t => Some t
      | None => match d with
                | DDirective t => if String.eqb (d_name t) n then Some t else None
                | _ => None
                end
      end
  end.

Definition extension_types (doc : document) (n : name) : list typedef :=
  flat_map (fun d => match d with
                     | DType t => if t_extend t then if String.eqb (t_name t) n then [t] else [] else []
                     | _ => []
                     end) doc.

Lemma last_with_cons : forall {A} (P : A -> Prop) l x y,
  last_with P (y :: l) x <-> last_with P l x \/ (y = x /\ P x /\ Forall (fun z => ~ P z) l).
Proof.
  intros A P l x y. split.
  - intros (a & b & E & Hx & Hb). destruct a as [|z a]; cbn [app] in E; injection E as -> ->.
    + right. auto.
    + left. now exists a, b.
  - intros [(a & b & -> & Hx & Hb)|(-> & Hx & Hb)].
    + exists (y :: a), b. auto.
    + exists [], l. auto.
Qed.

Lemma first_with_cons : forall {A} (P : A -> Prop) l x y,
  first_with P (y :: l) x <-> (y = x /\ P x) \/ (~ P y /\ first_with P l x).
Proof.
  intros A P l x y. split.
  - intros (a & b & E & Hx & Hb). destruct a as [|z a]; cbn [app] in E; injection E as -> ->.
    + left. auto.
    + right. inversion Hb; subst. split; [assumption|]. now exists a, b.
  - intros [(-> & Hx)|(Hy & a & b & -> & Hx & Hb)].
    + exists [], l. auto.
    + exists (y :: a), b. split; [reflexivity|]. split; [exact Hx|]. now constructor.
Qed.

Lemma last_with_nil : forall {A} (P : A -> Prop) x, last_with P [] x <-> False.
Proof. intros A P x. split; [|tauto]. intros (a & b & E & _). now destruct a. Qed.
Lemma first_with_nil : forall {A} (P : A -> Prop) x, first_with P [] x <-> False.
Proof. intros A P x. split; [|tauto]. intros (a & b & E & _). now destruct a. Qed.

Lemma last_with_in : forall {A} (P : A -> Prop) l x, last_with P l x -> In x l /\ P x.
Proof. intros A P l x (a & b & -> & H & _). split; [apply in_app_iff; right; now left|exact H]. Qed.
Lemma first_with_in : forall {A} (P : A -> Prop) l x, first_with P l x -> In x l /\ P x.
Proof. intros A P l x (a & b & -> & H & _). split; [apply in_app_iff; right; now left|exact H]. Qed.

Lemma last_with_unique : forall {A} (P : A -> Prop) l x y, last_with P l x -> last_with P l y -> x = y.
Proof.
  intros A P l. induction l as [|z l IH]; intros x y Hx Hy.
  - destruct (proj1 (last_with_nil P x) Hx).
  - apply last_with_cons in Hx, Hy.
    destruct Hx as [Hx|(-> & HPx & Fx)], Hy as [Hy|(E & HPy & Fy)]; auto.
    + exfalso. apply last_with_in in Hx. rewrite Forall_forall in Fy. now apply (Fy x).
    + exfalso. apply last_with_in in Hy. rewrite Forall_forall in Fx. now apply (Fx y).
Qed.

Lemma first_with_unique : forall {A} (P : A -> Prop) l x y, first_with P l x -> first_with P l y -> x = y.
Proof.
  intros A P l. induction l as [|z l IH]; intros x y Hx Hy.
  - destruct (proj1 (first_with_nil P x) Hx).
  - apply first_with_cons in Hx, Hy.
    destruct Hx as [(-> & HPx)|(Nx & Fx)], Hy as [(E & HPy)|(Ny & Fy)]; auto; subst; contradiction.
Qed.

Lemma not_type_def_last_def : forall doc n,
  last_def doc n = None <-> Forall (fun d => ~ type_def n d) doc.
Proof.
  intros doc n. induction doc as [|d doc IH]; cbn [last_def].
  - split; [constructor|reflexivity].
  - rewrite Forall_cons_iff, <- IH. destruct (last_def doc n) as [t|]; [split; [discriminate|intros [_ H]; discriminate]|].
    split.
    + intros H. split; [|reflexivity]. intros (t & -> & He & Hn). rewrite He, Hn, String.eqb_refl in H. discriminate.
    + intros [H _]. destruct d as [s|t|dd]; try reflexivity.
      destruct (t_extend t) eqn:He; [reflexivity|]. destruct (String.eqb_spec (t_name t) n) as [Hn|]; [|reflexivity].
      exfalso. apply H. exists t. auto.
Qed.

Lemma last_def_iff : forall doc n t, last_def doc n = Some t <-> defined doc n t.
Proof.
  unfold defined. intros doc n t. induction doc as [|d doc IH]; cbn [last_def].
  - rewrite last_with_nil. split; [discriminate|tauto].
  - rewrite last_with_cons, <- IH, <- not_type_def_last_def.
    destruct (last_def doc n) as [u|].
    + split; [tauto|]. intros [H|(_ & _ & H)]; [exact H|discriminate].
    + split.
      * intros H. right. destruct d as [s|u|dd]; try discriminate.
        destruct (t_extend u) eqn:He; [discriminate|].
        destruct (String.eqb_spec (t_name u) n) as [Hn|]; [|discriminate].
        injection H as ->. split; [reflexivity|]. split; [|reflexivity]. exists t. auto.
      * intros [H|(-> & (u & E & He & Hn) & _)]; [discriminate|]. injection E as ->.
        now rewrite He, Hn, String.eqb_refl.
Qed.

Lemma not_directive_def : forall doc n,
  last_directive doc n = None <-> Forall (fun d => ~ directive_def n d) doc.
Proof.
  intros doc n. induction doc as [|d doc IH]; cbn [last_directive].
  - split; [constructor|reflexivity].
  - rewrite Forall_cons_iff, <- IH.
    destruct (last_directive doc n) as [t|]; [split; [discriminate|intros [_ H]; discriminate]|].
    split.
    + intros H. split; [|reflexivity]. intros (t & -> & Hn). rewrite Hn, String.eqb_refl in H. discriminate.
    + intros [H _]. destruct d as [s|t|dd]; try reflexivity.
      destruct (String.eqb_spec (d_name dd) n) as [Hn|]; [|reflexivity].
      exfalso. apply H. exists dd. auto.
Qed.

Lemma last_directive_iff : forall doc n t, last_directive doc n = Some t <-> directive_defined doc n t.
Proof.
  unfold directive_defined. intros doc n t. induction doc as [|d doc IH]; cbn [last_directive].
  - rewrite last_with_nil. split; [discriminate|tauto].
  - rewrite last_with_cons, <- IH, <- not_directive_def. destruct (last_directive doc n) as [u|].
    + split; [tauto|]. intros [H|(_ & _ & H)]; [exact H|discriminate].
    + split.
      * intros H. right. destruct d as [s|u|dd]; try discriminate.
        destruct (String.eqb_spec (d_name dd) n) as [Hn|]; [|discriminate].
        injection H as ->. split; [reflexivity|]. split; [|reflexivity]. exists t. auto.
      * intros [H|(-> & (u & E & Hn) & _)]; [discriminate|]. injection E as ->.
        now rewrite Hn, String.eqb_refl.
Qed.

Lemma extension_types_hd : forall doc n t, hd_error (extension_types doc n) = Some t <-> extended doc n t.
Proof.
  unfold extended, extension_types. intros doc n t. induction doc as [|d doc IH]; cbn [flat_map].
  - rewrite first_with_nil. split; [discriminate|tauto].
  - rewrite first_with_cons, <- IH. destruct d as [s|u|dd].
    + cbn [app]. split; [intros H; right; split; [|exact H]|].
      * intros (u & E & _). discriminate.
      * intros [(E & _)|(_ & H)]; [discriminate|exact H].
    + destruct (t_extend u) eqn:He; [destruct (String.eqb_spec (t_name u) n) as [Hn|D]|].
      * cbn [app hd_error]. split.
        -- intros H. injection H as ->. left. split; [reflexivity|]. exists t. auto.
        -- intros [(E & _)|(H & _)]; [congruence|]. exfalso. apply H. exists u. auto.
      * cbn [app]. split; [intros H; right; split; [|exact H]|].
        -- intros (v & E & Hv & Hn). injection E as ->. contradiction.
        -- intros [(E & v & E' & Hv & Hn)|(_ & H)]; [|exact H]. rewrite <- E in E'. injection E' as ->. contradiction.
      * cbn [app]. split; [intros H; right; split; [|exact H]|].
        -- intros (v & E & Hv & Hn). injection E as ->. congruence.
        -- intros [(E & v & E' & Hv & Hn)|(_ & H)]; [|exact H]. rewrite <- E in E'. injection E' as ->. congruence.
    + cbn [app]. split; [intros H; right; split; [|exact H]|].
      * intros (u & E & _). discriminate.
      * intros [(E & _)|(_ & H)]; [discriminate|exact H].
Qed.

(* ------------------------------------------- what the first pass collects *)

Definition collected (doc : document) : context := snd (first_pass doc empty_context).

Lemma first_pass_definitions : forall doc ctx n,
  get n (definition_names (snd (first_pass doc ctx))) =
  match last_def doc n with Some t => Some t | None => get n (definition_names ctx) end.
Proof.
  induction doc as [|d doc IH]; intros ctx n; cbn [first_pass last_def snd]; [reflexivity|].
  rewrite IH. destruct (last_def doc n) as [t|]; [reflexivity|].
  destruct d as [s|t|dd]; cbn [snd first_pass_directive definition_names]; try reflexivity.
  unfold first_pass_type. destruct (t_extend t) eqn:He.
  - cbn [snd definition_names]. destruct (t_kind t); reflexivity.
  - cbn [snd definition_names]. rewrite get_insert. now destruct (String.eqb (t_name t) n).
Qed.

Lemma first_pass_directives : forall doc ctx n,
  get n (directive_names (snd (first_pass doc ctx))) =
  match last_directive doc n with Some t => Some t | None => get n (directive_names ctx) end.
Proof.
  induction doc as [|d doc IH]; intros ctx n; cbn [first_pass last_directive snd]; [reflexivity|].
  rewrite IH. destruct (last_directive doc n) as [t|]; [reflexivity|].
  destruct d as [s|t|dd]; cbn [snd first_pass_directive directive_names]; try reflexivity.
  - unfold first_pass_type. destruct (t_extend t) eqn:He; [|reflexivity].
    cbn [snd directive_names]. destruct (t_kind t); reflexivity.
  - rewrite get_insert. now destruct (String.eqb (d_name dd) n).
Qed.

Lemma first_pass_extension_names : forall doc ctx n,
  get_all n (extension_names (snd (first_pass doc ctx))) =
  get_all n (extension_names ctx) ++ extension_types doc n.
Proof.
  induction doc as [|d doc IH]; intros ctx n; cbn [first_pass snd].
  - cbn [extension_types flat_map]. now rewrite app_nil_r.
  - rewrite IH. unfold extension_types. cbn [flat_map]. rewrite app_assoc. f_equal.
    destruct d as [s|t|dd]; cbn [snd first_pass_directive extension_names]; try now rewrite app_nil_r.
    unfold first_pass_type. destruct (t_extend t) eqn:He.
    + cbn [snd extension_names]. rewrite get_push. destruct (t_kind t); reflexivity.
    + cbn [snd extension_names]. now rewrite app_nil_r.
Qed.

Lemma first_pass_fields : forall doc ctx n,
  concat (get_all n (extended_fields (snd (first_pass doc ctx)))) =
  concat (get_all n (extended_fields ctx)) ++ extension_parts fields_part doc n.
Proof.
  induction doc as [|d doc IH]; intros ctx n; cbn [first_pass snd].
  - cbn [extension_parts flat_map]. now rewrite app_nil_r.
  - rewrite IH. unfold extension_parts. cbn [flat_map]. rewrite app_assoc. f_equal.
    destruct d as [s|t|dd]; cbn [snd first_pass_directive extended_fields]; try now rewrite app_nil_r.
    unfold first_pass_type. destruct (t_extend t) eqn:He; cbn [snd extended_fields]; [|now rewrite app_nil_r].
    destruct (t_kind t) eqn:K; cbn [extended_fields fields_part];
      try (destruct (String.eqb (t_name t) n); now rewrite app_nil_r).
    + rewrite get_push, concat_app. destruct (String.eqb (t_name t) n); cbn [concat]; now rewrite ?app_nil_r.
    + rewrite get_push, concat_app. destruct (String.eqb (t_name t) n); cbn [concat]; now rewrite ?app_nil_r.
Qed.

Lemma first_pass_unions : forall doc ctx n,
  concat (get_all n (extended_unions (snd (first_pass doc ctx)))) =
  concat (get_all n (extended_unions ctx)) ++ extension_parts members_part doc n.
Proof.
  induction doc as [|d doc IH]; intros ctx n; cbn [first_pass snd].
  - cbn [extension_parts flat_map]. now rewrite app_nil_r.
  - rewrite IH. unfold extension_parts. cbn [flat_map]. rewrite app_assoc. f_equal.
    destruct d as [s|t|dd]; cbn [snd first_pass_directive extended_unions]; try now rewrite app_nil_r.
    unfold first_pass_type. destruct (t_extend t) eqn:He; cbn [snd extended_unions]; [|now rewrite app_nil_r].
    destruct (t_kind t) eqn:K; cbn [extended_unions members_part];
      try (destruct (String.eqb (t_name t) n); now rewrite app_nil_r).
    rewrite get_push, concat_app. destruct (String.eqb (t_name t) n); cbn [concat]; now rewrite ?app_nil_r.
Qed.

Lemma first_pass_enums : forall doc ctx n,
  concat (get_all n (extended_enums (snd (first_pass doc ctx)))) =
  concat (get_all n (extended_enums ctx)) ++ extension_parts values_part doc n.
Proof.
  induction doc as [|d doc IH]; intros ctx n; cbn [first_pass snd].
  - cbn [extension_parts flat_map]. now rewrite app_nil_r.
  - rewrite IH. unfold extension_parts. cbn [flat_map]. rewrite app_assoc. f_equal.
    destruct d as [s|t|dd]; cbn [snd first_pass_directive extended_enums]; try now rewrite app_nil_r.
    unfold first_pass_type. destruct (t_extend t) eqn:He; cbn [snd extended_enums]; [|now rewrite app_nil_r].
    destruct (t_kind t) eqn:K; cbn [extended_enums values_part];
      try (destruct (String.eqb (t_name t) n); now rewrite app_nil_r).
    rewrite get_push, concat_app. destruct (String.eqb (t_name t) n); cbn [concat]; now rewrite ?app_nil_r.
Qed.

Lemma first_pass_implements : forall doc ctx n,
  get_all n (extended_interface_implementations (snd (first_pass doc ctx))) =
  get_all n (extended_interface_implementations ctx) ++ extension_parts implements_part doc n.
Proof.
  induction doc as [|d doc IH]; intros ctx n; cbn [first_pass snd].
  - cbn [extension_parts flat_map]. now rewrite app_nil_r.
  - rewrite IH. unfold extension_parts. cbn [flat_map]. rewrite app_assoc. f_equal.
    destruct d as [s|t|dd]; cbn [snd first_pass_directive extended_interface_implementations]; try now rewrite app_nil_r.
    unfold first_pass_type. destruct (t_extend t) eqn:He;
      cbn [snd extended_interface_implementations]; [|now rewrite app_nil_r].
    destruct (t_kind t) eqn:K; cbn [extended_interface_implementations implements_part];
      try (destruct (String.eqb (t_name t) n); now rewrite app_nil_r).
    + now rewrite get_extend.
    + now rewrite get_extend.
Qed.

Lemma definition_of_iff : forall doc n t,
  definition_of (collected doc) n = Some t <-> defined doc n t.
Proof.
  intros doc n t. unfold definition_of, collected. rewrite first_pass_definitions. cbn [definition_names empty_context get].
  rewrite <- last_def_iff. now destruct (last_def doc n).
Qed.

Lemma definition_of_none : forall doc n,
  definition_of (collected doc) n = None <-> undefined doc n.
Proof.
  intros doc n. unfold undefined. split.
  - intros H t Ht. apply definition_of_iff in Ht. congruence.
  - intros H. destruct (definition_of (collected doc) n) as [t|] eqn:E; [|reflexivity].
    exfalso. apply (H t). now apply definition_of_iff.
Qed.

Lemma directive_names_iff : forall doc n t,
  get n (directive_names (collected doc)) = Some t <-> directive_defined doc n t.
Proof.
  intros doc n t. unfold collected. rewrite first_pass_directives. cbn [directive_names empty_context get].
  rewrite <- last_directive_iff. now destruct (last_directive doc n).
Qed.

Lemma extension_names_iff : forall doc n t,
  hd_error (get_all n (extension_names (collected doc))) = Some t <-> extended doc n t.
Proof.
  intros doc n t. unfold collected. rewrite first_pass_extension_names. cbn [extension_names empty_context get_all get app].
  apply extension_types_hd.
Qed.

Lemma all_fields_eq : forall doc n base,
  all_fields (collected doc) n base = base ++ extension_parts fields_part doc n.
Proof. intros. unfold all_fields, collected. now rewrite first_pass_fields. Qed.
Lemma all_union_members_eq : forall doc n base,
  all_union_members (collected doc) n base = base ++ extension_parts members_part doc n.
Proof. intros. unfold all_union_members, collected. now rewrite first_pass_unions. Qed.
Lemma all_enum_values_eq : forall doc n base,
  all_enum_values (collected doc) n base = base ++ extension_parts values_part doc n.
Proof. intros. unfold all_enum_values, collected. now rewrite first_pass_enums. Qed.
Lemma all_implements_eq : forall doc n base,
  all_implements (collected doc) n base = base ++ extension_parts implements_part doc n.
Proof. intros. unfold all_implements, collected. now rewrite first_pass_implements. Qed.

Lemma defined_name : forall doc n t, defined doc n t -> t_name t = n /\ t_extend t = false /\ In (DType t) doc.
Proof.
  intros doc n t H. apply last_with_in in H. destruct H as [H (u & E & He & Hn)]. injection E as ->. auto.
Qed.
Lemma extended_name : forall doc n t, extended doc n t -> t_name t = n /\ t_extend t = true /\ In (DType t) doc.
Proof.
  intros doc n t H. apply first_with_in in H. destruct H as [H (u & E & He & Hn)]. injection E as ->. auto.
Qed.
Lemma defined_unique : forall doc n t u, defined doc n t -> defined doc n u -> t = u.
Proof. intros doc n t u H H'. pose proof (last_with_unique _ _ _ _ H H') as E. now injection E as ->. Qed.
Lemma extended_unique : forall doc n t u, extended doc n t -> extended doc n u -> t = u.
Proof. intros doc n t u H H'. pose proof (first_with_unique _ _ _ _ H H') as E. now injection E as ->. Qed.
Lemma directive_defined_unique : forall doc n t u,
  directive_defined doc n t -> directive_defined doc n u -> t = u.
Proof. intros doc n t u H H'. pose proof (last_with_unique _ _ _ _ H H') as E. now injection E as ->. Qed.
