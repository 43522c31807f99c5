(* A decision procedure for the validity of operations, for the examples (C49). *)
From Coq Require Import String List Bool Arith NArith Lia.
Import ListNotations.
From Verif.SchemaDiff Require Import Ast Search Diff DocFacts DiffProps.
From Verif.Checks Require Import Model Spec Facts.
Local Open Scope string_scope.
Local Open Scope list_scope.

(** The specification as lists. *)

Definition kinds (d : doc) : list (string * kind) :=
  flat_map (fun x => match x with
                     | DDirective n => [(n, KDirective)]
                     | DType t | DTypeExt t => [(tdef_name t, tdef_kind t)]
                     | _ => nil
                     end) d.

Lemma kinds_in : forall d n k, Defines d n k <-> In (n, k) (kinds d).
Proof.
  intros d n k. unfold kinds. rewrite in_flat_map. split.
  - intros [H|t H <-|t H <-]; eexists; (split; [exact H|]); cbn; auto.
  - intros (x & X & H). destruct x; cbn in H; try contradiction.
    all: destruct H as [[= <- <-]|[]].
    all: first [eapply defines_type; eauto; fail | eapply defines_ext; eauto; fail | apply defines_directive; exact X].
Qed.

Definition field_list (d : doc) : list (string * string * ty) :=
  flat_map (fun t => match t with
                     | TObject n _ fs | TInterface n _ fs => map (fun x => (n, f_name x, f_type x)) fs
                     | TInput n fs => map (fun x => (n, i_name x, i_type x)) fs
                     | _ => nil
                     end) (flat_map tdefs_of d).

Lemma fields_in : forall d n f t, HasField d n f t <-> In (n, f, t) (field_list d).
Proof.
  intros d n f t. unfold field_list. rewrite in_flat_map. split.
  - intros [impls fs x T X <-|impls fs x T X <-|fs x T X <-]; eexists; (split; [apply tdefs_of_in; exact T|]);
      apply in_map_iff; exists x; auto.
  - intros (td & TD & H). apply tdefs_of_in in TD. destruct td; cbn in H; try contradiction;
      apply in_map_iff in H; destruct H as (x & [= <- <- <-] & X).
    + eapply has_object; eauto.
    + eapply has_interface; eauto.
    + eapply has_input; eauto.
Qed.

Definition object_args (d : doc) : list (string * string * input) :=
  flat_map (fun t => match t with
                     | TObject n _ fs => flat_map (fun x => map (fun i => (n, f_name x, i)) (f_args x)) fs
                     | _ => nil
                     end) (flat_map tdefs_of d).

Lemma object_args_in : forall d n f i, ArgOf d n f i <-> In (n, f, i) (object_args d).
Proof.
  intros d n f i. unfold object_args. rewrite in_flat_map. split.
  - intros (impls & fs & x & T & X & <- & I0). eexists. split; [apply tdefs_of_in; exact T|]. cbn.
    apply in_flat_map. exists x. split; [exact X|]. apply in_map_iff. eauto.
  - intros (td & TD & H). apply tdefs_of_in in TD. destruct td as [|n' impls fs| | | |]; cbn in H; try contradiction.
    apply in_flat_map in H. destruct H as (x & X & H). apply in_map_iff in H. destruct H as (j & [= <- <- <-] & J).
    exists impls, fs, x. auto.
Qed.

Definition all_args (d : doc) : list (string * string * input) :=
  flat_map (fun t => match t with
                     | TObject n _ fs | TInterface n _ fs => flat_map (fun x => map (fun i => (n, f_name x, i)) (f_args x)) fs
                     | _ => nil
                     end) (flat_map tdefs_of d).

Lemma all_args_in : forall d n f i, HasArg d n f i <-> In (n, f, i) (all_args d).
Proof.
  intros d n f i. unfold all_args. rewrite in_flat_map. split.
  - intros [im fs x j T X <- J|im fs x j T X <- J]; eexists; (split; [apply tdefs_of_in; exact T|]); cbn;
      apply in_flat_map; exists x; (split; [exact X|]); apply in_map_iff; eauto.
  - intros (td & TD & H). apply tdefs_of_in in TD. destruct td; cbn in H; try contradiction;
      apply in_flat_map in H; destruct H as (x & X & H); apply in_map_iff in H; destruct H as (j & [= <- <- <-] & J).
    + eapply arg_object; eauto.
    + eapply arg_interface; eauto.
Qed.

Definition interface_args (d : doc) : list input :=
  flat_map (fun t => match t with
                     | TInterface n _ fs => flat_map f_args fs
                     | _ => nil
                     end) (flat_map tdefs_of d).

Definition values (d : doc) : list (string * string) :=
  flat_map (fun t => match t with
                     | TUnion n vs | TEnum n vs => map (fun v => (n, v)) vs
                     | _ => nil
                     end) (flat_map tdefs_of d).

Lemma values_in : forall d n v, HasValue d n v <-> In (n, v) (values d).
Proof.
  intros d n v. unfold values. rewrite in_flat_map. split.
  - intros [vs T X|vs T X]; eexists; (split; [apply tdefs_of_in; exact T|]); apply in_map_iff; eauto.
  - intros (td & TD & H). apply tdefs_of_in in TD. destruct td; cbn in H; try contradiction;
      apply in_map_iff in H; destruct H as (x & [= <- <-] & X); [eapply has_member|eapply has_value]; eauto.
Qed.

Definition impls (d : doc) : list (string * string) := flat_map table_impls (flat_map tdefs_of d).

Lemma no_args : forall d, interface_args d = nil ->
  forall n impls fs x, HasType d (TInterface n impls fs) -> In x fs -> f_args x = nil.
Proof.
  intros d H n im fs x T X. destruct (f_args x) as [|i l] eqn:E; [reflexivity|].
  assert (G : In i (interface_args d)); [|rewrite H in G; contradiction].
  apply in_flat_map. eexists. split; [apply tdefs_of_in; exact T|]. cbn. apply in_flat_map. exists x. split; [exact X|]. rewrite E. left. reflexivity.
Qed.

Definition schema_parts (d : doc) : list roots := flat_map roots_of d.

Lemma no_roots : forall d, schema_parts d = nil -> forall t n, IsRoot d t n <-> n = default_root t.
Proof.
  intros d H t n.
  assert (N : forall r, ~ SchemaPart d r).
  { intros r P. assert (G : In r (schema_parts d)); [|rewrite H in G; contradiction].
    apply in_flat_map. destruct P as [P|P]; eexists; (split; [exact P|]); cbn; auto. }
  split.
  - intros [r m P _|_]; [exfalso; exact (N r P)|reflexivity].
  - intros ->. apply root_default. intros r P. exfalso. exact (N r P).
Qed.

(** Decisions *)

Definition kind_eqb (x y : kind) : bool :=
  match x, y with
  | KDirective, KDirective | KScalar, KScalar | KObject, KObject | KInterface, KInterface
  | KUnion, KUnion | KEnum, KEnum | KInput, KInput => true
  | _, _ => false
  end.

Definition defines (d : doc) (n : string) (k : kind) : bool := existsb (fun p => String.eqb (fst p) n && kind_eqb (snd p) k) (kinds d).

Lemma defines_spec : forall d n k, defines d n k = true <-> Defines d n k.
Proof.
  intros d n k. rewrite kinds_in. unfold defines. rewrite existsb_exists. split.
  - intros ([m j] & H & E). cbn in E. apply andb_true_iff in E. destruct E as [E F]. apply String.eqb_eq in E. subst.
    destruct j, k; try discriminate F; exact H.
  - intros H. exists (n, k). split; [exact H|]. cbn. rewrite String.eqb_refl. destruct k; reflexivity.
Qed.

Definition in_pairs (n v : string) (l : list (string * string)) : bool :=
  existsb (fun p => String.eqb (fst p) n && String.eqb (snd p) v) l.

Lemma in_pairs_spec : forall n v l, in_pairs n v l = true <-> In (n, v) l.
Proof.
  intros n v l. unfold in_pairs. rewrite existsb_exists. split.
  - intros ([m w] & H & E). cbn in E. apply andb_true_iff in E. rewrite !String.eqb_eq in E. destruct E as [-> ->]. exact H.
  - intros H. exists (n, v). split; [exact H|]. cbn. rewrite !String.eqb_refl. reflexivity.
Qed.

Definition selectable (d : doc) (n : string) : bool := defines d n KObject || defines d n KInterface || defines d n KUnion.

Lemma selectable_spec : forall d n, selectable d n = true <-> Selectable d n.
Proof. intros d n. unfold selectable, Selectable. rewrite !orb_true_iff, !defines_spec. tauto. Qed.

Definition possible (d : doc) (n o : string) : bool :=
  defines d o KObject &&
  (String.eqb n o || defines d n KInterface && in_pairs o n (impls d) || defines d n KUnion && in_pairs n o (values d)).

Lemma possible_spec : forall d n o, possible d n o = true <-> Possible d n o.
Proof.
  intros d n o. unfold possible, impls.
  rewrite andb_true_iff, !orb_true_iff, !andb_true_iff, !defines_spec, !in_pairs_spec, String.eqb_eq, impls_table, <- values_in. split.
  - intros [K [[->|[I0 IM]]|[U V]]]; [apply po_object|apply po_interface|apply po_union]; auto.
  - intros [K|o' K KO IM|o' K KO V]; auto.
Qed.

Definition can_spread (d : doc) (n on : string) : bool :=
  String.eqb on n || existsb (fun p => possible d n (fst p) && possible d on (fst p)) (kinds d).

Lemma can_spread_spec : forall d n on, can_spread d n on = true <-> CanSpread d n on.
Proof.
  intros d n on. unfold can_spread, CanSpread. rewrite orb_true_iff, String.eqb_eq, existsb_exists. split.
  - intros [E|([o k] & _ & E)]; [auto|]. apply andb_true_iff in E. rewrite !possible_spec in E. right. exists o. exact E.
  - intros [E|(o & P & Q)]; [auto|]. right. exists (o, KObject). split.
    + apply kinds_in. destruct P; assumption.
    + cbn. apply andb_true_iff. rewrite !possible_spec. auto.
Qed.

Definition get_field (d : doc) (n f : string) : option ty :=
  option_map snd (find (fun p => String.eqb (fst (fst p)) n && String.eqb (snd (fst p)) f) (field_list d)).

Lemma get_field_some : forall d n f t, get_field d n f = Some t -> HasField d n f t.
Proof.
  intros d n f t H. unfold get_field in H. destruct (find _ _) as [[[m g] u]|] eqn:E; [|discriminate]. injection H as <-.
  apply find_some in E. destruct E as [H E]. cbn in E. apply andb_true_iff in E. rewrite !String.eqb_eq in E. destruct E as [-> ->].
  apply fields_in. exact H.
Qed.

Lemma get_field_none : forall d n f t, get_field d n f = None -> ~ HasField d n f t.
Proof.
  intros d n f t H T. unfold get_field in H. destruct (find _ _) as [p|] eqn:E; [discriminate|].
  apply fields_in in T. apply (find_none _ _ E) in T. cbn in T. rewrite !String.eqb_refl in T. discriminate.
Qed.

Definition field_args (d : doc) (n f : string) : list input :=
  flat_map (fun p => if String.eqb (fst (fst p)) n && String.eqb (snd (fst p)) f then [snd p] else nil) (all_args d).

Lemma field_args_in : forall d n f i, In i (field_args d n f) <-> HasArg d n f i.
Proof.
  intros d n f i. rewrite all_args_in. unfold field_args. rewrite in_flat_map. split.
  - intros ([[m g] j] & H & E). cbn in E. destruct (String.eqb m n && String.eqb g f) eqn:B; [|contradiction].
    apply andb_true_iff in B. rewrite !String.eqb_eq in B. destruct B as [-> ->]. destruct E as [<-|[]]. exact H.
  - intros H. exists (n, f, i). split; [exact H|]. cbn. rewrite !String.eqb_refl. cbn. auto.
Qed.

Definition required (i : input) : bool :=
  match i_type i, i_default i with TNonNull _, None => true | _, _ => false end.

Lemma required_spec : forall i, required i = true <-> Required i.
Proof.
  intros [n t v]. unfold required, Required, nonnull. cbn. destruct t, v; split; intros H; try discriminate; eauto.
  all: destruct H as [[u U] V]; discriminate.
Qed.

Definition given (d : doc) (n f : string) (p : string * option string) : bool :=
  existsb (fun i => String.eqb (i_name i) (fst p) &&
                    match snd p with
                    | Some e => negb (defines d (named (i_type i)) KEnum) || in_pairs (named (i_type i)) e (values d)
                    | None => true
                    end) (field_args d n f).

Lemma given_spec : forall d n f q v, given d n f (q, v) = true <->
  exists i, HasArg d n f i /\ i_name i = q /\
    forall e, v = Some e -> Defines d (named (i_type i)) KEnum -> HasValue d (named (i_type i)) e.
Proof.
  intros d n f q v. unfold given. rewrite existsb_exists. split; intros (i & I0 & H); exists i; cbn [fst snd] in *.
  - apply field_args_in in I0. apply andb_true_iff in H. destruct H as [E H]. apply String.eqb_eq in E.
    split; [exact I0|]. split; [exact E|]. intros e -> K. apply orb_true_iff in H. apply defines_spec in K. rewrite K in H.
    destruct H as [H|H]; [discriminate|]. apply values_in. apply in_pairs_spec. exact H.
  - destruct H as [E H]. split; [apply field_args_in; exact I0|]. rewrite E, String.eqb_refl. cbn [andb].
    destruct v as [e|]; [|reflexivity]. destruct (defines d (named (i_type i)) KEnum) eqn:K; [|reflexivity]. cbn.
    apply in_pairs_spec, values_in. apply H; [reflexivity|]. apply defines_spec. exact K.
Qed.

Definition and3 (x y : option bool) : option bool :=
  match x, y with
  | Some false, _ | _, Some false => Some false
  | Some true, Some true => Some true
  | _, _ => None
  end.

Fixpoint all3 {A} (f : A -> option bool) (l : list A) : option bool :=
  match l with
  | nil => Some true
  | x :: r => and3 (f x) (all3 f r)
  end.

Lemma all3_spec : forall A (f : A -> option bool) (P : A -> Prop) l,
  (forall x, In x l -> match f x with Some true => P x | Some false => ~ P x | None => True end) ->
  match all3 f l with
  | Some true => forall x, In x l -> P x
  | Some false => ~ (forall x, In x l -> P x)
  | None => True
  end.
Proof.
  intros A f P. induction l as [|x l IH]; intros H; cbn [all3]; [intros y []|].
  pose proof (H x (or_introl eq_refl)) as HX. specialize (IH (fun y Y => H y (or_intror Y))).
  destruct (f x) as [[]|], (all3 f l) as [[]|]; cbn [and3].
  - intros y [<-|Y]; auto.
  - intros G. apply IH. intros y Y. apply G. right. exact Y.
  - trivial.
  - intros G. apply HX. apply G. left. reflexivity.
  - intros G. apply HX. apply G. left. reflexivity.
  - intros G. apply HX. apply G. left. reflexivity.
  - trivial.
  - intros G. apply IH. intros y Y. apply G. right. exact Y.
  - trivial.
Qed.

Definition is_nil {A} (l : list A) : bool := match l with nil => true | _ => false end.

Fixpoint valid_sel (fuel : nat) (d : doc) (fs : fragments) (n : string) (x : selection) : option bool :=
  match fuel with
  | O => None
  | S fuel =>
      match x with
      | SField f args sub =>
          if String.eqb f "__typename" && is_nil args && is_nil sub && selectable d n then Some true
          else
            match get_field d n f with
            | None => Some false
            | Some t =>
                if (defines d n KObject || defines d n KInterface) && forallb (given d n f) args &&
                   forallb (fun i => negb (required i) || has_name (i_name i) (map fst args)) (field_args d n f) &&
                   Bool.eqb (negb (is_nil sub)) (selectable d (named t))
                then all3 (valid_sel fuel d fs (named t)) sub
                else Some false
            end
      | SSpread z =>
          match find_fragment z fs with
          | None => Some false
          | Some (on, sub) => if selectable d on && can_spread d n on then all3 (valid_sel fuel d fs on) sub else Some false
          end
      | SInline (Some on) sub => if selectable d on && can_spread d n on then all3 (valid_sel fuel d fs on) sub else Some false
      | SInline None sub => all3 (valid_sel fuel d fs n) sub
      end
  end.

Section Decide.
  Context (d : doc) (OK : doc_ok d) (fs : fragments) (ND : NoDup (map fst fs)).

  Let Valid := ValidSel d fs (fun _ _ _ => True).

  Lemma find_fragment_unique : forall x q, In (x, q) fs <-> find_fragment x fs = Some q.
  Proof.
    clear OK Valid. intros x q. unfold find_fragment. split.
    - revert ND. induction fs as [|[y p] l IH]; intros ND' H; [contradiction|]. cbn [map fst] in ND'. inversion ND' as [|? ? NI N2]; subst.
      cbn [find fst]. destruct H as [[= -> ->]|H]; [rewrite String.eqb_refl; reflexivity|].
      destruct (String.eqb y x) eqn:E; [|exact (IH N2 H)]. apply String.eqb_eq in E. subst. exfalso. apply NI.
      apply in_map_iff. exists (x, q). auto.
    - destruct (find _ fs) as [[y p]|] eqn:E; [|discriminate]. intros [= <-]. apply find_some in E. destruct E as [H E].
      cbn in E. apply String.eqb_eq in E. subst. exact H.
  Qed.

  Lemma nil_spec : forall A (l : list A), is_nil l = true <-> l = nil.
  Proof. intros A []; cbn; split; congruence. Qed.

  Lemma valid_sel_spec : forall fuel n x,
    match valid_sel fuel d fs n x with
    | Some true => Valid n x
    | Some false => ~ Valid n x
    | None => True
    end.
  Proof.
    induction fuel as [|fuel IH]; intros n x; [exact I|]. cbn [valid_sel].
    assert (SUB : forall m sub, match all3 (valid_sel fuel d fs m) sub with
       | Some true => forall x, In x sub -> Valid m x | Some false => ~ (forall x, In x sub -> Valid m x) | None => True end).
    { intros m sub. apply all3_spec. intros y _. apply IH. }
    destruct x as [f args sub|z|[on|] sub].
    - destruct (String.eqb f "__typename" && is_nil args && is_nil sub && selectable d n) eqn:TN.
      { rewrite !andb_true_iff, String.eqb_eq, !nil_spec, selectable_spec in TN. destruct TN as (((-> & ->) & ->) & SE).
        apply v_typename. exact SE. }
      assert (NT : ~ (f = "__typename" /\ args = nil /\ sub = nil /\ Selectable d n)).
      { intros (-> & -> & -> & SE). apply selectable_spec in SE. rewrite SE in TN. discriminate. }
      destruct (get_field d n f) as [t|] eqn:G.
      + apply get_field_some in G.
        destruct ((defines d n KObject || defines d n KInterface) && forallb (given d n f) args &&
          forallb (fun i => negb (required i) || has_name (i_name i) (map fst args)) (field_args d n f) &&
          Bool.eqb (negb (is_nil sub)) (selectable d (named t))) eqn:C.
        * rewrite !andb_true_iff, orb_true_iff, !defines_spec, !forallb_forall in C. destruct C as (((K & AR) & RE) & SU).
          apply eqb_prop in SU.
          assert (SU' : sub <> nil <-> Selectable d (named t)).
          { rewrite <- selectable_spec, <- SU. destruct sub; cbn; split; congruence. }
          assert (AR' : forall a v, In (a, v) args -> exists i, HasArg d n f i /\ i_name i = a /\
                     forall e, v = Some e -> Defines d (named (i_type i)) KEnum -> HasValue d (named (i_type i)) e).
          { intros q v H. apply given_spec. apply AR. exact H. }
          assert (RE' : forall i, HasArg d n f i -> Required i -> In (i_name i) (map fst args)).
          { intros i H R. apply field_args_in in H. apply RE in H. apply required_spec in R. rewrite R in H. cbn in H.
            apply has_name_spec. exact H. }
          specialize (SUB (named t) sub). destruct (all3 (valid_sel fuel d fs (named t)) sub) as [[]|]; [| |exact I].
          { eapply v_field; eauto. }
          { intros V. inversion V as [m SE|m f' args' sub' t' K' T' A' R' S' V'| | |]; subst; [apply NT; auto|].
            rewrite (field_unique d n f t' t OK T' G) in *. exact (SUB V'). }
        * intros V. inversion V as [m SE|m f' args' sub' t' K' T' A' R' S' V'| | |]; subst; [apply NT; auto|].
          rewrite (field_unique d n f t' t OK T' G) in *. revert C. apply not_false_iff_true.
          rewrite !andb_true_iff, orb_true_iff, !defines_spec, !forallb_forall. split; [split; [split; [exact K'|]|]|].
          { intros [q v] H. apply given_spec. apply A'. exact H. }
          { intros i H. apply field_args_in in H. destruct (required i) eqn:RI; [|reflexivity]. cbn. apply has_name_spec.
            apply R'; [exact H|]. apply required_spec. exact RI. }
          { apply eqb_true_iff. apply eq_true_iff_eq. rewrite selectable_spec, <- S'. destruct sub; cbn; split; congruence. }
      + intros V. inversion V as [m SE|m f' args' sub' t' K' T' A' R' S' V'| | |]; subst; [apply NT; auto|].
        exact (get_field_none d n f t' G T').
    - destruct (find_fragment z fs) as [[on sub]|] eqn:F.
      + apply find_fragment_unique in F. destruct (selectable d on && can_spread d n on) eqn:C.
        * apply andb_true_iff in C. rewrite selectable_spec, can_spread_spec in C. destruct C as [SE CS].
          specialize (SUB on sub). destruct (all3 (valid_sel fuel d fs on) sub) as [[]|]; [| |exact I].
          { eapply v_spread; eauto. }
          { intros V. inversion V as [| |m z' on' sub' F' SE' CS' _ V'| |]; subst.
            apply find_fragment_unique in F, F'. rewrite F in F'. injection F' as <- <-. exact (SUB V'). }
        * intros V. inversion V as [| |m z' on' sub' F' SE' CS' _ V'| |]; subst.
          apply find_fragment_unique in F, F'. rewrite F in F'. injection F' as <- <-.
          apply selectable_spec in SE'. apply can_spread_spec in CS'. rewrite SE', CS' in C. discriminate.
      + intros V. inversion V as [| |m z' on' sub' F' SE' CS' _ V'| |]; subst.
        apply find_fragment_unique in F'. congruence.
    - destruct (selectable d on && can_spread d n on) eqn:C.
      + apply andb_true_iff in C. rewrite selectable_spec, can_spread_spec in C. destruct C as [SE CS].
        specialize (SUB on sub). destruct (all3 (valid_sel fuel d fs on) sub) as [[]|]; [| |exact I].
        { apply v_inline; auto. }
        { intros V. inversion V as [| | |m on' sub' SE' CS' _ V'|]; subst. exact (SUB V'). }
      + intros V. inversion V as [| | |m on' sub' SE' CS' _ V'|]; subst.
        apply selectable_spec in SE'. apply can_spread_spec in CS'. rewrite SE', CS' in C. discriminate.
    - specialize (SUB n sub). destruct (all3 (valid_sel fuel d fs n) sub) as [[]|]; [| |exact I].
      + apply v_block. exact SUB.
      + intros V. inversion V as [| | | |m sub' V']; subst. exact (SUB V').
  Qed.
End Decide.

(* Documents without a schema definition. *)
Definition valid_op (fuel : nat) (d : doc) (o : operation) : option bool :=
  if defines d (default_root (o_type o)) KObject &&
     forallb (fun p => negb (defines d (fst p) KEnum) || in_pairs (fst p) (snd p) (values d)) (o_enums o)
  then all3 (valid_sel fuel d (o_fragments o) (default_root (o_type o))) (o_root o)
  else Some false.

Lemma valid_op_spec : forall fuel d o, doc_ok d -> op_ok o -> schema_parts d = nil ->
  match valid_op fuel d o with
  | Some true => ValidOp d o
  | Some false => ~ ValidOp d o
  | None => True
  end.
Proof.
  intros fuel d o OK ND NR. unfold valid_op.
  assert (EN : forallb (fun p => negb (defines d (fst p) KEnum) || in_pairs (fst p) (snd p) (values d)) (o_enums o) = true <->
    forall e v, In (e, v) (o_enums o) -> Defines d e KEnum -> HasValue d e v).
  { rewrite forallb_forall. split.
    - intros H e v IN K. apply H in IN. cbn in IN. apply defines_spec in K. rewrite K in IN. cbn in IN.
      apply values_in, in_pairs_spec. exact IN.
    - intros H [e v] IN. cbn. destruct (defines d e KEnum) eqn:K; [|reflexivity]. cbn. apply in_pairs_spec, values_in.
      apply H; [exact IN|]. apply defines_spec. exact K. }
  pose proof (all3_spec _ (valid_sel fuel d (o_fragments o) (default_root (o_type o)))
    (ValidSel d (o_fragments o) (fun _ _ _ => True) (default_root (o_type o))) (o_root o)
    (fun x _ => valid_sel_spec d OK (o_fragments o) ND fuel (default_root (o_type o)) x)) as S.
  destruct (defines d (default_root (o_type o)) KObject && forallb (fun p => negb (defines d (fst p) KEnum) || in_pairs (fst p) (snd p) (values d)) (o_enums o)) eqn:C.
  - apply andb_true_iff in C. rewrite defines_spec, EN in C. destruct C as [K E].
    destruct (all3 (valid_sel fuel d (o_fragments o) (default_root (o_type o))) (o_root o)) as [[]|]; [| |exact I].
    + exists (default_root (o_type o)). split; [apply (no_roots d NR); reflexivity|]. auto.
    + intros (n & R & _ & V & _). apply (no_roots d NR) in R. subst n. exact (S V).
  - intros (n & R & K & _ & E). apply (no_roots d NR) in R. subst n. apply EN in E. apply defines_spec in K.
    rewrite E, K in C. discriminate.
Qed.
