(** When the reader of a subgraph response fails there is an error, if all the
    fields are for the client. *)

From Coq Require Import List Arith ZArith String Bool Sorted Permutation Lia.
From Verif Require Import Response.Model Response.Deserialize Response.Spec Response.Conform.
From Verif Require Import Response.Merge Response.Nulls Response.DeserBase Response.DeserList Response.DeserVisit.
From Verif Require Import Response.DeserObj Response.DeserAll Response.DeserRoot.
Import ListNotations.
Local Open Scope nat_scope.

(** Every field, at any depth, is sent to the client. *)
Inductive told_shape : shape -> Prop :=
| TdScalar ty : told_shape (SScalar ty)
| TdEnum vs : told_shape (SEnum vs)
| TdConcrete c : told c -> told_shape (SConcrete c)
| TdPoly poss fb : (forall d c, In (d, c) poss -> told c) -> (forall c, fb = Some c -> told c) -> told_shape (SPoly poss fb)
with told : concrete -> Prop :=
| Td c : (forall f, In f (c_fields c) -> f_pos f <> 0 /\ f_included f = true) ->
    (forall f, In f (c_fields c) -> told_shape (f_shape f)) -> told c.

Definition traced (b : builder) : Prop := b_bub b = true -> b_errs b <> [].

Section Schema.
  Variable obj_name : nat -> string.
  Variable obj_by_name : string -> option nat.
  Variable obj_inaccessible : nat -> bool.
  Variable possible : nat -> list nat.
  Variable round_f64 : Z -> Z.
  Variable pid : nat.
  Variable pp : list vid.

  Notation dres := (builder * option val)%type.
  Notation object_map := (object_map obj_name possible pid pp).
  Notation ingest_object := (ingest_object obj_inaccessible pp).
  Notation deser := (deser obj_name obj_by_name obj_inaccessible possible round_f64 pid pp).
  Notation visit := (visit obj_name possible).

  Lemma told_reported : forall f, f_pos f <> 0 -> f_included f = true -> reported f = true.
  Proof. intros f P I. unfold reported. rewrite I, (proj2 (Nat.eqb_neq _ _) P). reflexivity. Qed.

  Lemma propagate_errs : forall lp b, b_errs (propagate pp lp b) = b_errs b /\ b_bub (propagate pp lp b) = b_bub b.
  Proof.
    intros lp b. unfold propagate, propagate_null, propagate_parent. destruct (find vid_nullable lp); [auto|].
    destruct (find vid_nullable pp); auto.
  Qed.

  Lemma traced_propagate : forall lp b, traced b -> traced (propagate pp lp b).
  Proof. intros lp b T. unfold traced. destruct (propagate_errs lp b) as [-> ->]. exact T. Qed.

  Lemma traced_error : forall lp k b, traced (error_at pp lp k b).
  Proof. intros lp k b _. cbn. intros E. apply app_eq_nil in E. destruct E as [_ E]. discriminate. Qed.

  Lemma traced_unexpected : forall f r lp b, traced b -> traced (fst (unexpected pp f r lp b)).
  Proof. intros f r lp b T. unfold unexpected. cbn [fst]. destruct (reported f); [apply traced_error|exact T]. Qed.

  Lemma traced_null : forall f r lp b, traced b -> traced (fst (null_or_unexpected pp f r lp b)).
  Proof. intros f r lp b T. unfold null_or_unexpected. destruct r; [apply traced_unexpected; exact T|exact T]. Qed.

  Lemma traced_bubble : forall f lp r, reported f = true -> traced (fst r) -> traced (fst (bubble pp f lp r)).
  Proof.
    intros f lp [b [v|]] R T; cbn [bubble fst] in *; [exact T|]. destruct (b_bub b) eqn:B; [exact T|].
    rewrite R. cbn [fst]. apply traced_error.
  Qed.

  Lemma traced_list_failure : forall f lp i b, reported f = true -> traced b -> traced (list_failure pp f lp i b).
  Proof. intros f lp i b R T. unfold list_failure. destruct (b_bub b); [exact T|]. rewrite R. apply traced_error. Qed.

  Definition keeps_trace (ds : json -> field -> wtype -> list vid -> builder -> dres) (j : json) : Prop :=
    forall f w lp b, f_pos f <> 0 -> f_included f = true -> told_shape (f_shape f) -> traced b -> traced (fst (ds j f w lp b)).

  Lemma visit_traced : forall ds oid fs detect lp ok entries offset skip tn acc b,
    Forall (keeps_trace ds) (map snd entries) ->
    (forall f, In f fs -> f_pos f <> 0 /\ f_included f = true) -> (forall f, In f fs -> told_shape (f_shape f)) ->
    traced b -> traced (fst (visit ds oid fs detect entries ok offset skip tn acc lp b)).
  Proof.
    intros ds oid fs detect lp ok entries.
    induction entries as [|[k v] rest IH]; intros offset skip tn acc b Kt Rf Tf T; cbn [Deserialize.visit]; [exact T|].
    cbn [map snd] in Kt. apply Forall_cons_iff in Kt. destruct Kt as [Kv Kr].
    destruct (skip && (k =? typename_key)); [apply IH; assumption|].
    pose proof (position_spec k (skipn offset fs) 0) as P.
    destruct (position k (skipn offset fs) 0) as [[pos f]|].
    - destruct P as (_ & P & Ek). rewrite Nat.sub_0_r in P.
      assert (If : In f fs).
      { apply nth_error_In in P. rewrite <- (firstn_skipn offset fs). apply in_or_app. right. exact P. }
      destruct (Rf f If) as [Rp Ri].
      pose proof (Kv f (f_wrap f) (IField oid (f_key f) (wnullable (f_wrap f)) :: lp) b Rp Ri (Tf f If) T) as T1.
      destruct (ds v f (f_wrap f) (IField oid (f_key f) (wnullable (f_wrap f)) :: lp) b) as [b1 [v1|]]; [|exact T1].
      apply IH; assumption.
    - destruct detect as [i|]; [destruct tn|]; try (destruct (readable v); [apply IH; assumption|exact T]).
      destruct (k =? typename_key); [destruct v; try exact T; apply IH; assumption|].
      destruct (readable v); [apply IH; assumption|exact T].
  Qed.

  Lemma fold_traced : forall A (f : builder * fields * bool -> A -> builder * fields * bool),
    (forall st x, traced (fst (fst st)) -> traced (fst (fst (f st x)))) ->
    forall l st, traced (fst (fst st)) -> traced (fst (fst (fold_left f l st))).
  Proof. intros A f H. induction l as [|x l IH]; intros st T; cbn [fold_left]; auto. Qed.

  Lemma traced_shape_error : forall lp st f, traced (fst (fst st)) -> traced (fst (fst (shape_error_step pid pp lp st f))).
  Proof.
    intros lp [[b acc] p] f T. unfold shape_error_step. destruct (f_errors f) as [|e es]; [exact T|]. cbn [fst] in T.
    set (b1 := fold_left _ _ _).
    assert (T1 : traced b1).
    { unfold b1. clear b1. revert b T. induction (e :: es) as [|x l IH]; intros b T; cbn [fold_left]; [exact T|].
      apply IH. apply traced_error. }
    cbv zeta. set (b2 := if negb p && wrequired (f_wrap f) then propagate pp lp b1 else b1).
    assert (T2 : traced b2) by (unfold b2; destruct (negb p && wrequired (f_wrap f)); [apply traced_propagate|]; exact T1).
    destruct (find_key (f_key f) acc 0) as [i|]; [|exact T2].
    destruct (nth_error acc i) as [[k v]|]; [|exact T2]. destruct (push_inacc pid (b_part b2) v). exact T2.
  Qed.

  Lemma traced_missing : forall known lp st f, traced (fst (fst st)) -> traced (fst (fst (missing_step pp known lp st f))).
  Proof.
    intros known lp [[b acc] p] f T. unfold missing_step. destruct (f_absent f); [exact T|].
    destruct (existsb (keqb (f_key f)) known); [exact T|]. destruct (wrequired (f_wrap f)); [|exact T].
    destruct (fst (f_key f) =? 0); [exact T|]. apply traced_error.
  Qed.

  Lemma traced_finalize : forall c acc lp b, traced b -> traced (fst (finalize pid pp c acc lp b)).
  Proof.
    intros c acc lp b T. unfold finalize.
    set (s1 := if c_has_error c then _ else _).
    assert (T1 : traced (fst (fst s1))).
    { unfold s1. destruct (c_has_error c); [|exact T]. apply fold_traced; [apply traced_shape_error|exact T]. }
    destruct s1 as [[b1 acc1] p1]. cbn [fst] in T1.
    set (s2 := if List.length acc1 <? List.length (c_fields c) then _ else _).
    assert (T2 : traced (fst (fst s2))).
    { unfold s2. destruct (List.length acc1 <? List.length (c_fields c)); [|exact T1]. apply fold_traced; [apply traced_missing|exact T1]. }
    destruct s2 as [[b2 acc2] p2]. exact T2.
  Qed.

  Lemma traced_object_end : forall c typed d acc lp b, traced b -> traced (fst (object_end obj_name pid pp c typed d acc lp b)).
  Proof.
    intros c typed d acc lp b T. unfold object_end. pose proof (traced_finalize c acc lp b T) as F.
    destruct (finalize pid pp c acc lp b) as [b1 acc1]. cbn [fst] in F.
    destruct typed, d, (c_typenames c); cbn [fst]; assumption.
  Qed.

  Lemma traced_object : forall ds oid c known entries ok skip lp b,
    Forall (keeps_trace ds) (map snd entries) -> told c -> traced b ->
    traced (fst (object_map ds oid c known entries ok skip lp b)).
  Proof.
    intros ds oid c known entries ok skip lp b Kt Tc T. inversion Tc as [? Rf Tf]; subst. unfold Deserialize.object_map.
    match goal with |- context [visit ds oid (c_fields c) ?dt entries ok 0 skip None [] lp b] =>
      pose proof (visit_traced ds oid (c_fields c) dt lp ok entries 0 skip None [] b Kt Rf Tf T) as V;
      destruct (visit ds oid (c_fields c) dt entries ok 0 skip None [] lp b) as [b1 [[tn acc]|]] end; [|exact V].
    match goal with |- context [object_end ?a ?p ?q c ?t ?d acc lp b1] =>
      pose proof (traced_object_end c t d acc lp b1 V) as Q; destruct (object_end a p q c t d acc lp b1) as [b2 r] end.
    exact Q.
  Qed.

  Lemma traced_ingest : forall f r c oid x lp b, traced b -> traced (fst (ingest_object f r c oid x lp b)).
  Proof.
    intros f r c oid [|d acc|] lp b T; cbn [Deserialize.ingest_object]; [apply traced_null; exact T| |apply traced_unexpected; exact T].
    cbn [fst]. destruct d as [o|]; [|exact T].
    set (b1 := with_part b _). assert (T1 : traced b1) by exact T.
    assert (T2 : traced (if reported f && obj_inaccessible o then propagate pp lp b1 else b1)).
    { destruct (reported f && obj_inaccessible o); [apply traced_propagate|]; exact T1. }
    destruct (c_set c); exact T2.
  Qed.

  Lemma traced_num : forall A (conv : json -> option A) f j lp b, traced b -> traced (fst (deser_num pp conv f j lp b)).
  Proof.
    intros A conv f j lp b T.
    assert (U : traced (num_unexpected pp f lp b)) by (unfold num_unexpected; destruct (reported f); [apply traced_error|exact T]).
    destruct j; cbn [deser_num]; try (destruct (conv _); assumption); try assumption.
  Qed.

  Lemma traced_num_elems : forall A (conv : json -> option A) f lp ok l i b, reported f = true -> traced b ->
    traced (fst (num_elems pid pp conv f lp l ok i b)).
  Proof.
    intros A conv f lp ok l. induction l as [|x l IH]; intros i b R T; cbn [num_elems].
    - destruct ok; [exact T|]. apply traced_list_failure; assumption.
    - pose proof (traced_num A conv f x (INum pid i :: lp) b T) as T1.
      destruct (deser_num pp conv f x (INum pid i :: lp) b) as [b1 [y|]]; cbn [fst] in *; [|apply traced_list_failure; assumption].
      specialize (IH (S i) b1 R T1). destruct (num_elems pid pp conv f lp l ok (S i) b1) as [b2 [[xs bad]|]]; exact IH.
  Qed.

  Lemma traced_list_other : forall f r j lp b, traced b -> traced (fst (list_other pp f r j lp b)).
  Proof.
    intros f r j lp b T. destruct j; cbn [list_other]; try (apply traced_unexpected; exact T); [apply traced_null; exact T| |exact T].
    destruct (readable _); [apply traced_unexpected; exact T|exact T].
  Qed.

  Lemma traced_elems : forall ds f inner lid lp ok l i b, Forall (keeps_trace ds) l ->
    f_pos f <> 0 -> f_included f = true -> told_shape (f_shape f) -> traced b ->
    traced (fst (elems pp ds f inner lid lp l ok i b)).
  Proof.
    intros ds f inner lid lp ok l. induction l as [|x l IH]; intros i b Kt P Ic Ts T; cbn [elems].
    - destruct ok; [exact T|]. apply traced_list_failure; [apply told_reported; assumption|exact T].
    - apply Forall_cons_iff in Kt. destruct Kt as [Kx Kr].
      pose proof (Kx f inner (IIndex lid i (wnullable inner) :: lp) b P Ic Ts T) as T1.
      destruct (ds x f inner (IIndex lid i (wnullable inner) :: lp) b) as [b1 [v|]]; cbn [fst] in *;
        [|apply traced_list_failure; [apply told_reported; assumption|exact T1]].
      specialize (IH (S i) b1 Kr P Ic Ts T1). destruct (elems pp ds f inner lid lp l ok (S i) b1) as [b2 [vs|]]; exact IH.
  Qed.

  Lemma deser_traced_step : forall j,
    (forall l ok, j = JList l ok -> Forall (keeps_trace deser) l) ->
    (forall l ok, j = JMap l ok -> Forall (keeps_trace deser) (map snd l)) ->
    keeps_trace deser j.
  Proof.
    intros j RL RM f w lp b P Ic Ts T.
    assert (Q : deser j f w lp b = bubble pp f lp
      match w with
      | WList required inner =>
          match f_shape f, inner with
          | SScalar TInt, WNamed true => num_list pid pp conv_int VInts f required j lp b
          | SScalar TFloat, WNamed true => num_list pid pp (conv_float round_f64) VFloats f required j lp b
          | _, _ =>
              let (p, lid) := reserve_list pid (b_part b) in
              let b0 := with_part b p in
              match j with
              | JList l ok =>
                  match elems pp deser f inner lid lp l ok 0 b0 with
                  | (b1, None) => (b1, None)
                  | (b1, Some vs) => (with_part b1 (put_list (b_part b1) lid vs), Some (VList lid))
                  end
              | _ => list_other pp f required j lp b0
              end
          end
      | WNamed required =>
          match f_shape f with
          | SScalar ty => deser_scalar round_f64 pp ty f required j lp b
          | SEnum values => deser_enum pid pp values f required j lp b
          | SConcrete c =>
              let (p, oid) := reserve_obj pid (b_part b) in
              let b0 := with_part b p in
              match j with
              | JMap entries ok =>
                  match object_map deser oid c None entries ok false lp b0 with
                  | (b1, None) => (b1, None)
                  | (b1, Some r) => ingest_object f required c oid r lp b1
                  end
              | _ =>
                  match object_other j with
                  | None => (b0, None)
                  | Some r => ingest_object f required c oid r lp b0
                  end
              end
          | SPoly poss fallback =>
              match j with
              | JMap entries ok =>
                  match poly_select obj_by_name possible poss fallback entries ok with
                  | PFail => (b, None)
                  | PUnexpected => unexpected pp f required lp b
                  | PEmpty d =>
                      let (p, oid) := push_obj pid (b_part b) (MkObj (Some d) []) in
                      (with_part b p, Some (VObj oid))
                  | PShape c d =>
                      let (p, oid) := reserve_obj pid (b_part b) in
                      let b0 := with_part b p in
                      match object_map deser oid c (Some d) entries ok true lp b0 with
                      | (b1, None) => (b1, None)
                      | (b1, Some r) => ingest_object f required c oid r lp b1
                      end
                  end
              | JNull => null_or_unexpected pp f required lp b
              | JBad => (b, None)
              | JList _ _ => if readable j then unexpected pp f required lp b else (b, None)
              | _ => unexpected pp f required lp b
              end
          end
      end) by (destruct j; reflexivity).
    rewrite Q. clear Q. apply traced_bubble; [apply told_reported; assumption|].
    assert (Obj : forall r c known entries ok skip b0, told c -> j = JMap entries ok -> traced b0 -> forall oid,
      traced (fst match object_map deser oid c known entries ok skip lp b0 with
                  | (b1, None) => (b1, None)
                  | (b1, Some x) => ingest_object f r c oid x lp b1
                  end)).
    { intros r c known entries ok skip b0 Tc E T0 oid.
      pose proof (traced_object deser oid c known entries ok skip lp b0 (RM _ _ E) Tc T0) as T1.
      destruct (object_map deser oid c known entries ok skip lp b0) as [b1 [x|]]; cbn [fst] in T1; [apply traced_ingest; exact T1|exact T1]. }
    destruct w as [r|r inner].
    - destruct (f_shape f) as [ty|vs|c|poss fb] eqn:Sh.
      + destruct j; cbn [deser_scalar]; try exact T; try (apply traced_null; exact T);
          try (destruct (read_any _); [|exact T]);
          destruct ty; try exact T; try (apply traced_unexpected; exact T).
        * destruct (int_in_range z); [exact T|apply traced_unexpected; exact T].
        * destruct (float_to_int f0); [exact T|apply traced_unexpected; exact T].
      + destruct j; cbn [deser_enum]; try exact T; try (apply traced_null; exact T); try (apply traced_unexpected; exact T);
          try (destruct (readable _); [apply traced_unexpected; exact T|exact T]).
        destruct (find_enum s vs) as [i|]; [|apply traced_unexpected; exact T]. destruct (reported f && i); [|exact T].
        destruct r; [apply traced_propagate; exact T|]. destruct (push_inacc pid (b_part b) (VStr s)). exact T.
      + inversion Ts as [| |? Tc|]; subst. unfold reserve_obj, push_obj; cbv zeta beta iota.
        destruct j; cbn [object_other]; try (apply traced_ingest; exact T); try exact T.
        * destruct (readable _); [apply traced_ingest; exact T|exact T].
        * apply Obj; [exact Tc|reflexivity|exact T].
      + inversion Ts as [| | |? ? Tp Tfb]; subst.
        destruct j; try exact T; try (apply traced_null; exact T); try (apply traced_unexpected; exact T);
          try (destruct (readable _); [apply traced_unexpected; exact T|exact T]).
        destruct (poly_select obj_by_name possible poss fb l ok) as [| |d|c d] eqn:Sel.
        * exact T.
        * apply traced_unexpected. exact T.
        * cbn [push_obj]. exact T.
        * unfold reserve_obj, push_obj; cbv zeta beta iota. apply Obj; [|reflexivity|exact T].
          unfold poly_select in Sel. destruct (scan l ok) as [| |s rest]; try discriminate.
          destruct (obj_by_name s) as [d'|]; [|destruct (readable_rest rest ok); discriminate].
          destruct (find_shape d' poss) as [c'|] eqn:Fs.
          -- inversion Sel; subst. eapply Tp. apply find_shape_in. exact Fs.
          -- destruct fb as [c'|]; [|destruct (readable_rest rest ok); discriminate].
             assert (c' = c) as ->.
             { destruct (c_ident c'); try congruence. destruct (existsb (Nat.eqb d') (possible i)); [congruence|].
               destruct (readable_rest rest ok); discriminate. }
             apply Tfb. reflexivity.
    - assert (General : traced (fst
          (let (p, lid) := reserve_list pid (b_part b) in
          let b0 := with_part b p in
          match j with
          | JList l ok =>
              match elems pp deser f inner lid lp l ok 0 b0 with
              | (b1, None) => (b1, None)
              | (b1, Some vs) => (with_part b1 (put_list (b_part b1) lid vs), Some (VList lid))
              end
          | _ => list_other pp f r j lp b0
          end))).
      { unfold reserve_list; cbv zeta beta iota. destruct j; try (apply traced_list_other; exact T).
        match goal with |- context [elems pp deser f inner ?lid lp l ok 0 ?b0] =>
          pose proof (traced_elems deser f inner lid lp ok l 0 b0 (RL _ _ eq_refl) P Ic Ts T) as T1;
          destruct (elems pp deser f inner lid lp l ok 0 b0) as [b1 [vs|]] end; exact T1. }
      assert (Num : forall A (conv : json -> option A) wrap, traced (fst (num_list pid pp conv wrap f r j lp b))).
      { intros A conv wrap. unfold num_list. destruct j; try (apply traced_list_other; exact T).
        pose proof (traced_num_elems A conv f lp ok l 0 b (told_reported f P Ic) T) as T1.
        destruct (num_elems pid pp conv f lp l ok 0 b) as [b1 [[xs bad]|]]; exact T1. }
      destruct (f_shape f) as [ty|vs|c|poss fb] eqn:Sh; try exact General.
      destruct ty; try exact General; destruct inner as [[|]|]; try exact General; apply Num.
  Qed.

  Lemma deser_traced : forall j, keeps_trace deser j.
  Proof.
    induction j as [| | | | |l ok IH|l ok IH|] using json_ind2; apply deser_traced_step; intros l' ok' E; try discriminate.
    - inversion E; subst. exact IH.
    - inversion E; subst. exact IH.
  Qed.
End Schema.

Section Root.
  Variable obj_name : nat -> string.
  Variable obj_by_name : string -> option nat.
  Variable obj_inaccessible : nat -> bool.
  Variable possible : nat -> list nat.
  Variable round_f64 : Z -> Z.

  Notation root_part := (root_part obj_name obj_by_name obj_inaccessible possible round_f64).
  Notation deser := (deser obj_name obj_by_name obj_inaccessible possible round_f64).

  Lemma told_on_error : forall c f, told c -> In f (c_fields c) ->
    exists k, root_on_error obj_name c = OnPropagate k \/ exists ds, root_on_error obj_name c = OnDefault k ds.
  Proof.
    intros c f Tc I. inversion Tc as [? Rf _]; subst. unfold root_on_error.
    assert (V : In f (visible_fields c)).
    { unfold visible_fields. apply filter_In. split; [exact I|]. apply negb_true_iff, Nat.eqb_neq. apply Rf. exact I. }
    destruct (visible_fields c) as [|g l]; [destruct V|]. exists (f_rk g).
    match goal with |- context [if ?x then _ else _] => destruct x end; eauto.
  Qed.

  (** Data that is neither null nor a readable object: an error. *)
  Lemma root_failure : forall d n c j, told c -> c_fields c <> [] -> j <> JNull ->
    b_errs (root_part d n (c, j)) = [] ->
    b_bub (root_part d n (c, j)) = false /\ exists entries, j = JMap entries true.
  Proof.
    intros d n c j Tc Ne Nn. destruct (c_fields c) as [|f l] eqn:Ef; [contradiction|].
    destruct (told_on_error c f Tc) as (k & Oe); [rewrite Ef; left; reflexivity|].
    assert (Err : forall b, b_errs (insert_error_update (root_on_error obj_name c) (0, 0) [] b) <> []).
    { intros b. destruct Oe as [->|(ds & ->)]; cbn; intros X; apply app_eq_nil in X; destruct X as [_ X]; discriminate. }
    assert (Pe : forall b, b_errs (insert_propagated_empty_update (root_on_error obj_name c) (0, 0) b) = b_errs b).
    { intros b. destruct Oe as [->|(ds & ->)]; reflexivity. }
    unfold DeserRoot.root_part, Deserialize.deser_root. cbn [fst snd].
    destruct j as [|x|z|x|s|l' ok|l' ok|]; try (cbn [object_other]; intros X; exfalso; exact (Err _ X)).
    - contradiction.
    - cbn [object_other]. destruct (readable (JList l' ok)); [intros X; exfalso; exact (Err _ X)|].
      cbn [new_builder b_bub]. intros X; exfalso; exact (Err _ X).
    - assert (T : traced (fst (object_map obj_name possible n [] (deser n []) (0, 0) c (Some d) l' ok false [] new_builder))).
      { apply traced_object; [|exact Tc|intros X; discriminate X]. apply Forall_forall. intros y _. apply deser_traced. }
      destruct (object_map obj_name possible n [] (deser n []) (0, 0) c (Some d) l' ok false [] new_builder) as [b1 [r|]] eqn:Om.
      + destruct (object_map_known _ _ _ _ _ _ _ _ _ _ _ _ _ _ _ Om) as (acc & ->). cbn [push_update b_errs b_bub]. intros X.
        cbn [fst] in T. split.
        * destruct (b_bub b1) eqn:B; [|reflexivity]. exfalso. exact (T B X).
        * exists l'. f_equal. destruct ok; [reflexivity|]. exfalso. unfold object_map in Om.
          assert (Nv : forall ds oid fs dt en off sk tn ac lp b b' y, visit obj_name possible ds oid fs dt en false off sk tn ac lp b <> (b', Some y)).
          { clear. intros ds oid fs dt en. induction en as [|[k v] en IH]; intros off sk tn ac lp b b' y E; cbn [visit] in E; [discriminate|].
            destruct (sk && (k =? typename_key)); [exact (IH _ _ _ _ _ _ _ _ E)|].
            destruct (position k (skipn off fs) 0) as [[pos f]|].
            - destruct (ds v f (f_wrap f) (IField oid (f_key f) (wnullable (f_wrap f)) :: lp) b) as [b1 [v1|]]; [|discriminate].
              exact (IH _ _ _ _ _ _ _ _ E).
            - destruct dt as [i|]; [destruct tn|]; try (destruct (readable v); [exact (IH _ _ _ _ _ _ _ _ E)|discriminate]).
              destruct (k =? typename_key); [destruct v; try discriminate; exact (IH _ _ _ _ _ _ _ _ E)|].
              destruct (readable v); [exact (IH _ _ _ _ _ _ _ _ E)|discriminate]. }
          match type of Om with context [visit ?a ?p ?ds ?o ?fs ?dt ?en false ?off ?sk ?tn ?ac ?lp ?b] =>
            destruct (visit a p ds o fs dt en false off sk tn ac lp b) as [b2 [[tn' acc']|]] eqn:Ev end; [|discriminate].
          exact (Nv _ _ _ _ _ _ _ _ _ _ _ _ _ Ev).
      + cbn [fst] in T. destruct (b_bub b1) eqn:B; intros X.
        * rewrite Pe in X. exfalso. exact (T B X).
        * exfalso. exact (Err _ X).
  Qed.
End Root.
