(** When the reader of a subgraph response can fail: on data that isn't JSON,
    on a [__typename] which isn't a string, and on a list or an object in a list
    of non-null numbers.  Nothing else makes it fail. *)

From Coq Require Import List Arith ZArith String Bool Sorted Permutation Lia.
From Verif Require Import Response.Model Response.Deserialize Response.Spec Response.Conform.
From Verif Require Import Response.Merge Response.Nulls Response.DeserBase Response.DeserList Response.DeserVisit.
From Verif Require Import Response.DeserObj Response.DeserAll.
Import ListNotations.
Local Open Scope nat_scope.

(** Valid JSON, in which every [__typename] is a string. *)
Inductive clean : json -> Prop :=
| ClNull : clean JNull
| ClBool b : clean (JBool b)
| ClInt z : clean (JInt z)
| ClFloat f : clean (JFloat f)
| ClStr s : clean (JStr s)
| ClList l : Forall clean l -> clean (JList l true)
| ClMap l :
    Forall clean (map snd l) -> (forall j, In (typename_key, j) l -> exists s, j = JStr s) ->
    clean (JMap l true).

(** Somewhere a list of non-null numbers is expected and the JSON has a list
    with a non-empty list or object in it. *)
Inductive stumbles : wtype -> shape -> json -> Prop :=
| StHere r ty l ok x : ty = TInt \/ ty = TFloat -> In x l ->
    (exists y l' ok', x = JList (y :: l') ok') \/ (exists y l' ok', x = JMap (y :: l') ok') ->
    stumbles (WList r (WNamed true)) (SScalar ty) (JList l ok)
| StList r w sh l ok x : In x l -> stumbles w sh x -> stumbles (WList r w) sh (JList l ok)
| StObj r c entries ok : stumbles_obj c entries -> stumbles (WNamed r) (SConcrete c) (JMap entries ok)
| StPoss r poss fb d c entries ok :
    In (d, c) poss -> stumbles_obj c entries -> stumbles (WNamed r) (SPoly poss fb) (JMap entries ok)
| StFallback r poss c entries ok :
    stumbles_obj c entries -> stumbles (WNamed r) (SPoly poss (Some c)) (JMap entries ok)
with stumbles_obj : concrete -> list (nat * json) -> Prop :=
| StField c entries f j :
    In f (c_fields c) -> In (f_expected f, j) entries -> stumbles (f_wrap f) (f_shape f) j ->
    stumbles_obj c entries.

Lemma clean_readable : forall j, clean j -> readable j = true.
Proof.
  assert (G : forall j, clean j -> exists o, read_any j = Some o).
  { induction j as [| | | | |l ok IH|l ok IH|] using json_ind2; intros C; inversion C; subst; cbn [read_any]; eauto.
    - assert (E : exists ol, all_some (map read_any l) = Some ol).
      { clear C. match goal with H : Forall clean l |- _ => rename H into Cl end.
        induction l as [|x l IHl]; [cbn; eauto|]. inversion IH; subst. inversion Cl; subst. cbn [map all_some].
        match goal with H : clean x -> _ |- _ => destruct H as (o & E); [assumption|]; rewrite E end.
        destruct IHl as (ol & El); [assumption..|]. rewrite El. eauto. }
      destruct E as (ol & E). rewrite E. cbn. eauto.
    - match goal with H : forall j, In (typename_key, j) l -> _ |- _ => clear H end.
      assert (E : exists ol, all_some (map (fun kv => option_map (pair (fst kv)) (read_any (snd kv))) l) = Some ol).
      { clear C. match goal with H : Forall clean _ |- _ => rename H into Cl end.
        induction l as [|[k x] l IHl]; [cbn; eauto|]. cbn [map fst snd] in *. inversion IH; subst. inversion Cl; subst. cbn [all_some].
        match goal with H : clean x -> _ |- _ => destruct H as (o & E); [assumption|]; rewrite E end.
        cbn [option_map]. destruct IHl as (ol & El); [assumption..|]. rewrite El. eauto. }
      destruct E as (ol & E). rewrite E. cbn. eauto. }
  intros j C. destruct (G j C) as (o & E). unfold readable. rewrite E. reflexivity.
Qed.

Section Schema.
  Variable obj_name : nat -> string.
  Variable obj_by_name : string -> option nat.
  Variable obj_inaccessible : nat -> bool.
  Variable possible : nat -> list nat.
  Variable round_f64 : Z -> Z.
  Variable pid : nat.
  Variable pp : list vid.

  Notation dres := (builder * option val)%type.
  Notation object_map := (object_map obj_name possible pid pp).
  Notation ingest_object := (ingest_object obj_inaccessible pp).
  Notation deser := (deser obj_name obj_by_name obj_inaccessible possible round_f64 pid pp).
  Notation visit := (visit obj_name possible).

  Definition goes_through (ds : json -> field -> wtype -> list vid -> builder -> dres) (j : json) : Prop :=
    forall f w lp b, clean j -> ~ stumbles w (f_shape f) j -> exists b' v, ds j f w lp b = (b', Some v).

  Lemma visit_goes : forall ds oid fs detect lp entries offset skip tn acc b,
    Forall clean (map snd entries) -> Forall (goes_through ds) (map snd entries) ->
    (forall f j, In f fs -> In (f_expected f, j) entries -> ~ stumbles (f_wrap f) (f_shape f) j) ->
    (forall j, In (typename_key, j) entries -> exists s, j = JStr s) ->
    exists b' x, visit ds oid fs detect entries true offset skip tn acc lp b = (b', Some x).
  Proof.
    intros ds oid fs detect lp entries.
    induction entries as [|[k v] rest IH]; intros offset skip tn acc b Cl Gt Ns Tn; cbn [Deserialize.visit]; [eauto|].
    cbn [map snd] in Cl, Gt. inversion Cl as [|? ? Cv Cr]; subst. inversion Gt as [|? ? Gv Gr]; subst.
    assert (Ns' : forall f j, In f fs -> In (f_expected f, j) rest -> ~ stumbles (f_wrap f) (f_shape f) j).
    { intros f j If I. apply Ns; [exact If|right; exact I]. }
    assert (Tn' : forall j, In (typename_key, j) rest -> exists s, j = JStr s).
    { intros j I. apply Tn. right. exact I. }
    destruct (skip && (k =? typename_key)); [apply IH; assumption|].
    pose proof (position_spec k (skipn offset fs) 0) as P.
    destruct (position k (skipn offset fs) 0) as [[pos f]|].
    - destruct P as (_ & P & Ek). rewrite Nat.sub_0_r in P.
      assert (If : In f fs).
      { apply nth_error_In in P. rewrite <- (firstn_skipn offset fs). apply in_or_app. right. exact P. }
      destruct (Gv f (f_wrap f) (IField oid (f_key f) (wnullable (f_wrap f)) :: lp) b Cv) as (b1 & v1 & E).
      { apply Ns; [exact If|]. left. rewrite Ek. reflexivity. }
      rewrite E. apply IH; assumption.
    - rewrite (clean_readable v Cv). destruct detect as [i|]; [destruct tn|]; try (apply IH; assumption).
      destruct (k =? typename_key) eqn:Et; [|apply IH; assumption].
      apply Nat.eqb_eq in Et. destruct (Tn v) as (s & ->); [left; rewrite Et; reflexivity|].
      apply IH; assumption.
  Qed.

  Lemma object_goes : forall ds oid c known entries skip lp b,
    Forall clean (map snd entries) -> Forall (goes_through ds) (map snd entries) ->
    ~ stumbles_obj c entries ->
    (forall j, In (typename_key, j) entries -> exists s, j = JStr s) ->
    exists b' r, object_map ds oid c known entries true skip lp b = (b', Some r).
  Proof.
    intros ds oid c known entries skip lp b Cl Gt Ns Tn. unfold Deserialize.object_map.
    destruct (visit_goes ds oid (c_fields c) (match effective c known with ITypename i => Some i | _ => None end) lp
                entries 0 skip None [] b) as (b' & [tn acc] & E); [assumption..| |assumption|].
    { intros f j If I X. apply Ns. econstructor; eassumption. }
    rewrite E. match goal with |- context [object_end ?a ?b ?c ?d ?e ?f ?g ?h ?i] => destruct (object_end a b c d e f g h i) end.
    eauto.
  Qed.

  Lemma ingest_goes : forall f r c oid x lp b, exists b' v, ingest_object f r c oid x lp b = (b', Some v).
  Proof.
    intros f r c oid x lp b. destruct x as [|d acc|]; cbn [Deserialize.ingest_object]; unfold null_or_unexpected, unexpected; eauto.
    destruct r; eauto.
  Qed.

  Lemma null_goes : forall f r lp b, exists b' v, null_or_unexpected pp f r lp b = (b', Some v).
  Proof. intros f r lp b. unfold null_or_unexpected, unexpected. destruct r; eauto. Qed.

  Lemma num_goes : forall A (conv : json -> option A) f lp l i b,
    Forall clean l ->
    (forall x, In x l -> ~ ((exists y l' ok', x = JList (y :: l') ok') \/ (exists y l' ok', x = JMap (y :: l') ok'))) ->
    exists b' x, num_elems pid pp conv f lp l true i b = (b', Some x).
  Proof.
    intros A conv f lp l. induction l as [|x l IH]; intros i b Cl Ns; cbn [num_elems]; [eauto|].
    inversion Cl as [|? ? Cx Cr]; subst.
    assert (E : exists b1 y, deser_num pp conv f x (INum pid i :: lp) b = (b1, Some y)).
    { pose proof (Ns x (or_introl eq_refl)) as N. destruct x as [|v|z|v|s|l' ok'|l' ok'|]; cbn [deser_num];
        try (destruct (conv _); eauto; fail).
      - inversion Cx; subst. destruct l'; [eauto|]. exfalso. apply N. left. eauto.
      - inversion Cx; subst. destruct l'; [eauto|]. exfalso. apply N. right. eauto.
      - inversion Cx. }
    destruct E as (b1 & y & E). rewrite E.
    destruct (IH (S i) b1) as (b2 & [xs bad] & E2); [assumption|intros z I; apply Ns; right; exact I|].
    rewrite E2. eauto.
  Qed.

  Lemma elems_go : forall ds f inner lid lp l i b, Forall clean l -> Forall (goes_through ds) l ->
    (forall x, In x l -> ~ stumbles inner (f_shape f) x) ->
    exists b' vs, elems pp ds f inner lid lp l true i b = (b', Some vs).
  Proof.
    intros ds f inner lid lp l. induction l as [|x l IH]; intros i b Cl Gt Ns; cbn [elems]; [eauto|].
    inversion Cl; subst. inversion Gt as [|? ? Gx Gr]; subst.
    destruct (Gx f inner (IIndex lid i (wnullable inner) :: lp) b) as (b1 & v & E); [assumption|apply Ns; left; reflexivity|].
    rewrite E. destruct (IH (S i) b1) as (b2 & vs & E2); [assumption..|intros z I; apply Ns; right; exact I|].
    rewrite E2. eauto.
  Qed.

  Lemma list_other_goes : forall f r j lp b, clean j -> exists b' v, list_other pp f r j lp b = (b', Some v).
  Proof.
    intros f r j lp b C. pose proof (clean_readable j C) as R.
    destruct j; cbn [list_other]; try rewrite R; unfold unexpected; eauto; [apply null_goes|inversion C].
  Qed.

  Lemma scan_goes : forall entries, Forall clean (map snd entries) ->
    (forall j, In (typename_key, j) entries -> exists s, j = JStr s) ->
    scan entries true = ScanNone \/ exists s rest, scan entries true = ScanName s rest /\ readable_rest rest true = true.
  Proof.
    induction entries as [|[k v] l IH]; intros Cl Tn; [left; reflexivity|]. cbn [map snd] in Cl.
    inversion Cl as [|? ? Cv Cr]; subst. cbn [scan]. destruct (k =? typename_key) eqn:E.
    - apply Nat.eqb_eq in E. destruct (Tn v) as (s & ->); [left; rewrite E; reflexivity|].
      right. exists s, l. split; [reflexivity|]. unfold readable_rest. cbn [andb]. apply forallb_forall.
      intros [k' x] I. cbn [snd]. apply clean_readable. rewrite Forall_forall in Cr. apply Cr. apply (in_map snd) in I. exact I.
    - rewrite (clean_readable v Cv). apply IH; [exact Cr|]. intros j I. apply Tn. right. exact I.
  Qed.

  Lemma deser_goes_step : forall j,
    (forall l ok, j = JList l ok -> Forall (goes_through deser) l) ->
    (forall l ok, j = JMap l ok -> Forall (goes_through deser) (map snd l)) ->
    goes_through deser j.
  Proof.
    intros j RL RM f w lp b Cl Ns.
    assert (Rj : readable j = true) by (apply clean_readable; exact Cl).
    assert (Q : deser j f w lp b = bubble pp f lp
      match w with
      | WList required inner =>
          match f_shape f, inner with
          | SScalar TInt, WNamed true => num_list pid pp conv_int VInts f required j lp b
          | SScalar TFloat, WNamed true => num_list pid pp (conv_float round_f64) VFloats f required j lp b
          | _, _ =>
              let (p, lid) := reserve_list pid (b_part b) in
              let b0 := with_part b p in
              match j with
              | JList l ok =>
                  match elems pp deser f inner lid lp l ok 0 b0 with
                  | (b1, None) => (b1, None)
                  | (b1, Some vs) => (with_part b1 (put_list (b_part b1) lid vs), Some (VList lid))
                  end
              | _ => list_other pp f required j lp b0
              end
          end
      | WNamed required =>
          match f_shape f with
          | SScalar ty => deser_scalar round_f64 pp ty f required j lp b
          | SEnum values => deser_enum pid pp values f required j lp b
          | SConcrete c =>
              let (p, oid) := reserve_obj pid (b_part b) in
              let b0 := with_part b p in
              match j with
              | JMap entries ok =>
                  match object_map deser oid c None entries ok false lp b0 with
                  | (b1, None) => (b1, None)
                  | (b1, Some r) => ingest_object f required c oid r lp b1
                  end
              | _ =>
                  match object_other j with
                  | None => (b0, None)
                  | Some r => ingest_object f required c oid r lp b0
                  end
              end
          | SPoly poss fallback =>
              match j with
              | JMap entries ok =>
                  match poly_select obj_by_name possible poss fallback entries ok with
                  | PFail => (b, None)
                  | PUnexpected => unexpected pp f required lp b
                  | PEmpty d =>
                      let (p, oid) := push_obj pid (b_part b) (MkObj (Some d) []) in
                      (with_part b p, Some (VObj oid))
                  | PShape c d =>
                      let (p, oid) := reserve_obj pid (b_part b) in
                      let b0 := with_part b p in
                      match object_map deser oid c (Some d) entries ok true lp b0 with
                      | (b1, None) => (b1, None)
                      | (b1, Some r) => ingest_object f required c oid r lp b1
                      end
                  end
              | JNull => null_or_unexpected pp f required lp b
              | JBad => (b, None)
              | JList _ _ => if readable j then unexpected pp f required lp b else (b, None)
              | _ => unexpected pp f required lp b
              end
          end
      end) by (destruct j; reflexivity).
    rewrite Q. clear Q.
    match goal with |- context [bubble _ _ _ ?m] =>
      cut (exists b' v, m = (b', Some v)); [intros (b' & v & E); exists b', v; rewrite E; reflexivity|] end.
    destruct w as [r|r inner].
    - destruct (f_shape f) as [ty|vs|c|poss fb] eqn:Sh.
      + destruct j; cbn [deser_scalar]; unfold unexpected; try (destruct ty; eauto; fail); try apply null_goes.
        * destruct ty; eauto. destruct (int_in_range z); eauto.
        * destruct ty; eauto. destruct (float_to_int f0); eauto.
        * unfold readable in Rj. destruct (read_any (JList l ok)); [destruct ty; eauto|discriminate].
        * unfold readable in Rj. destruct (read_any (JMap l ok)); [destruct ty; eauto|discriminate].
        * inversion Cl.
      + destruct j; cbn [deser_enum]; try rewrite Rj; unfold unexpected; eauto; try apply null_goes.
        * destruct (find_enum s vs) as [i|]; eauto. destruct (reported f && i); eauto. destruct r; eauto.
          destruct (push_inacc pid (b_part b) (VStr s)). eauto.
        * inversion Cl.
      + unfold reserve_obj, push_obj; cbv zeta beta iota. destruct j; cbn [object_other]; try rewrite Rj; try apply ingest_goes.
        * inversion Cl; subst.
          match goal with |- context [object_map ?a ?b ?c ?d ?e ?g ?h ?i ?k] =>
            destruct (object_goes a b c d e h i k) as (b1 & x & E) end;
            [assumption|eapply RM; reflexivity|intros X; apply Ns; constructor; exact X|assumption|].
          rewrite E. apply ingest_goes.
        * inversion Cl.
      + destruct j; try rewrite Rj; unfold unexpected; eauto; try apply null_goes.
        * inversion Cl; subst. unfold poly_select.
          assert (Sp : forall c d, ~ stumbles_obj c l -> exists b' v,
            (let (p, oid) := reserve_obj pid (b_part b) in
             let b0 := with_part b p in
             match object_map deser oid c (Some d) l true true lp b0 with
             | (b1, None) => (b1, None)
             | (b1, Some x) => ingest_object f r c oid x lp b1
             end) = (b', Some v)).
          { intros c d Nc. unfold reserve_obj, push_obj; cbv zeta beta iota.
            match goal with |- context [object_map ?a ?b ?c ?d ?e ?g ?h ?i ?k] =>
              destruct (object_goes a b c d e h i k) as (b1 & x & E) end;
              [assumption|eapply RM; reflexivity|exact Nc|assumption|].
            rewrite E. apply ingest_goes. }
          destruct (scan_goes l) as [E|(s & rest & E & Rr)]; [assumption..| |]; rewrite E; [eauto|].
          destruct (obj_by_name s) as [d|]; [|rewrite Rr; eauto].
          destruct (find_shape d poss) as [c|] eqn:Fs.
          -- apply Sp. intros X. apply Ns. eapply StPoss; [apply find_shape_in; exact Fs|exact X].
          -- destruct fb as [c|].
             ++ assert (Nc : ~ stumbles_obj c l) by (intros X; apply Ns; apply StFallback; exact X).
                destruct (c_ident c); try (apply Sp; exact Nc). destruct (existsb (Nat.eqb d) (possible i)); [apply Sp; exact Nc|].
                rewrite Rr. eauto.
             ++ rewrite Rr. cbn [push_obj]. eauto.
        * inversion Cl.
    - assert (General : exists b' v,
          (let (p, lid) := reserve_list pid (b_part b) in
          let b0 := with_part b p in
          match j with
          | JList l ok =>
              match elems pp deser f inner lid lp l ok 0 b0 with
              | (b1, None) => (b1, None)
              | (b1, Some vs) => (with_part b1 (put_list (b_part b1) lid vs), Some (VList lid))
              end
          | _ => list_other pp f r j lp b0
          end) = (b', Some v)).
      { unfold reserve_list; cbv zeta beta iota. destruct j; try (apply list_other_goes; exact Cl). inversion Cl; subst.
        match goal with |- context [elems ?a ?b ?c ?d ?e ?g ?h ?i ?k ?m] =>
          destruct (elems_go b c d e g h k m) as (b1 & vs & E) end; [assumption|eapply RL; reflexivity| |].
        { intros x I X. apply Ns. eapply StList; eassumption. }
        rewrite E. eauto. }
      assert (Num : forall A (conv : json -> option A) wrap ty, f_shape f = SScalar ty -> inner = WNamed true ->
                ty = TInt \/ ty = TFloat -> exists b' v, num_list pid pp conv wrap f r j lp b = (b', Some v)).
      { intros A conv wrap ty Sh -> Ty. unfold num_list. destruct j; try (apply list_other_goes; exact Cl). inversion Cl; subst.
        destruct (num_goes A conv f lp l 0 b) as (b1 & [xs bad] & E); [assumption| |rewrite E; eauto].
        intros x I X. apply Ns. rewrite Sh. eapply StHere; eassumption. }
      destruct (f_shape f) as [ty|vs|c|poss fb] eqn:Sh; try exact General.
      destruct ty; try exact General; destruct inner as [[|]|]; try exact General; eapply Num; try reflexivity; auto.
  Qed.

  Theorem deser_goes : forall j, goes_through deser j.
  Proof.
    induction j as [| | | | |l ok IH|l ok IH|] using json_ind2; apply deser_goes_step; intros l' ok' E; try discriminate.
    - inversion E; subst. exact IH.
    - inversion E; subst. exact IH.
  Qed.
End Schema.
