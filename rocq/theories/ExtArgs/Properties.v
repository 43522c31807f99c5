(** Arguments of extension directives. *)
From Coq Require Import String List ZArith Bool Lia PeanoNat Permutation.
From Verif.ExtArgs Require Import Model Spec ViewSpec Coerced Staged.
Import ListNotations.
Local Open Scope string_scope.
Local Open Scope list_scope.

Section Claims.
  Context {VS FS TPL : Type}.
  Notation ev := (ev VS FS TPL).
  Variable specials : list (string * special).
  Variable definitions : string -> option definition.
  Variable on_field : bool.
  Variable empty_set : VS.
  Variable bind_set : string -> option VS.
  Variable bind_field_set : string -> option FS.
  Variable parse_template : special -> string -> option TPL.
  Notation special_of := (fun n => option_map snd (find (fun s : string * special => String.eqb (fst s) n) specials)).
  Notation arguments_as := (arguments_as special_of definitions on_field empty_set
    (fun s x => bind_set s = Some x) (fun s x => bind_field_set s = Some x) (fun k s x => parse_template k s = Some x)).
  Notation coerce_arguments := (coerce_arguments specials definitions on_field empty_set bind_set bind_field_set parse_template).
  Notation of_fields := (of_fields (VS := VS) (FS := FS) (TPL := TPL) special_of definitions).

  (** Input objects of the extension's SDL have no field twice. *)
  Hypothesis distinct_fields : forall n one_of defs, definitions n = Some (DInput one_of defs) -> NoDup (map iname defs).
  Variable defs : list input.
  Hypothesis distinct_arguments : NoDup (map iname defs).

  Theorem C107_accepts : forall args es,
    (exists fuel l r, coerce_arguments fuel defs args = Val (l, r) /\ map (fun a => (aname a, avalue a)) l = es) <->
    (NoDup (map fst args) /\ incl (map fst args) (map iname defs) /\ arguments_as args defs es).
  Proof.
    intros args es. split.
    - intros (fuel & l & r & E & <-).
      exact (arguments_sound specials definitions on_field empty_set bind_set bind_field_set parse_template distinct_fields fuel defs args l r distinct_arguments E).
    - intros (N & I & A).
      destruct (arguments_reached specials definitions on_field empty_set bind_set bind_field_set parse_template distinct_fields args defs es A distinct_arguments) as (m & H).
      destruct (H m (le_n m) args N I (fun d v _ => iff_refl _)) as (l & r & E & P). exists m, l, r. split; [exact E|exact P].
  Qed.

  (** With more room for the recursion the result is the same. *)
  Theorem C107_one : forall args fuel l r, coerce_arguments fuel defs args = Val (l, r) ->
    exists enough, forall fuel', enough <= fuel' -> exists l' r', coerce_arguments fuel' defs args = Val (l', r') /\
      map (fun a => (aname a, avalue a)) l' = map (fun a => (aname a, avalue a)) l.
  Proof.
    intros args fuel l r E.
    destruct (proj1 (C107_accepts args (map (fun a => (aname a, avalue a)) l))) as (N & I & A); [now exists fuel, l, r|].
    destruct (arguments_reached specials definitions on_field empty_set bind_set bind_field_set parse_template distinct_fields args defs _ A distinct_arguments) as (m & H).
    exists m. intros fuel' L. destruct (H fuel' L args N I (fun d v _ => iff_refl _)) as (l' & r' & E' & P). now exists l', r'.
  Qed.

  Theorem C107_conforms : forall fuel args l r, coerce_arguments fuel defs args = Val (l, r) ->
    of_fields defs (map (fun a => (aname a, avalue a)) l).
  Proof.
    intros fuel args l r E.
    destruct (proj1 (C107_accepts args (map (fun a => (aname a, avalue a)) l))) as (_ & _ & A); [now exists fuel, l, r|].
    remember (map (fun a => (aname a, avalue a)) l) as es eqn:X. clear X E l r distinct_arguments.
    induction A as [|? d ds v e es I W _ IH|? d ds v e es N DV W _ IH|? d ds es N DV NN _ IH].
    - constructor.
    - constructor; [exact (whole_typed _ _ _ _ _ _ _ _ _ _ _ W)|exact IH].
    - constructor; [exact (whole_typed _ _ _ _ _ _ _ _ _ _ _ W)|exact IH].
    - now constructor.
  Qed.

  (** *** Stages *)

  Theorem C108_stage : forall fuel args l r, coerce_arguments fuel defs args = Val (l, r) ->
    Forall (fun a => earliest (avalue a) (astage a)) l /\
    forall f, In f r <-> exists a, In a l /\ needs_fields (avalue a) f.
  Proof. intros fuel args l r E. eapply arguments_staged. exact E. Qed.
End Claims.

(** *** Views *)

Section Views.
  Context {VS FS TPL : Type}.
  Notation ev := (ev VS FS TPL).
  Notation argument := (argument VS FS TPL).
  Variable set_view : VS -> data.
  Variable template_view : TPL -> string.
  Variable fields_view : FS -> data.
  Notation shows := (shows set_view template_view fields_view).
  Notation view := (view set_view template_view fields_view).
  Notation delivered := (delivered set_view template_view fields_view).
  Notation everything := (everything set_view template_view fields_view).
  Notation asked := (asked set_view template_view fields_view).

  Lemma view_shows : forall upto (e : ev), (forall x s, within x e -> injected x s -> before s upto) ->
    exists d, view upto e = Some d /\ shows e d.
  Proof.
    intro upto. fix F 1. intros e H. destruct e as [|s|s|z|z|m z|b|fs|l|f|v|t].
    - exists NNull. split; [reflexivity|constructor].
    - exists (NStr s). split; [reflexivity|constructor].
    - exists (NStr s). split; [reflexivity|constructor].
    - exists (NInt z). split; [reflexivity|constructor].
    - exists (NInt z). split; [reflexivity|constructor].
    - exists (NFloat m z). split; [reflexivity|constructor].
    - exists (NBool b). split; [reflexivity|constructor].
    - assert (G : exists ds, sequence_opt (map (fun f => option_map (pair (fst f)) (view upto (snd f))) fs) = Some ds /\
        Forall2 (fun f d => fst f = fst d /\ shows (snd f) (snd d)) fs ds).
      { assert (H2 : forall k y, In (k, y) fs -> forall x s, within x y -> injected x s -> before s upto).
        { intros k y J x s W. apply H. eapply WiMap; [exact J|exact W]. }
        clear H. induction fs as [|[k e] fs IH]; [exists []; split; [reflexivity|constructor]|].
        destruct (F e (H2 k e (or_introl eq_refl))) as (d & E & S1).
        destruct IH as (ds & E2 & S2); [intros k' y J; apply (H2 k' y); now right|].
        exists ((k, d) :: ds). cbn [map fst snd]. rewrite E. cbn [option_map sequence_opt]. rewrite E2. split; [reflexivity|].
        constructor; [split; [reflexivity|exact S1]|exact S2]. }
      destruct G as (ds & E & S1). exists (NMap ds). cbn [Model.view]. rewrite E. split; [reflexivity|now constructor].
    - assert (G : exists ds, sequence_opt (map (view upto) l) = Some ds /\ Forall2 shows l ds).
      { assert (H2 : forall y, In y l -> forall x s, within x y -> injected x s -> before s upto).
        { intros y J x s W. apply H. eapply WiList; [exact J|exact W]. }
        clear H. induction l as [|e l IH]; [exists []; split; [reflexivity|constructor]|].
        destruct (F e (H2 e (or_introl eq_refl))) as (d & E & S1).
        destruct IH as (ds & E2 & S2); [intros y J; apply (H2 y); now right|].
        exists (d :: ds). cbn [map]. rewrite E. cbn [sequence_opt]. rewrite E2. split; [reflexivity|]. now constructor. }
      destruct G as (ds & E & S1). exists (NList ds). cbn [Model.view]. rewrite E. split; [reflexivity|now constructor].
    - clear F. specialize (H _ Response (WiHere _) (InFieldSet f)). destruct upto; try contradiction H.
      exists (fields_view f). split; [reflexivity|constructor].
    - clear F. specialize (H _ Query (WiHere _) (InSet v)). destruct upto; [contradiction H| |]; (exists (set_view v); split; [reflexivity|constructor]).
    - clear F. specialize (H _ Query (WiHere _) (InTemplate t)). destruct upto; [contradiction H| |]; (exists (NStr (template_view t)); split; [reflexivity|constructor]).
  Qed.

  Lemma serialize_delivered : forall upto keep (of : stage -> Prop) (args : list argument),
    (forall s, keep s = true <-> of s) -> (forall s, of s -> before s upto) ->
    Forall (fun a => earliest (avalue a) (astage a)) args ->
    exists ds, serialize set_view template_view fields_view upto (filter (fun a => keep (astage a)) args) = Some ds /\ delivered of args ds.
  Proof.
    intros upto keep of args K O H. unfold serialize. induction H as [|a args [U _] _ (ds & E & D)]; [exists []; split; [reflexivity|constructor]|].
    cbn [filter]. destruct (keep (astage a)) eqn:KA.
    - apply K in KA. destruct (view_shows upto (avalue a)) as (d & V & SH).
      { intros x s W I. pose proof (U x s W I) as X. pose proof (O _ KA) as Y. destruct s, (astage a), upto; cbn in *; tauto. }
      exists ((aname a, d) :: ds). cbn [map]. rewrite V. cbn [option_map sequence_opt]. rewrite E. split; [reflexivity|]. now constructor.
    - exists ds. split; [exact E|]. apply DvSkip; [|exact D]. intro X. apply K in X. congruence.
  Qed.

  (** What is asked for, for the three rules: never a value that is not known yet. *)
  Definition asks (r : rule) (s : stage) : Prop :=
    match r with AskStatic => s = Static | AskQuery => s <> Response | AskResponse => s = Response end.

  Theorem C108_views : forall args : list argument, Forall (fun a => earliest (avalue a) (astage a)) args ->
    forall r, exists ds, asked args r = Some ds /\ delivered (asks r) args ds.
  Proof.
    intros args H r. destruct r; cbn [Model.asked asks].
    - apply (serialize_delivered Static (fun s => Nat.eqb (rank s) 0) (fun s => s = Static)); [|intros s ->; exact Logic.I|exact H].
      intros []; cbn; split; congruence.
    - apply (serialize_delivered Query (fun s => Nat.leb (rank s) 1) (fun s => s <> Response)); [| |exact H].
      + intros []; cbn; split; congruence.
      + intros [] X; cbn; trivial. now apply X.
    - apply (serialize_delivered Response (fun s => Nat.eqb (rank s) 2) (fun s => s = Response)); [|intros s ->; exact Logic.I|exact H].
      intros []; cbn; split; congruence.
  Qed.

  Lemma complement_everything : forall (p q : stage -> Prop) (args : list argument) d1 d2,
    (forall a, In a args -> p (astage a) <-> ~ q (astage a)) ->
    delivered p args d1 -> delivered q args d2 -> everything args [d1; d2].
  Proof.
    intros p q. induction args as [|a args IH]; intros d1 d2 C D1 D2.
    - inversion D1; subst. inversion D2; subst. exists []. split; [constructor|constructor].
    - assert (C2 : forall b, In b args -> p (astage b) <-> ~ q (astage b)) by (intros b J; apply C; now right).
      specialize (C a (or_introl eq_refl)).
      inversion D1 as [|? ? x1 ds1 P1 S1 R1|? ? ? P1 R1]; subst; inversion D2 as [|? ? x2 ds2 P2 S2 R2|? ? ? P2 R2]; subst.
      + tauto.
      + destruct (IH ds1 d2 C2 R1 R2) as (l & P & F2). exists ((aname a, x1) :: l). split.
        * cbn [concat app] in *. now constructor.
        * constructor; [split; [reflexivity|exact S1]|exact F2].
      + destruct (IH d1 ds2 C2 R1 R2) as (l & P & F2). exists ((aname a, x2) :: l). split.
        * cbn [concat] in *. rewrite app_nil_r in *. symmetry. apply Permutation_cons_app. now symmetry.
        * constructor; [split; [reflexivity|exact S2]|exact F2].
      + exfalso. inversion D2; subst; tauto.
  Qed.

  Lemma all_everything : forall (p : stage -> Prop) (args : list argument) d,
    (forall a, In a args -> p (astage a)) -> delivered p args d -> everything args [d].
  Proof.
    intros p. induction args as [|a args IH]; intros d A D.
    - inversion D; subst. exists []. split; constructor.
    - inversion D as [|? ? x ds P1 S1 R1|? ? ? P1 R1]; subst; [|contradiction (P1 (A a (or_introl eq_refl)))].
      destruct (IH ds) as (l & P & F2); [intros b J; apply A; now right|exact R1|].
      exists ((aname a, x) :: l). split; [cbn [concat app] in *; now constructor|]. constructor; [split; [reflexivity|exact S1]|exact F2].
  Qed.

  Lemma max_before : forall (args : list argument) s, fold_left (fun s a => stage_max s (astage a)) args s = s /\ (forall a, In a args -> before (astage a) s) \/
    (exists a, In a args /\ astage a = fold_left (fun s a => stage_max s (astage a)) args s /\ (forall b, In b args -> before (astage b) (astage a)) /\ before s (astage a)).
  Proof.
    induction args as [|a args IH]; intro s; cbn [fold_left]; [left; split; [reflexivity|intros a []]|].
    destruct (IH (stage_max s (astage a))) as [[E A]|(b & J & E & A & X)].
    - rewrite E. assert (C : stage_max s (astage a) = s /\ before (astage a) s \/ stage_max s (astage a) = astage a /\ before s (astage a)).
      { destruct s, (astage a); cbn; auto. }
      destruct C as [[C C2]|[C C2]].
      + left. split; [exact C|]. intros b [<-|J]; [exact C2|]. rewrite <- C. now apply A.
      + right. exists a. split; [now left|]. split; [now rewrite C|]. split; [|exact C2]. intros b [<-|J]; [destruct (astage a); exact Logic.I|].
        rewrite <- C. now apply A.
    - right. exists b. split; [now right|]. split; [exact E|].
      assert (C : before s (astage b) /\ before (astage a) (astage b)) by (destruct s, (astage a), (astage b); cbn in *; tauto).
      split; [|exact (proj1 C)]. intros c [<-|K]; [exact (proj2 C)|now apply A].
  Qed.

  Lemma max_static : forall args : list argument, max_stage args = Static -> forall a, In a args -> astage a = Static.
  Proof.
    intros args E a J. unfold max_stage in E. destruct (max_before args Static) as [[_ A]|(b & K & EB & A & _)].
    - specialize (A a J). destruct (astage a); try contradiction A. reflexivity.
    - rewrite E in EB. specialize (A a J). rewrite EB in A. destruct (astage a); try contradiction A. reflexivity.
  Qed.

  Lemma max_query : forall args : list argument, max_stage args = Query -> forall a, In a args -> astage a <> Response.
  Proof.
    intros args E a J. unfold max_stage in E. destruct (max_before args Static) as [[EB A]|(b & K & EB & A & _)].
    - rewrite E in EB. discriminate EB.
    - rewrite E in EB. specialize (A a J). rewrite EB in A. destruct (astage a); try contradiction A; discriminate.
  Qed.

  Lemma max_query_one : forall args : list argument, max_stage args = Query -> exists a, In a args /\ astage a = Query.
  Proof.
    intros args E. unfold max_stage in E. destruct (max_before args Static) as [[EB A]|(b & K & EB & A & _)].
    - rewrite E in EB. discriminate EB.
    - exists b. split; [exact K|]. now rewrite EB.
  Qed.

  (** The resolver of a field gets every argument once. *)
  Theorem C108_resolver : forall args : list argument, Forall (fun a => earliest (avalue a) (astage a)) args ->
    exists given, Forall2 (fun r d => asked args r = Some d) (resolver_rules FieldResolver) given /\ everything args given.
  Proof.
    intros args H. destruct (C108_views args H AskQuery) as (q & E1 & D1). destruct (C108_views args H AskResponse) as (r & E2 & D2).
    exists [q; r]. split; [constructor; [exact E1|constructor; [exact E2|constructor]]|].
    eapply complement_everything; [|exact D1|exact D2]. intros a _. cbn. tauto.
  Qed.

  (** An authorization directive on a field: every argument once. *)
  Theorem C108_authorization : forall args : list argument, Forall (fun a => earliest (avalue a) (astage a)) args ->
    exists rs given, rules OnField args = Some rs /\ Forall2 (fun r d => asked args r = Some d) rs given /\ everything args given.
  Proof.
    intros args H. unfold rules. destruct (max_stage args) eqn:M.
    - destruct (C108_views args H AskStatic) as (q & E1 & D1). exists [AskStatic], [q]. split; [reflexivity|]. split; [constructor; [exact E1|constructor]|].
      eapply all_everything; [|exact D1]. exact (max_static args M).
    - destruct (C108_views args H AskQuery) as (q & E1 & D1). exists [AskQuery], [q]. split; [reflexivity|]. split; [constructor; [exact E1|constructor]|].
      eapply all_everything; [|exact D1]. exact (max_query args M).
    - destruct (C108_views args H AskResponse) as (r & E2 & D2). destruct (existsb (fun a => Nat.eqb (rank (astage a)) 1) args) eqn:X.
      + destruct (C108_views args H AskQuery) as (q & E1 & D1). exists [AskQuery; AskResponse], [q; r]. split; [reflexivity|].
        split; [constructor; [exact E1|constructor; [exact E2|constructor]]|]. eapply complement_everything; [|exact D1|exact D2]. intros a _. cbn. tauto.
      + destruct (C108_views args H AskStatic) as (q & E1 & D1). exists [AskStatic; AskResponse], [q; r]. split; [reflexivity|].
        split; [constructor; [exact E1|constructor; [exact E2|constructor]]|]. eapply complement_everything; [|exact D1|exact D2].
        intros a J. cbn. destruct (astage a) eqn:S1; try (split; congruence). exfalso.
        rewrite (proj2 (existsb_exists _ args)) in X; [discriminate X|]. exists a. split; [exact J|]. now rewrite S1.
  Qed.

  (** On a type: the same, provided that nothing is computed from the arguments of a field. *)
  Theorem C108_types_partial : forall args : list argument, Forall (fun a => earliest (avalue a) (astage a)) args ->
    (forall a, In a args -> astage a <> Query) -> forall s,
    exists rs given, rules s args = Some rs /\ Forall2 (fun r d => asked args r = Some d) rs given /\ everything args given.
  Proof.
    intros args H NQ s. destruct s; [now apply C108_authorization| |].
    all: unfold rules; destruct (max_stage args) eqn:M;
      [|destruct (max_query_one args M) as (a & J & E); contradiction (NQ a J E)|].
    1, 3: destruct (C108_views args H AskStatic) as (q & E1 & D1); exists [AskStatic], [q]; split; [reflexivity|]; split; [constructor; [exact E1|constructor]|];
      eapply all_everything; [|exact D1]; exact (max_static args M).
    all: destruct (C108_views args H AskResponse) as (r & E2 & D2); destruct (C108_views args H AskStatic) as (q & E1 & D1);
      exists [AskStatic; AskResponse], [q; r]; split; [reflexivity|];
      split; [constructor; [exact E1|constructor; [exact E2|constructor]]|]; eapply complement_everything; [|exact D1|exact D2];
      intros a J; specialize (NQ a J); cbn; destruct (astage a); split; congruence.
  Qed.
End Views.

(** *** Examples and witnesses *)

(** [directive @rest(url: UrlTemplate!, opts: Opts, need: FieldSet, pick: Pick, rows: [[Int!]!]) on FIELD_DEFINITION]
    with an input object [Opts], a [@oneOf] input object [Pick], and [input A { a: A = {} }]. *)
Definition ex_specials := [("InputValueSet", SInputValueSet); ("UrlTemplate", SUrlTemplate); ("FieldSet", SFieldSet)].
Definition ex_t (ws : list wrapper) (n : string) : type := {| wrappers := ws; named := n |}.
Definition ex_in (n : string) (t : type) (v : option value) : input := {| iname := n; ity := t; idefault := v |}.
Definition ex_opts := [ex_in "limit" (ex_t [WNonNull] "Int") (Some (VInt 10)); ex_in "tags" (ex_t [WList; WNonNull] "String") None;
  ex_in "body" (ex_t [] "InputValueSet") (Some (VStr "*"))].
Definition ex_pick := [ex_in "a" (ex_t [] "Int") None; ex_in "b" (ex_t [] "String") None].
Definition ex_definitions (n : string) : option definition :=
  if String.eqb n "Opts" then Some (DInput false ex_opts)
  else if String.eqb n "Pick" then Some (DInput true ex_pick)
  else if String.eqb n "A" then Some (DInput false [ex_in "a" (ex_t [] "A") (Some (VObj []))])
  else None.
Definition ex_args := [ex_in "url" (ex_t [WNonNull] "UrlTemplate") None; ex_in "opts" (ex_t [] "Opts") None;
  ex_in "need" (ex_t [] "FieldSet") None; ex_in "pick" (ex_t [] "Pick") None; ex_in "rows" (ex_t [WList; WNonNull; WList; WNonNull] "Int") None].
(** The special scalars are kept as their texts. *)
Definition ex_coerce (on_field : bool) (fuel : nat) : list input -> list (string * value) -> outcome (list (argument string string string) * list string) :=
  coerce_arguments ex_specials ex_definitions on_field "" Some Some (fun _ s => Some s) fuel.

(** The arguments in another order, a default inside an input object, one string for a list of strings, one
    number for a list of lists. *)
Example C107_ex : ex_coerce true 5 ex_args
    [("rows", VInt 7); ("opts", VObj [("tags", VStr "x")]); ("need", VStr "id"); ("url", VStr "/u/{{args.id}}")] =
  Val ([{| aname := "url"; avalue := ETemplate "/u/{{args.id}}"; astage := Query |};
        {| aname := "opts"; avalue := EMap [("limit", EInt 10); ("tags", EList [EStr "x"]); ("body", EValueSet "*")]; astage := Query |};
        {| aname := "need"; avalue := EFieldSet "id"; astage := Response |};
        {| aname := "rows"; avalue := EList [EList [EInt 7]]; astage := Static |}], ["id"]).
Proof. vm_compute. reflexivity. Qed.

(** Refused: the argument that is required is missing; an unknown argument; an argument twice; a list of the
    wrong depth. *)
Example C107_ex_refused : forall args, In args
    [[("need", VStr "id")]; [("url", VStr "/"); ("other", VNull)]; [("url", VStr "/"); ("url", VStr "/")];
     [("url", VStr "/"); ("rows", VList [VInt 7])]; [("url", VNull)]; [("url", VStr "/"); ("pick", VObj [("a", VInt 1); ("b", VStr "")])]] ->
  ex_coerce true 5 ex_args args = Refused.
Proof. intros args H. repeat (destruct H as [<-|H]; [vm_compute; reflexivity|]). destruct H. Qed.

Lemma ex_distinct : forall n one_of defs, ex_definitions n = Some (DInput one_of defs) -> NoDup (map iname defs).
Proof.
  intros n b defs. unfold ex_definitions.
  destruct (String.eqb n "Opts"); [intro H; injection H as <- <-; vm_compute; repeat constructor; cbn; intuition congruence|].
  destruct (String.eqb n "Pick"); [intro H; injection H as <- <-; vm_compute; repeat constructor; cbn; intuition congruence|].
  destruct (String.eqb n "A"); [intro H; injection H as <- <-; vm_compute; repeat constructor; cbn; intuition congruence|discriminate].
Qed.

Notation ex_special_of := (fun n => option_map snd (find (fun s : string * special => String.eqb (fst s) n) ex_specials)).

(** [null] is a value of every nullable list type, and is refused by every one. *)
Theorem C107_null_list_refuted :
  has_type (VS := string) (FS := string) (TPL := string) ex_special_of ex_definitions [WList; WNonNull] "String" ENull /\
  forall fuel, ex_coerce true fuel [ex_in "x" (ex_t [WList; WNonNull] "String") None] [("x", VNull)] = Refused.
Proof.
  split; [apply HtNull; discriminate|]. intro fuel. reflexivity.
Qed.

(** [{a: null}] is accepted for a [@oneOf] input object. *)
Theorem C107_one_of_null_refuted :
  ex_coerce true 5 [ex_in "x" (ex_t [] "Pick") None] [("x", VObj [("a", VNull)])] =
    Val ([{| aname := "x"; avalue := EMap [("a", ENull)]; astage := Static |}], []).
Proof. vm_compute. reflexivity. Qed.

(** A float is accepted for an Int that is not its value; the largest Int is refused when written as a float. *)
Theorem C107_int_refuted :
  (exists m e k l, float_is m e k /\ (k < -2147483648)%Z /\
    ex_coerce true 5 [ex_in "x" (ex_t [] "Int") None] [("x", VFloat m e)] = Val (l, []) /\
    map avalue l = [EInt (-2147483648)]) /\
  float_is 2147483647 0 2147483647 /\
  ex_coerce true 5 [ex_in "x" (ex_t [] "Int") None] [("x", VInt 2147483647)] =
    Val ([{| aname := "x"; avalue := EInt 2147483647; astage := Static |}], []) /\
  ex_coerce true 5 [ex_in "x" (ex_t [] "Int") None] [("x", VFloat 2147483647 0)] = Refused.
Proof.
  split; [|split; [|split]].
  - exists (-3)%Z, 40%Z, (-3 * 2 ^ 40)%Z. eexists. split; [left; split; [lia|reflexivity]|]. split; [reflexivity|].
    split; [vm_compute; reflexivity|reflexivity].
  - left. split; [lia|reflexivity].
  - vm_compute. reflexivity.
  - vm_compute. reflexivity.
Qed.

(** A default value that needs itself: however deep the recursion may go, it goes deeper. *)
Theorem C107_cycle_refuted : forall fuel,
  ex_coerce true fuel [ex_in "x" (ex_t [] "A") None] [("x", VObj [])] = Overflow.
Proof.
  assert (G : forall fuel, coerce_named (VS := string) (FS := string) (TPL := string) ex_specials ex_definitions true "" Some Some (fun _ s => Some s) fuel false "A" (VObj []) = Overflow).
  { induction fuel as [|fuel IH]; [reflexivity|].
    transitivity (coerce_object (coerce_named (VS := string) (FS := string) (TPL := string) ex_specials ex_definitions true "" Some Some (fun _ s => Some s) fuel false)
      false [ex_in "a" (ex_t [] "A") (Some (VObj []))] (VObj [])); [reflexivity|].
    unfold coerce_object. cbn [coerce_fields position]. cbn. rewrite IH. reflexivity. }
  intro fuel. unfold ex_coerce. cbn. rewrite G. reflexivity.
Qed.

(** What the extension sees of the arguments of [C107_ex]. *)
Definition ex_given (r : rule) (args : list (argument string string string)) : option (list (string * data)) :=
  asked (fun _ => NMap [("id", NInt 1)]) (fun _ => "/u/1") (fun _ => NMap [("id", NStr "p")]) args r.

Example C108_ex : forall l r, ex_coerce true 5 ex_args
    [("rows", VInt 7); ("opts", VObj [("limit", VInt 1)]); ("need", VStr "id"); ("url", VStr "/u/{{args.id}}")] = Val (l, r) ->
  ex_given AskStatic l = Some [("rows", NList [NList [NInt 7]])] /\
  ex_given AskQuery l = Some [("url", NStr "/u/1"); ("opts", NMap [("limit", NInt 1); ("body", NMap [("id", NInt 1)])]); ("rows", NList [NList [NInt 7]])] /\
  ex_given AskResponse l = Some [("need", NMap [("id", NStr "p")])].
Proof. intros l r H. vm_compute in H. injection H as <- <-. vm_compute. auto. Qed.

(** A template in the arguments of an authorization directive on an object type is accepted, and then there
    is no rule: [unreachable!]. *)
Theorem C108_types_panic_refuted : exists l r,
  ex_coerce false 5 ex_args [("url", VStr "/static")] = Val (l, r) /\ rules OnParent l = None /\ rules OnOutput l = None.
Proof. eexists _, _. split; [vm_compute; reflexivity|]. split; reflexivity. Qed.

(** Together with a field set the template is silently left out. *)
Theorem C108_types_dropped_refuted : exists l r rs,
  ex_coerce false 5 ex_args [("url", VStr "/static"); ("need", VStr "id")] = Val (l, r) /\
  rules OnParent l = Some rs /\
  forall x, In x rs -> forall ds, ex_given x l = Some ds -> ~ In "url" (map fst ds).
Proof.
  eexists _, _, _. split; [vm_compute; reflexivity|]. split; [reflexivity|]. intros x [<-|[<-|[]]] ds H.
  - vm_compute in H. injection H as <-. intros [].
  - vm_compute in H. injection H as <-. intros [X|[]]. discriminate X.
Qed.

(** The resolver of a subscription field does not get the arguments that need the response, and a resolver of
    the new kind gets only those that are known statically. *)
Theorem C108_resolvers_refuted : exists l r,
  ex_coerce true 5 ex_args [("url", VStr "/"); ("need", VStr "id")] = Val (l, r) /\ List.length l = 2 /\
  (forall x, In x (resolver_rules SubscriptionResolver) -> forall ds, ex_given x l = Some ds -> map fst ds = ["url"]) /\
  (forall x, In x (resolver_rules NewResolver) -> ex_given x l = Some []).
Proof.
  eexists _, _. split; [vm_compute; reflexivity|]. split; [reflexivity|]. split.
  - intros x [<-|[]] ds H. vm_compute in H. injection H as <-. reflexivity.
  - intros x [<-|[]]. reflexivity.
Qed.
