(** Graph references: graph@branch#version (C35).

    Modelled code: crates/graph-ref/src/lib.rs. A string is the list of its bytes;
    the separators are ASCII, so cutting bytes is cutting characters. *)

From Coq Require Import List Bool String Ascii.
Import ListNotations.
Local Open Scope string_scope.

(** ** Model *)

(** lib.rs 5-18. *)
Inductive graph_ref :=
| LatestProductionVersion (graph_slug : string)
| LatestVersion (graph_slug branch_name : string)
| Id (graph_slug branch_name version : string).

(** lib.rs 42-64. *)
Definition slug (r : graph_ref) : string := match r with LatestProductionVersion s | LatestVersion s _ | Id s _ _ => s end.
Definition branch (r : graph_ref) : option string :=
  match r with LatestProductionVersion _ => None | LatestVersion _ b | Id _ b _ => Some b end.
Definition version (r : graph_ref) : option string := match r with Id _ _ v => Some v | _ => None end.

(** str::split_once. *)
Fixpoint split_once (c : ascii) (s : string) : option (string * string) :=
  match s with
  | "" => None
  | String x r =>
      if Ascii.eqb x c then Some ("", r)
      else match split_once c r with Some (a, b) => Some (String x a, b) | None => None end
  end.

(** str::contains. *)
Fixpoint contains (s : string) (c : ascii) : bool :=
  match s with "" => false | String x r => (Ascii.eqb x c || contains r c)%bool end.

Inductive result := Ok (r : graph_ref) | Err (message : string).

(** lib.rs 93-106. *)
Definition did_you_mean (g : graph_ref) : string :=
  match split_once "/" (slug g) with
  | None => ""
  | Some (_, graph_slug) =>
      if graph_slug =? "" then ""
      else
        let branch_name := match branch g with Some b => "@" ++ b | None => "" end in
        let version := match version g with Some v => "#" ++ v | None => "" end in
        " Did you mean: """ ++ graph_slug ++ branch_name ++ version ++ """"
  end.

(** lib.rs 70-114. *)
Definition from_str (s : string) : result :=
  let graph :=
    match split_once "@" s with
    | Some (graph_slug, rest) =>
        match split_once "#" rest with
        | Some (branch_name, version) => Id graph_slug branch_name version
        | None => LatestVersion graph_slug rest
        end
    | None => LatestProductionVersion s
    end in
  if slug graph =? "" then Err "The graph name is missing."
  else if contains (slug graph) "/" then Err ("Graph ref should not contain an account name." ++ did_you_mean graph)
  else Ok graph.

(** lib.rs 117-133. *)
Definition display (r : graph_ref) : string :=
  slug r ++ match branch r with Some b => "@" ++ b | None => "" end ++ match version r with Some v => "#" ++ v | None => "" end.

(** ** Specification *)

Definition free (c : ascii) (s : string) : Prop := ~ In c (list_ascii_of_string s).

(** The references that have a text of their own. *)
Definition well_formed (r : graph_ref) : Prop :=
  match r with
  | LatestProductionVersion g => g <> "" /\ free "@" g /\ free "/" g
  | LatestVersion g b | Id g b _ => g <> "" /\ free "@" g /\ free "/" g /\ free "#" b
  end.

(** ** Facts on strings *)

Lemma app_empty : forall s, s ++ "" = s.
Proof. induction s as [|c s IH]; cbn; congruence. Qed.

Lemma app_assoc' : forall a b c, (a ++ b) ++ c = a ++ (b ++ c).
Proof. induction a as [|x a IH]; intros; cbn; congruence. Qed.

Lemma split_once_spec : forall c s, match split_once c s with
  | Some (a, b) => s = a ++ String c b /\ free c a
  | None => free c s
  end.
Proof.
  intros c. unfold free. induction s as [|x s IH]; cbn; [auto|]. destruct (Ascii.eqb_spec x c) as [->|N].
  - cbn. auto.
  - destruct (split_once c s) as [[a b]|]; cbn.
    + destruct IH as [-> F]. split; [reflexivity|]. intros [H|H]; auto.
    + intros [H|H]; auto.
Qed.

Lemma split_once_found : forall c a b, free c a -> split_once c (a ++ String c b) = Some (a, b).
Proof.
  intros c a b F. unfold free in F. induction a as [|x a IH]; cbn; [rewrite Ascii.eqb_refl; reflexivity|].
  cbn in F. destruct (Ascii.eqb_spec x c); [tauto|]. rewrite IH by tauto. reflexivity.
Qed.

Lemma split_once_free : forall c s, free c s -> split_once c s = None.
Proof.
  intros c s F. unfold free in F. induction s as [|x s IH]; [reflexivity|]. cbn in *.
  destruct (Ascii.eqb_spec x c); [tauto|]. rewrite IH by tauto. reflexivity.
Qed.

Lemma contains_free : forall c s, contains s c = false <-> free c s.
Proof.
  intros c s. unfold free. induction s as [|x s IH]; cbn; [tauto|]. rewrite orb_false_iff, Ascii.eqb_neq, IH. tauto.
Qed.

(** ** C35 *)

Definition parse (s : string) : graph_ref :=
  match split_once "@" s with
  | Some (g, rest) => match split_once "#" rest with Some (b, v) => Id g b v | None => LatestVersion g rest end
  | None => LatestProductionVersion s
  end.

Lemma from_str_eq : forall s, from_str s =
  if slug (parse s) =? "" then Err "The graph name is missing."
  else if contains (slug (parse s)) "/" then Err ("Graph ref should not contain an account name." ++ did_you_mean (parse s))
  else Ok (parse s).
Proof. reflexivity. Qed.

Lemma display_parse : forall s, display (parse s) = s.
Proof.
  intros s. unfold parse. assert (A := split_once_spec "@" s). destruct (split_once "@" s) as [[g rest]|].
  - destruct A as [-> _]. assert (B := split_once_spec "#" rest). destruct (split_once "#" rest) as [[b v]|].
    + destruct B as [-> _]. unfold display. cbn. reflexivity.
    + unfold display. cbn. rewrite app_empty. reflexivity.
  - unfold display. cbn. rewrite app_empty. reflexivity.
Qed.

Lemma from_str_ok : forall s r, from_str s = Ok r -> r = parse s /\ slug r <> "" /\ free "/" (slug r).
Proof.
  intros s r H. rewrite from_str_eq in H.
  destruct (String.eqb_spec (slug (parse s)) ""); [discriminate|].
  destruct (contains (slug (parse s)) "/") eqn:C; [discriminate|]. injection H as <-. apply contains_free in C. auto.
Qed.

(** Printing what was parsed gives the text back, to the byte. *)
Theorem C35_parse_print : forall s r, from_str s = Ok r -> display r = s.
Proof. intros s r H. apply from_str_ok in H. destruct H as [-> _]. apply display_parse. Qed.

(** A reference obtained by parsing is parsed to itself again. *)
Theorem C35_print_parse : forall s r, from_str s = Ok r -> from_str (display r) = Ok r.
Proof. intros s r H. rewrite (C35_parse_print s r H). exact H. Qed.

(** More generally, exactly the well-formed references survive printing and parsing. *)
Theorem C35_exact : forall r, from_str (display r) = Ok r <-> well_formed r.
Proof.
  intros r. split.
  - intros H. destruct (from_str_ok _ _ H) as (E & N & F). unfold parse in E.
    assert (A := split_once_spec "@" (display r)). destruct (split_once "@" (display r)) as [[g rest]|].
    + destruct A as [_ A]. assert (B := split_once_spec "#" rest). destruct (split_once "#" rest) as [[b v]|]; subst r; cbn in *; tauto.
    + destruct r as [h|h b|h b v]; try discriminate. unfold display in A. cbn in *. rewrite app_empty in A. tauto.
  - intros W.
    assert (P : parse (display r) = r).
    { unfold parse, display. destruct r as [g|g b|g b v]; cbn [slug branch version well_formed] in *.
      - rewrite app_empty. destruct W as (_ & A & _). rewrite split_once_free by exact A. reflexivity.
      - rewrite app_empty. destruct W as (_ & A & _ & B). cbn [append]. rewrite split_once_found by exact A.
        rewrite split_once_free by exact B. reflexivity.
      - destruct W as (_ & A & _ & B). cbn [append]. rewrite split_once_found by exact A.
        rewrite split_once_found by exact B. reflexivity. }
    rewrite from_str_eq. rewrite P.
    assert (S : slug r <> "" /\ free "/" (slug r)) by (destruct r; cbn in *; tauto).
    destruct S as [N F]. apply String.eqb_neq in N. apply contains_free in F. rewrite N, F. reflexivity.
Qed.

(** Different references in well-formed use have different texts. *)
Theorem C35_injective : forall r r', well_formed r -> well_formed r' -> display r = display r' -> r = r'.
Proof.
  intros r r' W W' E. apply C35_exact in W. apply C35_exact in W'. congruence.
Qed.

(** Which texts are accepted: those with a graph name, without a slash, before the first @. *)
Theorem C35_accepted : forall s, (exists r, from_str s = Ok r) <->
  exists g rest, s = g ++ rest /\ g <> "" /\ free "@" g /\ free "/" g /\ (rest = "" \/ exists t, rest = String "@" t).
Proof.
  intros s. split.
  - intros (r & H). destruct (from_str_ok _ _ H) as (E & N & F). unfold parse in E.
    assert (A := split_once_spec "@" s). destruct (split_once "@" s) as [[g rest]|].
    + destruct A as [-> A]. exists g, (String "@" rest). split; [reflexivity|].
      assert (G : slug r = g) by (destruct (split_once "#" rest) as [[b v]|]; subst r; reflexivity). rewrite G in *. eauto 8.
    + subst r. exists s, "". cbn in *. rewrite app_empty. auto 8.
  - intros (g & rest & -> & N & A & F & R). rewrite from_str_eq.
    assert (G : slug (parse (g ++ rest)) = g).
    { unfold parse. destruct R as [->|(t & ->)].
      - rewrite app_empty, split_once_free by exact A. reflexivity.
      - rewrite split_once_found by exact A. destruct (split_once "#" t) as [[b v]|]; reflexivity. }
    rewrite G. apply String.eqb_neq in N. apply contains_free in F. rewrite N, F. eauto.
Qed.

(** What the error message proposes is accepted, unless the name has a second slash. *)
Theorem C35_suggestion : forall a g rest, free "@" a -> free "/" a -> g <> "" -> free "@" g -> free "/" g ->
  (rest = "" \/ exists t, rest = String "@" t) ->
  from_str (a ++ "/" ++ g ++ rest) =
    Err ("Graph ref should not contain an account name. Did you mean: """ ++ (g ++ rest) ++ """") /\
  exists r, from_str (g ++ rest) = Ok r.
Proof.
  intros a g rest Aa Sa N Ag Sg R. split.
  2: { apply C35_accepted. exists g, rest. auto 8. }
  assert (Fa : free "@" (a ++ "/" ++ g)).
  { unfold free in *. clear - Aa Ag. induction a as [|x a IH]; cbn in *; [intros [H|H]; [discriminate|auto]|]. intros [H|H]; [auto|].
    apply IH; auto. }
  assert (P : exists p, parse (a ++ "/" ++ g ++ rest) = p /\ slug p = a ++ "/" ++ g /\
    match branch p with Some b => "@" ++ b | None => "" end ++ match version p with Some v => "#" ++ v | None => "" end = rest).
  { replace (a ++ "/" ++ g ++ rest) with ((a ++ "/" ++ g) ++ rest) by (rewrite app_assoc'; reflexivity).
    unfold parse. destruct R as [->|(t & ->)].
    - rewrite app_empty, split_once_free by exact Fa. eexists. split; [reflexivity|]. split; reflexivity.
    - rewrite split_once_found by exact Fa. assert (B := split_once_spec "#" t). destruct (split_once "#" t) as [[b v]|].
      + destruct B as [-> _]. eexists. split; [reflexivity|]. split; reflexivity.
      + eexists. split; [reflexivity|]. split; [reflexivity|]. cbn. rewrite app_empty. reflexivity. }
  destruct P as (p & P & S & B). rewrite from_str_eq. rewrite P, S.
  assert (E : (a ++ "/" ++ g =? "") = false).
  { apply String.eqb_neq. destruct a; discriminate. }
  rewrite E.
  assert (C : contains (a ++ "/" ++ g) "/" = true).
  { clear. induction a as [|x a IH]; [reflexivity|]. cbn in *. rewrite IH. apply orb_true_r. }
  rewrite C. unfold did_you_mean. rewrite S.
  change (a ++ "/" ++ g) with (a ++ String "/" g). rewrite split_once_found by exact Sa.
  apply String.eqb_neq in N. rewrite N. cbv zeta.
  rewrite !app_assoc'. rewrite <- B. rewrite !app_assoc'. reflexivity.
Qed.

(** References can be built that print as another one, or as nothing that can be parsed. *)
Theorem C35_constructed_refuted : exists r r', r <> r' /\ from_str (display r) = Ok r'.
Proof. exists (LatestVersion "g" "b#v"), (Id "g" "b" "v"). split; [discriminate|reflexivity]. Qed.

(** The proposal of the error message may be refused for the same reason. *)
Theorem C35_suggestion_refuted : exists s, from_str ("a/" ++ s) =
    Err ("Graph ref should not contain an account name. Did you mean: """ ++ s ++ """") /\
  exists m, from_str s = Err m.
Proof. exists "b/c@d". split; [reflexivity|]. eexists. reflexivity. Qed.

Example C35_example :
  from_str "my-graph@feature/x@1#v#2" = Ok (Id "my-graph" "feature/x@1" "v#2") /\
  from_str "g@" = Ok (LatestVersion "g" "") /\ from_str "g#1" = Ok (LatestProductionVersion "g#1") /\
  from_str "@main" = Err "The graph name is missing." /\ display (Id "g" "" "") = "g@#".
Proof. repeat split. Qed.
