(** C124, continued: settings, examples, and what is not so. *)
From Coq Require Import List Bool Ascii String NArith Lia.
From Verif.Cors Require Import Model Spec Properties.
Import ListNotations.
Open Scope string_scope.
Open Scope list_scope.

(** Everything is meant by one of two words alone, not by a list with one of them. *)
Theorem C124_any : forall A (parse : string -> option A) v,
  read_any_or parse v = Some Any <-> v = Text "*" \/ v = Text "any".
Proof.
  intros A parse [s|l]; cbn [read_any_or].
  - destruct (String.eqb s "*") eqn:E1; [apply String.eqb_eq in E1; subst s; cbn [orb]; tauto|].
    destruct (String.eqb s "any") eqn:E2; [apply String.eqb_eq in E2; subst s; cbn [orb]; tauto|]. cbn [orb].
    apply String.eqb_neq in E1. apply String.eqb_neq in E2.
    split; [destruct (parse s); discriminate|]. intros [H|H]; injection H as H; contradiction.
  - split; [destruct (read_each parse l); discriminate|intros [H|H]; discriminate].
Qed.

Lemma read_each_spec : forall A (parse : string -> option A) l r,
  read_each parse l = Some r <-> Forall2 (fun s a => parse s = Some a) l r.
Proof.
  intros A parse. induction l as [|s l IH]; intros r; cbn [read_each].
  - split; [intros H; injection H as <-; constructor|intros H; inversion H; reflexivity].
  - split.
    + destruct (parse s) as [a|] eqn:P; [|discriminate]. destruct (read_each parse l) as [r'|]; [|discriminate].
      intros H. injection H as <-. constructor; [exact P|]. apply IH. reflexivity.
    + intros H. inversion H as [|s' a l' r' P F]; subst. apply IH in F. rewrite P, F. reflexivity.
Qed.

(** All else is the list of what is there. *)
Theorem C124_explicit : forall A (parse : string -> option A) v r,
  read_any_or parse v = Some (Explicit r) <->
  exists l, (v = Texts l \/ (exists s, v = Text s /\ l = [s] /\ s <> "*" /\ s <> "any")) /\ Forall2 (fun s a => parse s = Some a) l r.
Proof.
  intros A parse v r. split.
  - destruct v as [s|l]; cbn [read_any_or]; intros H.
    + destruct (String.eqb s "*") eqn:E1; [discriminate|]. destruct (String.eqb s "any") eqn:E2; [discriminate|]. cbn [orb] in H.
      apply String.eqb_neq in E1. apply String.eqb_neq in E2. destruct (parse s) as [a|] eqn:P; [|discriminate]. injection H as <-.
      exists [s]. split; [right; exists s; tauto|]. constructor; [exact P|constructor].
    + destruct (read_each parse l) as [x|] eqn:E; [|discriminate]. injection H as ->. exists l. split; [left; reflexivity|].
      apply read_each_spec, E.
  - intros (l & [->|(s & -> & -> & N1 & N2)] & F); apply read_each_spec in F; cbn [read_any_or].
    + rewrite F. reflexivity.
    + apply String.eqb_neq in N1. apply String.eqb_neq in N2. rewrite N1, N2. cbn [orb]. cbn [read_each] in F.
      destruct (parse s); [|discriminate]. congruence.
Qed.

(** * What is not so *)

(** A pattern with a class of characters, and no other wildcard, matches texts with one character in its place. *)
Definition ClassIsOneCharacter (glob : string -> string -> bool) : Prop :=
  forall a class b text, ~ Wild a -> ~ Wild class -> ~ Wild b ->
    glob (a ++ "[" ++ class ++ "]" ++ b)%string text = true -> exists c, text = (a ++ String c b)%string.

Definition only (s : string) : cors :=
  {| allow_credentials := false; allow_origins := Some (Explicit [{| u_origin := s; u_rest := "/" |}]); max_age := None;
     allow_methods := None; allow_headers := None; expose_headers := None; allow_private_network := false |}.

Definition local : string := "http://[::1]:3000".

(** Not so: an origin that is listed is permitted. Addresses of version 6 are in brackets, and so they are patterns. *)
Theorem C124_ipv6_refuted : forall glob, ClassIsOneCharacter glob ->
  exists c l u g, build glob (Some c) = Some l /\ allow_origins c = Some (Explicit [u]) /\ u_origin u = g_origin g /\
    g_credentials g = false /\ ~ Check g (respond l (actual g)).
Proof.
  intros glob H. exists (only local). eexists. eexists.
  exists {| g_origin := local; g_method := "GET"; g_headers := []; g_credentials := false |}.
  split; [reflexivity|]. split; [reflexivity|]. split; [reflexivity|]. split; [reflexivity|].
  intros C. apply (check_spec glob (Some (only local)) _ _ (actual _) eq_refl eq_refl) in C; [|discriminate].
  cbn [PermitsOrigin only allow_origins g_origin] in C. destruct C as [(u & [<-|[]] & [[W _]|[_ G]]) _].
  - apply W. apply has_wild_spec. reflexivity.
  - cbn [u_origin] in G. destruct (H "http://" "::1" ":3000" local) as (c & E).
    + apply has_wild_false. reflexivity.
    + apply has_wild_false. reflexivity.
    + apply has_wild_false. reflexivity.
    + exact G.
    + discriminate E.
Qed.

(** And origins that nobody listed are permitted: the host of this one is 1. *)
Theorem C124_ipv6_other_refuted : forall glob, glob local "http://1:3000" = true ->
  exists c l u g, build glob (Some c) = Some l /\ allow_origins c = Some (Explicit [u]) /\ u_origin u = local /\
    g_origin g = "http://1:3000" /\ Check g (respond l (actual g)).
Proof.
  intros glob H. exists (only local). eexists. eexists.
  exists {| g_origin := "http://1:3000"; g_method := "GET"; g_headers := []; g_credentials := false |}.
  split; [reflexivity|]. split; [reflexivity|]. split; [reflexivity|]. split; [reflexivity|].
  apply (check_spec glob (Some (only local)) _ _ (actual _) eq_refl eq_refl); [discriminate|].
  cbn [PermitsOrigin only allow_origins g_origin]. split; [|discriminate]. eexists. split; [left; reflexivity|]. right.
  split; [apply has_wild_spec; reflexivity|exact H].
Qed.

(** Not so: if all headers are allowed, a page can send all headers. It cannot authenticate. *)
Theorem C124_authorization_refuted : exists c g, forall glob, exists l,
  build glob (Some c) = Some l /\ allow_origins c = Some Any /\ allow_methods c = Some Any /\ allow_headers c = Some Any /\
  g_headers g = ["authorization"] /\ g_credentials g = false /\ ~ Sends l g.
Proof.
  set (c := {| allow_credentials := false; allow_origins := Some Any; max_age := None; allow_methods := Some Any;
               allow_headers := Some Any; expose_headers := None; allow_private_network := false |}).
  exists c, {| g_origin := "https://a.b"; g_method := "POST"; g_headers := ["authorization"]; g_credentials := false |}.
  intros glob. eexists. split; [reflexivity|]. split; [reflexivity|]. split; [reflexivity|]. split; [reflexivity|].
  split; [reflexivity|]. split; [reflexivity|]. intros [[_ H]|P]; [discriminate|].
  apply (C124_preflight glob (Some c) _ _ eq_refl) in P; [|discriminate]. destruct P as (_ & _ & P).
  destruct (P "authorization" (or_introl eq_refl)) as [H|[_ H]]; [discriminate|]. apply H. reflexivity.
Qed.

(** Not so: a configuration that is read does not crash the gateway. *)
Theorem C124_starts_refuted : forall glob, exists c1 c2,
  (allow_credentials c1 = true /\ allow_origins c1 = Some Any /\ build glob (Some c1) = None) /\
  (allow_credentials c2 = false /\ allow_headers c2 = Some (Explicit ["x a"]) /\ build glob (Some c2) = None).
Proof.
  intros glob.
  exists {| allow_credentials := true; allow_origins := Some Any; max_age := None; allow_methods := None;
            allow_headers := None; expose_headers := None; allow_private_network := false |},
    {| allow_credentials := false; allow_origins := None; max_age := None; allow_methods := None;
       allow_headers := Some (Explicit ["x a"]); expose_headers := None; allow_private_network := false |}.
  split; (split; [reflexivity|split; reflexivity]).
Qed.

(** Not so: without the protection, what reaches the graph is permitted. A form of any page is sent, whatever is configured. *)
Theorem C124_no_csrf_refuted : exists c g, forall glob, exists l,
  build glob (Some c) = Some l /\ Sends l g /\ reaches None (actual g) = true /\ ~ Permits glob (Some c) g.
Proof.
  exists (only "https://a.b"), {| g_origin := "https://evil"; g_method := "POST"; g_headers := []; g_credentials := true |}.
  intros glob. eexists. split; [reflexivity|]. split; [left; split; [right; right; reflexivity|reflexivity]|]. split; [reflexivity|].
  intros ((_ & H) & _). cbn in H. discriminate H. reflexivity.
Qed.

(** * Examples *)

Definition strict : cors :=
  {| allow_credentials := true; allow_origins := Some (Explicit [{| u_origin := "https://a.b"; u_rest := "/app" |}; {| u_origin := "https://*.c.d"; u_rest := "/" |}]);
     max_age := Some 60%N; allow_methods := Some (Explicit ["POST"; "PUT"]); allow_headers := Some (Explicit ["X-Grafbase-CSRF-Protection"; "Authorization"]);
     expose_headers := Some (Explicit ["X-Trace"]); allow_private_network := false |}.

(** Patterns that begin with the scheme and an asterisk. *)
Fixpoint ends (t s : string) : bool := String.eqb t s || match s with EmptyString => false | String _ r => ends t r end.
Definition subdomains (p s : string) : bool := String.prefix "https://*" p && String.prefix "https://" s && ends (String.substring 9 100 p) s.

Example ex_strict : exists l, build subdomains (Some strict) = Some l /\
  respond l (preflight {| g_origin := "https://x.c.d"; g_method := "PUT"; g_headers := []; g_credentials := true |}) =
  {| a_origin := Some "https://x.c.d"; a_credentials := true; a_methods := ["POST"; "PUT"]; a_headers := ["x-grafbase-csrf-protection"; "authorization"];
     a_expose := []; a_max_age := Some 60%N; a_private := false |}.
Proof. eexists. split; vm_compute; reflexivity. Qed.

Example ex_refused : exists l, build subdomains (Some strict) = Some l /\
  a_origin (respond l (preflight {| g_origin := "https://x.c.e"; g_method := "PUT"; g_headers := []; g_credentials := true |})) = None.
Proof. eexists. split; vm_compute; reflexivity. Qed.

Example ex_permits : Permits subdomains (Some strict)
  {| g_origin := "https://x.c.d"; g_method := "PUT"; g_headers := ["x-grafbase-csrf-protection"]; g_credentials := true |}.
Proof.
  split; [|split].
  - split; [|reflexivity]. eexists. split; [right; left; reflexivity|]. right. split; [apply has_wild_spec; reflexivity|reflexivity].
  - right. left. right. left. reflexivity.
  - intros h [<-|[]]. left. eexists. split; [left; reflexivity|]. apply lower_spec. reflexivity.
Qed.

(** A matcher with classes of characters; [inside]: in a class, and whether the character is in it. *)
Fixpoint classes (inside : option bool) (p t : string) : bool :=
  match p with
  | EmptyString => match inside with None => String.eqb t "" | Some _ => false end
  | String c p' =>
    match inside, t with
    | _, EmptyString => false
    | None, String d t' => if Ascii.eqb c "[" then classes (Some false) p' t else Ascii.eqb c d && classes None p' t'
    | Some m, String d t' => if Ascii.eqb c "]" then m && classes None p' t' else classes (Some (m || Ascii.eqb c d)) p' t
    end
  end.

Lemma classes_plain : forall b t, has_wild b = false -> classes None b t = true -> t = b.
Proof.
  induction b as [|c b IH]; intros t W H; cbn [classes] in H; [apply String.eqb_eq, H|].
  destruct t as [|d t]; [discriminate|]. cbn [has_wild] in W. apply orb_false_iff in W. destruct W as [W1 W2].
  destruct (Ascii.eqb c "[") eqn:E; [apply Ascii.eqb_eq in E; subst c; discriminate|].
  apply andb_true_iff in H. destruct H as [H1 H2]. apply Ascii.eqb_eq in H1. subst d. rewrite (IH t W2 H2). reflexivity.
Qed.

Lemma classes_inside : forall class m b t, has_wild class = false -> has_wild b = false ->
  classes (Some m) (class ++ String "]" b)%string t = true -> exists c, t = String c b.
Proof.
  induction class as [|x class IH]; intros m b t W1 W2 H; cbn [String.append classes] in H; (destruct t as [|d t]; [discriminate|]).
  - change (Ascii.eqb "]" "]") with true in H. cbv iota in H. apply andb_true_iff in H. destruct H as [_ H].
    exists d. rewrite (classes_plain _ _ W2 H). reflexivity.
  - cbn [has_wild] in W1. apply orb_false_iff in W1. destruct W1 as [W W1].
    destruct (Ascii.eqb x "]") eqn:E; [apply Ascii.eqb_eq in E; subst x; discriminate|]. apply (IH _ _ _ W1 W2 H).
Qed.

(** What is assumed of patterns is so of this matcher. *)
Example ex_classes : ClassIsOneCharacter (classes None) /\ classes None local "http://1:3000" = true /\ classes None local local = false.
Proof.
  split; [|split; vm_compute; reflexivity]. intros a class b text Wa Wc Wb. apply has_wild_false in Wa, Wc, Wb. revert text Wa.
  induction a as [|x a IH]; intros text Wa H.
  - cbn [String.append classes] in H. destruct text as [|d t]; [discriminate|]. change (Ascii.eqb "[" "[") with true in H. cbv iota in H.
    apply (classes_inside _ _ _ _ Wc Wb H).
  - cbn [has_wild] in Wa. apply orb_false_iff in Wa. destruct Wa as [W Wa]. cbn [String.append classes] in H.
    destruct text as [|d t]; [discriminate|]. destruct (Ascii.eqb x "[") eqn:E; [apply Ascii.eqb_eq in E; subst x; discriminate|].
    apply andb_true_iff in H. destruct H as [H1 H2]. apply Ascii.eqb_eq in H1. subst d. destruct (IH t Wa H2) as (c & ->). exists c. reflexivity.
Qed.
