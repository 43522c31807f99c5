(** Reading back: the lexer on written pieces, the parser on tokens of a syntax tree. *)
From Coq Require Import String Ascii List Arith Bool Lia.
From Verif.Outgoing Require Import Model Spec.
Import ListNotations.
Local Open Scope string_scope.
Local Open Scope nat_scope.
Local Open Scope list_scope.

(** ** Lexing *)
Definition delim (r : string) : Prop :=
  match r with EmptyString => True | String c _ => name_char c = false end.

Definition prep (ts : list tok) (r : option (list tok)) : option (list tok) :=
  match r with Some l => Some (ts ++ l) | None => None end.

Definition lexes (s : string) (ts : list tok) : Prop :=
  forall r, delim r -> lex "" (s ++ r)%string = prep ts (lex "" r).
Definition closed (s : string) (ts : list tok) : Prop :=
  forall r, lex "" (s ++ r)%string = prep ts (lex "" r).
Definition dstart (s : string) : Prop := delim s.

Lemma sapp_assoc a b c : ((a ++ b) ++ c = a ++ (b ++ c))%string.
Proof. induction a; simpl; congruence. Qed.
Lemma sapp_nil a : (a ++ "" = a)%string.
Proof. induction a; simpl; congruence. Qed.

Lemma prep_prep a b r : prep a (prep b r) = prep (a ++ b) r.
Proof. destruct r; simpl; [now rewrite app_assoc|reflexivity]. Qed.
Lemma prep_nil r : prep [] r = r.
Proof. now destruct r. Qed.

Lemma closed_lexes s ts : closed s ts -> lexes s ts.
Proof. intros H r _. apply H. Qed.

Lemma delim_app b r : dstart b -> delim r -> delim (b ++ r).
Proof. now destruct b. Qed.

Lemma lexes_app a b ta tb : lexes a ta -> lexes b tb -> dstart b -> lexes (a ++ b) (ta ++ tb).
Proof.
  intros H K D r E. rewrite sapp_assoc, H by now apply delim_app.
  now rewrite K, prep_prep.
Qed.

Lemma closed_app a b ta tb : closed a ta -> lexes b tb -> lexes (a ++ b) (ta ++ tb).
Proof. intros H K r E. rewrite sapp_assoc, H, K by trivial. now rewrite prep_prep. Qed.

Lemma closed_closed a b ta tb : closed a ta -> closed b tb -> closed (a ++ b) (ta ++ tb).
Proof. intros H K r. now rewrite sapp_assoc, H, K, prep_prep. Qed.

Lemma lexes_closed a b ta tb : lexes a ta -> closed b tb -> dstart b -> b <> "" -> closed (a ++ b) (ta ++ tb).
Proof.
  intros H K D N r. rewrite sapp_assoc, H.
  - now rewrite K, prep_prep.
  - destruct b; [easy|exact D].
Qed.

Lemma closed_nil : closed "" [].
Proof. intros r. cbn [append]. now rewrite prep_nil. Qed.

Lemma lex_flush cur r : delim r -> lex cur r = flush cur (lex "" r).
Proof.
  destruct r as [|c r]; cbn [lex delim].
  - reflexivity.
  - intros ->.
    assert (F : forall x, flush cur x = flush cur (flush "" x)) by (intros [|]; reflexivity).
    destruct (ignored c); [apply F|].
    destruct (Ascii.eqb c ".").
    + destruct r as [|d [|e r]]; try reflexivity.
      destruct (Ascii.eqb d "." && Ascii.eqb e "."); [apply F|reflexivity].
    + destruct (punct_of c); [apply F|reflexivity].
Qed.

Lemma lex_name s : forall cur r, cur <> "" -> forall_chars name_char s = true ->
  lex cur (s ++ r)%string = lex (cur ++ s)%string r.
Proof.
  induction s as [|c s IH]; intros cur r N H.
  - now rewrite sapp_nil.
  - cbn [forall_chars] in H. apply andb_prop in H as [H1 H2].
    cbn [append lex]. rewrite H1.
    destruct cur as [|d cur]; [easy|].
    rewrite IH by (easy || trivial). now rewrite sapp_assoc.
Qed.

Lemma letter_not_digit c : letter c = true -> digit c = false.
Proof.
  unfold letter, digit, between.
  destruct (Nat.leb (code "0") (code c)) eqn:A; [|reflexivity].
  destruct (Nat.leb (code c) (code "9")) eqn:B; [|reflexivity].
  intros H. exfalso.
  apply Nat.leb_le in A, B. change (code "0") with 48 in A. change (code "9") with 57 in B.
  apply orb_prop in H as [H|H].
  - apply orb_prop in H as [H|H]; apply andb_prop in H as [H _]; apply Nat.leb_le in H;
      [change (code "a") with 97 in H|change (code "A") with 65 in H]; lia.
  - apply Ascii.eqb_eq in H. subst c. change (code "_") with 95 in B. lia.
Qed.

Lemma lexes_name s : is_name s = true -> lexes s [TkName s].
Proof.
  destruct s as [|c s]; [easy|]. cbn [is_name]. intros H r D.
  apply andb_prop in H as [H1 H2].
  cbn [append lex]. unfold name_char at 1. rewrite H1. cbn [orb].
  rewrite (letter_not_digit c H1).
  rewrite lex_name by (easy || trivial).
  rewrite lex_flush by trivial.
  now destruct (lex "" r).
Qed.

Ltac lexc := let r := fresh "r" in intros r; cbn; destruct (lex "" r); reflexivity.

Lemma c_space : closed " " []. Proof. lexc. Qed.
Lemma c_comma : closed ", " []. Proof. lexc. Qed.
Lemma c_comma1 : closed "," []. Proof. lexc. Qed.
Lemma c_colon : closed ": " [TkP Colon]. Proof. lexc. Qed.
Lemma c_colon_dollar : closed ": $" [TkP Colon; TkP Dollar]. Proof. lexc. Qed.
Lemma c_dollar : closed "$" [TkP Dollar]. Proof. lexc. Qed.
Lemma c_lparen : closed "(" [TkP LParen]. Proof. lexc. Qed.
Lemma c_rparen : closed ")" [TkP RParen]. Proof. lexc. Qed.
Lemma c_lbracket : closed "[" [TkP LBracket]. Proof. lexc. Qed.
Lemma c_rbracket : closed "]" [TkP RBracket]. Proof. lexc. Qed.
Lemma c_bang : closed "!" [TkP Bang]. Proof. lexc. Qed.
Lemma c_open : closed " {" [TkP LBrace]. Proof. lexc. Qed.
Lemma c_close : closed " }" [TkP RBrace]. Proof. lexc. Qed.
Lemma c_on : closed " ... on " [TkSpread; TkName "on"]. Proof. lexc. Qed.
Lemma c_skip : closed " __typename @skip(if: true)"
  [TkName "__typename"; TkP At; TkName "skip"; TkP LParen; TkName "if"; TkP Colon; TkName "true"; TkP RParen].
Proof. lexc. Qed.

Lemma l_typename : lexes " __typename" [TkName "__typename"].
Proof. change " __typename" with (" " ++ "__typename")%string. apply (closed_app _ _ [] _ c_space). now apply lexes_name. Qed.

(** ** Tokens of syntax *)
Definition tval (v : aval) : list tok :=
  match v with AVar x => [TkP Dollar; TkName x] | AName s => [TkName s] end.
Definition targ (a : string * aval) : list tok := TkName (fst a) :: TkP Colon :: tval (snd a).
Definition targs (l : list (string * aval)) : list tok :=
  match l with [] => [] | _ => TkP LParen :: flat_map targ l ++ [TkP RParen] end.
Definition tdir (d : string * list (string * aval)) : list tok := TkP At :: TkName (fst d) :: targs (snd d).

Fixpoint tsel (a : asel) : list tok :=
  match a with
  | AField alias n args dirs sub =>
      (match alias with Some a => [TkName a; TkP Colon] | None => [] end)
      ++ TkName n :: targs args ++ flat_map tdir dirs
      ++ (match sub with [] => [] | _ => TkP LBrace :: flat_map tsel sub ++ [TkP RBrace] end)
  | AInline c sub => [TkSpread; TkName "on"; TkName c; TkP LBrace] ++ flat_map tsel sub ++ [TkP RBrace]
  end.

Inductive wfsel : asel -> Prop :=
| wf_field a n args dirs sub : Forall wfsel sub -> wfsel (AField a n args dirs sub)
| wf_inline c sub : sub <> [] -> Forall wfsel sub -> wfsel (AInline c sub).

Lemma tsel_nonempty a : tsel a <> [].
Proof. destruct a as [[x|] ? ? ? ?|]; cbn; discriminate. Qed.

Lemma flat_tsel_nil l : flat_map tsel l = [] <-> l = [].
Proof.
  split; [|now intros ->]. destruct l as [|a l]; [easy|].
  cbn. intros H. apply app_eq_nil in H as [H _]. now apply tsel_nonempty in H.
Qed.

(** A token a selection, or the end of a selection set, starts with. *)
Definition follow (ts : list tok) : Prop :=
  match ts with TkName _ :: _ | TkSpread :: _ | TkP RBrace :: _ => True | _ => False end.

Lemma tsel_follow a r : follow (tsel a ++ r).
Proof. destruct a as [[x|] ? ? ? ?|]; exact Logic.I. Qed.

Lemma sels_follow l r : follow (flat_map tsel l ++ TkP RBrace :: r).
Proof.
  destruct l as [|a l]; [exact Logic.I|]. cbn [flat_map]. rewrite <- app_assoc. apply tsel_follow.
Qed.

Lemma p_arglist_ok l : forall r, p_arglist (flat_map targ l ++ TkP RParen :: r) = Some (l, r).
Proof.
  induction l as [|[a [x|s]] l IH]; intros r; cbn; [reflexivity| |]; now rewrite IH.
Qed.

Lemma p_args_ok l r : (match r with TkP LParen :: _ => False | _ => True end) -> p_args (targs l ++ r) = Some (l, r).
Proof.
  intros H. destruct l as [|a l].
  - cbn. destruct r as [|[|[]|] r]; try reflexivity. easy.
  - cbn [targs app p_args]. rewrite <- app_assoc. cbn [app]. rewrite p_arglist_ok. reflexivity.
Qed.

Definition dfollow (r : list tok) : Prop :=
  match r with TkP LParen :: _ | TkP At :: _ => False | _ => True end.

Lemma p_dirs_ok ds : forall fuel r, dfollow r -> length ds < fuel ->
  p_dirs fuel (flat_map tdir ds ++ r) = Some (ds, r).
Proof.
  induction ds as [|[d l] ds IH]; intros fuel r H F; destruct fuel as [|fuel]; try (cbn in F; lia).
  - cbn. destruct r as [|[|[]|] r]; try reflexivity; easy.
  - cbn [flat_map tdir fst snd app p_dirs]. rewrite <- app_assoc.
    rewrite p_args_ok.
    + rewrite IH; trivial. cbn in F. lia.
    + destruct ds as [|[d' l'] ds]; cbn; [|trivial].
      destruct r as [|[|[]|] r]; easy.
Qed.

Lemma dirs_length ds : length ds <= length (flat_map tdir ds).
Proof.
  induction ds as [|[d l] ds IH]; cbn; [lia|]. rewrite app_length. lia.
Qed.

Lemma p_sels_ok n : forall l r fuel, length (flat_map tsel l) <= n -> Forall wfsel l ->
  length (flat_map tsel l) < fuel ->
  p_sels fuel (flat_map tsel l ++ TkP RBrace :: r) = Some (l, r).
Proof.
  induction n as [n IH] using lt_wf_ind. intros l r fuel Ln W F.
  destruct fuel as [|fuel]; [lia|].
  destruct l as [|a l]; [reflexivity|].
  apply Forall_cons_iff in W as [Wa Wl].
  cbn [flat_map] in *. rewrite app_length in Ln, F.
  assert (Pa : 0 < length (tsel a)).
  { pose proof (tsel_nonempty a). destruct (tsel a); [easy|cbn; lia]. }
  assert (Tail : forall f, length (flat_map tsel l) < f -> p_sels f (flat_map tsel l ++ TkP RBrace :: r) = Some (l, r)).
  { intros f Hf. apply (IH (length (flat_map tsel l))); trivial; lia. }
  rewrite <- app_assoc.
  destruct a as [alias name args dirs sub|c sub].
  - (* a field *)
    cbn [tsel] in *.
    set (rest := flat_map tsel l ++ TkP RBrace :: r).
    assert (Fr : follow rest) by apply sels_follow.
    set (body := match sub with [] => [] | _ => TkP LBrace :: flat_map tsel sub ++ [TkP RBrace] end).
    assert (E : forall al, (match p_args (targs args ++ (flat_map tdir dirs ++ (body ++ rest))) with
             | None => None
             | Some (args, r) =>
              match p_dirs fuel r with
              | None => None
              | Some (dirs, r) =>
                  match r with
                  | TkP LBrace :: r =>
                      match p_sels fuel r with
                      | Some ([], _) | None => None
                      | Some (sub, r1) =>
                          match p_sels fuel r1 with
                          | Some (l, r2) => Some (AField al name args dirs sub :: l, r2)
                          | None => None
                          end
                      end
                  | _ =>
                      match p_sels fuel r with
                      | Some (l, r2) => Some (AField al name args dirs [] :: l, r2)
                      | None => None
                      end
                  end
              end end) = Some (AField al name args dirs sub :: l, r)).
    { intros al.
      assert (Lb : length dirs < fuel).
      { pose proof (dirs_length dirs). rewrite app_length in F. cbn in F. rewrite !app_length in F. lia. }
      rewrite p_args_ok.
      2:{ destruct dirs as [|[d da] dirs]; [|exact Logic.I]. cbn.
          destruct sub; [|exact Logic.I]. cbn. destruct rest as [|[|[]|] ?]; easy. }
      rewrite p_dirs_ok; trivial.
      2:{ destruct sub; [|exact Logic.I]. cbn. destruct rest as [|[|[]|] ?]; easy. }
      rewrite app_length in F, Ln. cbn [List.length] in F, Ln. rewrite !app_length in F, Ln.
      destruct sub as [|x sub].
      - cbn [body app]. destruct rest as [|t rest'] eqn:Er; [easy|].
        assert (Hp : p_sels fuel (t :: rest') = Some (l, r)).
        { rewrite <- Er. apply Tail. lia. }
        rewrite Hp. destruct t as [|[]|]; try reflexivity; easy.
      - subst body. cbn [app]. rewrite <- app_assoc. cbn [app].
        cbn [List.length] in F, Ln. rewrite app_length in F, Ln. cbn [List.length] in F, Ln.
        inversion Wa as [? ? ? ? ? Ws|]; subst.
        rewrite (IH (length (flat_map tsel (x :: sub)))); trivial; try lia.
        unfold rest. rewrite Tail by lia. reflexivity. }
    destruct alias as [al|].
    + cbn [app p_sels]. rewrite <- !app_assoc. apply (E (Some al)).
    + cbn [app p_sels]. rewrite <- !app_assoc.
      specialize (E None).
      assert (NC : match targs args ++ flat_map tdir dirs ++ body ++ rest with
                   | TkP Colon :: TkName _ :: _ => False | _ => True end).
      { destruct args as [|a0 args]; [|exact Logic.I]. cbn [targs app].
        destruct dirs as [|[d da] dirs]; [|exact Logic.I]. cbn [flat_map app].
        destruct sub; [|exact Logic.I]. cbn [body app].
        destruct rest as [|[|[]|] [|[]]]; easy. }
      destruct (targs args ++ flat_map tdir dirs ++ body ++ rest) as [|[|[]|] [|[]]]; try exact E; easy.
  - (* a fragment *)
    inversion Wa as [|? ? Ns Ws]; subst.
    cbn [tsel] in *. rewrite app_length, app_length in F, Ln. cbn [List.length] in F, Ln.
    cbn [app p_sels]. rewrite String.eqb_refl. rewrite <- app_assoc. cbn [app].
    rewrite (IH (length (flat_map tsel sub))); trivial; try lia.
    rewrite Tail by lia.
    destruct sub; [easy|reflexivity].
Qed.

(** ** Types and variable definitions *)
Fixpoint tty (t : ty) : list tok :=
  match t with
  | TName n r => TkName n :: (if r then [TkP Bang] else [])
  | TList t r => TkP LBracket :: tty t ++ TkP RBracket :: (if r then [TkP Bang] else [])
  end.

Lemma lexes_ty t : ty_names t = true -> lexes (ty_text t) (tty t).
Proof.
  induction t as [n r|t IH r]; cbn [ty_names ty_text tty]; intros H.
  - destruct r.
    + apply (lexes_app _ _ [TkName n] [TkP Bang]); [now apply lexes_name|apply closed_lexes, c_bang|reflexivity].
    + rewrite sapp_nil. now apply lexes_name.
  - apply (closed_app _ _ [TkP LBracket]); [apply c_lbracket|].
    apply lexes_app; [now apply IH| |reflexivity].
    apply (closed_app _ _ [TkP RBracket]); [apply c_rbracket|].
    destruct r; [apply closed_lexes, c_bang|apply closed_lexes, closed_nil].
Qed.

Definition tvars (l : list (string * ty)) : list tok :=
  flat_map (fun d => TkP Dollar :: TkName (fst d) :: TkP Colon :: tty (snd d)) l.

Lemma p_ty_ok t : forall fuel r, length (tty t) < fuel -> (match r with TkP Bang :: _ => False | _ => True end) ->
  p_ty fuel (tty t ++ r) = Some (t, r).
Proof.
  assert (B : forall (b : bool) r, (match r with TkP Bang :: _ => False | _ => True end) ->
    p_bang ((if b then [TkP Bang] else []) ++ r) = (b, r)).
  { intros [|] r H; [reflexivity|]. destruct r as [|[|[]|] ?]; try reflexivity; easy. }
  induction t as [n b|t IH b]; intros [|fuel] r F H; try (cbn in F; lia).
  - cbn [tty app p_ty]. now rewrite B.
  - cbn [tty List.length] in F. rewrite app_length in F. cbn [List.length] in F.
    cbn [tty app p_ty]. rewrite <- app_assoc. cbn [app].
    rewrite IH by (lia || exact Logic.I). now rewrite B.
Qed.

Lemma p_vars_ok l : forall fuel r, length (tvars l) < fuel -> p_vars fuel (tvars l ++ TkP RParen :: r) = Some (l, r).
Proof.
  induction l as [|[x t] l IH]; intros [|fuel] r F; try lia; try reflexivity.
  cbn [tvars flat_map fst snd List.length app] in F. rewrite app_length in F.
  change (flat_map _ l) with (tvars l) in F.
  cbn [tvars flat_map fst snd app p_vars].
  change (flat_map _ l) with (tvars l). rewrite <- app_assoc.
  rewrite p_ty_ok; [|lia|destruct l; exact Logic.I].
  rewrite IH by lia. reflexivity.
Qed.
