(** * C110: descriptions and strings of the written SDL are read back *)

From Coq Require Import List NArith Bool Arith Lia.
From Verif Require Import Introspection.Render Introspection.Grammar Introspection.ReadBack.
From Verif.Sdl Require Import Model Spec Facts.
Import ListNotations.
Local Open Scope list_scope.
Local Open Scope N_scope.

(** ** The text between the quotes *)

Fixpoint inner (indent : text) (ls : list text) : text :=
  match ls with
  | [] => indent
  | l :: r => indent ++ l ++ 10 :: inner indent r
  end.

Lemma inner_eq indent ls :
  flat_map (fun l => indent ++ l ++ [10]) ls ++ indent = inner indent ls.
Proof.
  induction ls as [|l ls IH]; [reflexivity|]. cbn [flat_map inner].
  rewrite <- IH, <- !app_assoc. reflexivity.
Qed.

Lemma description_eq d indent rest :
  description d indent ++ rest
  = indent ++ [34; 34; 34] ++ (10 :: inner indent (body (skip_empty (lines d)))) ++ 34 :: 34 :: 34 :: 10 :: rest.
Proof.
  unfold description. rewrite <- inner_eq. unfold quotes. rewrite <- !app_assoc. cbn [app].
  rewrite <- !app_assoc. reflexivity.
Qed.

Definition blanks (indent : text) : Prop := forall c, In c indent -> blank_char c = true.

Lemma blank_cases c : blank_char c = true -> c = 32 \/ c = 9.
Proof. unfold blank_char. rewrite orb_true_iff, !N.eqb_eq. tauto. Qed.

Lemma has3_cons c t : c <> 34 -> has3 t = false -> has3 (c :: t) = false.
Proof. intros NC H. exact (has3_sep c [] t NC eq_refl H). Qed.

Lemma has3_blanks indent t : blanks indent -> has3 t = false -> has3 (indent ++ t) = false.
Proof.
  induction indent as [|c i IH]; intros B H; [exact H|]. cbn [app]. apply has3_cons.
  - destruct (blank_cases c (B c (or_introl eq_refl))); lia.
  - apply IH; [|exact H]. intros x J. apply B. right. exact J.
Qed.

Lemma inner_no3 indent ls : blanks indent -> Forall (fun l => has3 l = false) ls ->
  has3 (inner indent ls) = false.
Proof.
  intros B F. induction F as [|l ls A F IH]; cbn [inner].
  - rewrite <- (app_nil_r indent). apply has3_blanks; [exact B|reflexivity].
  - apply has3_blanks; [exact B|]. apply has3_sep; [lia|exact A|exact IH].
Qed.

Lemma inner_chars indent ls c : In c (inner indent ls) -> In c indent \/ c = 10 \/ exists l, In l ls /\ In c l.
Proof.
  induction ls as [|l ls IH]; cbn [inner]; [tauto|]. rewrite !in_app_iff. cbn [In].
  intros [J|[J|[J|J]]].
  - left. exact J.
  - right. right. exists l. split; [left; reflexivity|exact J].
  - right. left. symmetry. exact J.
  - destruct (IH J) as [K|[K|[x [K1 K2]]]]; [tauto|tauto|]. right. right. exists x. split; [right; exact K1|exact K2].
Qed.

Lemma inner_last indent ls : blanks indent ->
  exists u e, 10 :: inner indent ls = u ++ [e] /\ (e = 10 \/ blank_char e = true).
Proof.
  intros B.
  assert (L : forall t, blanks t -> exists u e, 10 :: t = u ++ [e] /\ (e = 10 \/ blank_char e = true)).
  { intros t BT. destruct t as [|c t]; [exists [], 10; split; [reflexivity|left; reflexivity]|].
    destruct (exists_last (l := c :: t)) as [u [e E]]; [discriminate|].
    exists (10 :: u), e. split; [rewrite E; reflexivity|]. right. apply BT. rewrite E.
    apply in_or_app. right. left. reflexivity. }
  induction ls as [|l ls [u [e [E K]]]]; [exact (L indent B)|].
  cbn [inner]. exists (10 :: indent ++ l ++ u), e. split; [|exact K].
  rewrite E. cbn [app]. rewrite <- !app_assoc. reflexivity.
Qed.

(** The reader stops at the closing quotes of the writer. *)
Lemma read_inner indent ls rest :
  blanks indent -> Forall (fun l => has3 l = false) ls ->
  (forall l c, In l ls -> In c l -> source_char c = true) ->
  read_block ((10 :: inner indent ls) ++ 34 :: 34 :: 34 :: rest) = Some (10 :: inner indent ls, rest).
Proof.
  intros B F C. destruct (inner_last indent ls B) as [u [e [E K]]].
  assert (H3 : has3 (10 :: inner indent ls) = false).
  { apply has3_cons; [lia|]. apply inner_no3; assumption. }
  assert (HC : forall c, In c (10 :: inner indent ls) -> source_char c = true).
  { intros c [<-|J]; [reflexivity|]. apply inner_chars in J. destruct J as [J|[->|[l [J1 J2]]]].
    - destruct (blank_cases c (B c J)) as [->| ->]; reflexivity.
    - reflexivity.
    - exact (C l c J1 J2). }
  rewrite E in *. rewrite <- app_assoc. cbn [app].
  apply read_plain; [exact H3| | |exact HC];
    destruct K as [->|K]; try lia; destruct (blank_cases e K); lia.
Qed.

Lemma visible_inner indent ls : blanks indent -> visible (inner indent ls) = visible (concat ls).
Proof.
  intros B.
  assert (V : visible indent = []).
  { apply visible_blank. apply forallb_forall. exact B. }
  induction ls as [|l ls IH]; cbn [inner concat]; [exact V|].
  rewrite !visible_app, V. cbn [app]. f_equal. rewrite <- IH. reflexivity.
Qed.

(** C110.  A description without three quotes in a row: whatever follows it in the
    document is left as it is, and the description read back has the same visible
    characters in the same order. *)
Theorem C110_words d indent rest :
  ~ has_quotes d -> (forall c, In c d -> source_char c = true) -> blanks indent ->
  exists v, block_string (description d indent ++ rest) v (10 :: rest) /\ visible v = visible d.
Proof.
  intros Q C B. set (ls := body (skip_empty (lines d))).
  exists (block_value (10 :: inner indent ls)). split.
  - exists indent, ((10 :: inner indent ls) ++ 34 :: 34 :: 34 :: 10 :: rest), (10 :: inner indent ls).
    split; [apply description_eq|]. split; [exact B|]. split; [|reflexivity].
    apply read_inner; [exact B| |].
    + apply Forall_forall. intros l J. apply body_in in J. destruct J as [x [J ->]]. apply trim_no3.
      apply skip_empty_in in J.
      assert (H : has3 d = false).
      { destruct (has3 d) eqn:H; [|reflexivity]. destruct Q. apply has3_spec. exact H. }
      pose proof (lines_no3 d H) as L. rewrite Forall_forall in L. exact (L x J).
    + intros l c J K. apply body_in in J. destruct J as [x [J ->]]. apply trim_chars in K.
      apply skip_empty_in in J. exact (C c (lines_chars d x c J K)).
  - rewrite visible_block_value. change (10 :: inner indent ls) with ([10] ++ inner indent ls).
    rewrite visible_app, (visible_inner indent ls B). cbn [app].
    unfold ls. rewrite visible_body, visible_skip_empty. apply visible_lines.
Qed.

(** What is read is determined. *)
Lemma blank_prefix : forall a b x y,
  (forall c, In c a -> blank_char c = true) -> (forall c, In c b -> blank_char c = true) ->
  a ++ 34 :: x = b ++ 34 :: y -> x = y.
Proof.
  induction a as [|c a IH]; intros [|e b] x y A B E; cbn [app] in E.
  - injection E as E. exact E.
  - injection E as <- _. specialize (B 34 (or_introl eq_refl)). discriminate.
  - injection E as -> _. specialize (A 34 (or_introl eq_refl)). discriminate.
  - injection E as _ E. apply (IH b x y); [| |exact E].
    + intros z J. apply A. right. exact J.
    + intros z J. apply B. right. exact J.
Qed.

Theorem C110_one_value t v v' r r' : block_string t v r -> block_string t v' r' -> v = v' /\ r = r'.
Proof.
  intros [s [u [raw [E [B [R ->]]]]]] [s' [u' [raw' [E' [B' [R' ->]]]]]].
  rewrite E in E'. apply (blank_prefix s s') in E'; [|exact B|exact B'].
  injection E' as ->. rewrite R in R'. injection R' as -> ->. split; reflexivity.
Qed.

(** ** Tidy descriptions *)

Lemma tidy_no l : tidy_line l -> ~ In 10 l /\ ~ In 13 l.
Proof. intros [c [_ [_ [e [_ [_ [A B]]]]]]]. split; assumption. Qed.

Lemma tidy_head l : tidy_line l -> exists c r, l = c :: r /\ visible_char c = true.
Proof.
  intros [c [H [V _]]]. destruct l as [|x r]; [discriminate|]. injection H as ->. exists c, r. split; [reflexivity|exact V].
Qed.

Lemma lines_line l : forall r, ~ In 10 l -> ~ In 13 l -> lines (l ++ 10 :: r) = l :: lines r.
Proof.
  induction l as [|c l IH]; intros r A B; [reflexivity|]. cbn [app lines].
  rewrite (proj2 (N.eqb_neq c 10)) by (intros ->; apply A; left; reflexivity).
  rewrite (proj2 (N.eqb_neq c 13)) by (intros ->; apply B; left; reflexivity).
  cbn [andb]. rewrite IH; [reflexivity| |]; intros J; [apply A|apply B]; right; exact J.
Qed.

Lemma lines_last l : l <> [] -> ~ In 10 l -> ~ In 13 l -> lines l = [l].
Proof.
  induction l as [|c l IH]; intros NE A B; [destruct NE; reflexivity|]. cbn [lines].
  rewrite (proj2 (N.eqb_neq c 10)) by (intros ->; apply A; left; reflexivity).
  rewrite (proj2 (N.eqb_neq c 13)) by (intros ->; apply B; left; reflexivity).
  cbn [andb]. destruct l as [|e l]; [reflexivity|].
  rewrite IH; [reflexivity|discriminate| |]; intros J; [apply A|apply B]; right; exact J.
Qed.

Lemma tidy_nonempty ls : tidy ls -> exists l r, ls = l :: r /\ tidy_line l.
Proof. intros T. destruct T; eexists; eexists; (split; [reflexivity|assumption]). Qed.

Lemma join_cons l ls : ls <> [] -> join (l :: ls) = l ++ 10 :: join ls.
Proof. intros NE. destruct ls; [destruct NE; reflexivity|reflexivity]. Qed.

Lemma tidy_not_nil ls : tidy ls -> ls <> [].
Proof. intros T. destruct T; discriminate. Qed.

Lemma lines_join ls : tidy ls -> lines (join ls) = ls.
Proof.
  induction 1 as [l L|l ls L T IH|l ls L T IH]; destruct (tidy_no l L) as [A B].
  - cbn [join]. apply lines_last; [|exact A|exact B].
    destruct (tidy_head l L) as [c [r [-> _]]]. discriminate.
  - rewrite join_cons by (exact (tidy_not_nil ls T)). rewrite lines_line by assumption. rewrite IH. reflexivity.
  - rewrite join_cons by discriminate. rewrite lines_line by assumption.
    rewrite join_cons by (exact (tidy_not_nil ls T)). cbn [app lines N.eqb Pos.eqb]. rewrite IH. reflexivity.
Qed.

Lemma trim_end_id x e : white e = false -> trim_end (x ++ [e]) = x ++ [e].
Proof.
  intros W. induction x as [|c x IH]; cbn [app trim_end]; [rewrite W; reflexivity|].
  rewrite IH. destruct (x ++ [e]) eqn:E; [destruct x; discriminate|reflexivity].
Qed.

Lemma trim_tidy l : tidy_line l -> trim l = l.
Proof.
  intros [c [H [V [e [H' [V' _]]]]]]. rewrite white_visible in V, V'.
  apply negb_true_iff in V, V'. unfold trim.
  assert (S1 : trim_start l = l).
  { destruct l as [|x r]; [reflexivity|]. injection H as ->. cbn [trim_start]. rewrite V. reflexivity. }
  rewrite S1. destruct (rev l) as [|z r] eqn:R; [discriminate|]. injection H' as ->.
  assert (E : l = rev r ++ [e]).
  { rewrite <- (rev_involutive l), R. reflexivity. }
  rewrite E. apply trim_end_id. exact V'.
Qed.

Lemma body_tidy ls : tidy ls -> body ls = ls.
Proof.
  induction 1 as [l L|l ls L T IH|l ls L T IH]; destruct (tidy_head l L) as [c [r [E _]]].
  - cbn [body]. rewrite (trim_tidy l L), E. reflexivity.
  - cbn [body]. rewrite (trim_tidy l L), IH, E. reflexivity.
  - cbn [body]. rewrite (trim_tidy l L), E. cbn [is_empty andb]. f_equal.
    destruct (tidy_nonempty ls T) as [l' [r' [-> L']]]. destruct (tidy_head l' L') as [c' [t' [-> _]]].
    cbn [trim trim_start trim_end is_empty andb]. f_equal. exact IH.
Qed.

Lemma block_line l : forall r, ~ In 10 l -> ~ In 13 l -> block_lines (l ++ 10 :: r) = l :: block_lines r.
Proof.
  induction l as [|c l IH]; intros r A B; [reflexivity|]. cbn [app block_lines].
  rewrite (proj2 (N.eqb_neq c 10)) by (intros ->; apply A; left; reflexivity).
  rewrite (proj2 (N.eqb_neq c 13)) by (intros ->; apply B; left; reflexivity).
  rewrite IH; [reflexivity| |]; intros J; [apply A|apply B]; right; exact J.
Qed.

Lemma block_last l : ~ In 10 l -> ~ In 13 l -> block_lines l = [l].
Proof.
  induction l as [|c l IH]; intros A B; [reflexivity|]. cbn [block_lines].
  rewrite (proj2 (N.eqb_neq c 10)) by (intros ->; apply A; left; reflexivity).
  rewrite (proj2 (N.eqb_neq c 13)) by (intros ->; apply B; left; reflexivity).
  rewrite IH; [reflexivity| |]; intros J; [apply A|apply B]; right; exact J.
Qed.

Lemma blanks_no indent x : blanks indent -> (x = 10 \/ x = 13) -> ~ In x indent.
Proof. intros B E J. destruct (blank_cases x (B x J)); lia. Qed.

(** The lines of a block string, with its indentation. *)
Definition indented (indent : text) (ls : list text) : list text :=
  map (fun l : text => indent ++ l) (ls ++ [[]]).

Lemma block_inner indent ls : blanks indent -> (forall l, In l ls -> ~ In 10 l /\ ~ In 13 l) ->
  block_lines (inner indent ls) = indented indent ls.
Proof.
  unfold indented. intros B. induction ls as [|l ls IH]; intros A; cbn [inner app map].
  - rewrite app_nil_r. apply block_last; apply blanks_no; auto.
  - rewrite app_assoc. rewrite block_line.
    + rewrite IH; [reflexivity|]. intros x J. apply A. right. exact J.
    + rewrite in_app_iff. intros [J|J]; [exact (blanks_no indent 10 B (or_introl eq_refl) J)|].
      exact (proj1 (A l (or_introl eq_refl)) J).
    + rewrite in_app_iff. intros [J|J]; [exact (blanks_no indent 13 B (or_intror eq_refl) J)|].
      exact (proj2 (A l (or_introl eq_refl)) J).
Qed.

Lemma tidy_chars ls : tidy ls -> forall l, In l ls -> ~ In 10 l /\ ~ In 13 l.
Proof.
  induction 1 as [l L|l ls L T IH|l ls L T IH]; intros x.
  - intros [<-|[]]. exact (tidy_no l L).
  - intros [<-|J]; [exact (tidy_no l L)|exact (IH x J)].
  - intros [<-|[<-|J]]; [exact (tidy_no l L)|split; intros []|exact (IH x J)].
Qed.

Lemma not_blank l : tidy_line l -> blank l = false.
Proof.
  intros L. destruct (tidy_head l L) as [c [r [-> V]]]. cbn [blank forallb].
  destruct (blank_char c) eqn:E; [|reflexivity]. apply blank_white in E. congruence.
Qed.

Lemma blank_app a b : blank (a ++ b) = blank a && blank b.
Proof. apply forallb_app. Qed.

Lemma indent_app indent l : blanks indent -> tidy_line l -> indent_of (indent ++ l) = List.length indent.
Proof.
  intros B L. destruct (tidy_head l L) as [c [r [-> V]]]. induction indent as [|x i IH]; cbn [app indent_of List.length].
  - destruct (blank_char c) eqn:E; [apply blank_white in E; congruence|reflexivity].
  - rewrite (B x (or_introl eq_refl)). f_equal. apply IH. intros y J. apply B. right. exact J.
Qed.

Lemma common_tidy indent ls : blanks indent -> tidy ls ->
  common_indent (indented indent ls) = Some (List.length indent).
Proof.
  unfold indented.
  intros B T. assert (BI : blank indent = true) by (apply forallb_forall; exact B).
  induction T as [l L|l ls L T IH|l ls L T IH]; cbn [app map common_indent].
  - rewrite app_nil_r, BI, blank_app, BI, (not_blank l L). cbn [andb].
    rewrite (indent_app indent l B L). reflexivity.
  - rewrite IH, blank_app, BI, (not_blank l L). cbn [andb].
    rewrite (indent_app indent l B L). f_equal. lia.
  - rewrite app_nil_r, BI, IH, blank_app, BI, (not_blank l L). cbn [andb].
    rewrite (indent_app indent l B L). f_equal. lia.
Qed.

Lemma skip_map indent (ls : list text) : map (skipn (List.length indent)) (indented indent ls) = ls ++ [[]].
Proof.
  unfold indented. generalize (ls ++ [[]]). clear ls. intros ls.
  induction ls as [|l ls IH]; [reflexivity|]. cbn [map]. rewrite IH. f_equal.
  rewrite skipn_app, skipn_all, Nat.sub_diag. reflexivity.
Qed.

Lemma tidy_end ls : tidy ls -> exists a l, ls = a ++ [l] /\ tidy_line l.
Proof.
  induction 1 as [l L|l ls L T [a [x [-> X]]]|l ls L T [a [x [-> X]]]].
  - exists [], l. split; [reflexivity|exact L].
  - exists (l :: a), x. split; [reflexivity|exact X].
  - exists (l :: [] :: a), x. split; [reflexivity|exact X].
Qed.

Lemma value_tidy indent ls : blanks indent -> tidy ls -> block_value (10 :: inner indent ls) = join ls.
Proof.
  intros B T. unfold block_value. cbn [block_lines N.eqb Pos.eqb].
  rewrite (block_inner indent ls B (tidy_chars ls T)), (common_tidy indent ls B T), skip_map.
  cbn [drop_blank blank forallb]. destruct (tidy_nonempty ls T) as [l [r [E L]]].
  assert (D : drop_blank (ls ++ [[]]) = ls ++ [[]]).
  { rewrite E. cbn [app drop_blank]. rewrite (not_blank l L). reflexivity. }
  rewrite D, rev_app_distr. cbn [rev app drop_blank blank forallb].
  destruct (tidy_end ls T) as [a [x [E' X]]].
  assert (D' : drop_blank (rev ls) = rev ls).
  { rewrite E', rev_app_distr. cbn [rev app drop_blank]. rewrite (not_blank x X). reflexivity. }
  rewrite D', rev_involutive. reflexivity.
Qed.

(** C110.  A tidy description is read back unchanged. *)
Theorem C110_tidy ls indent rest :
  tidy ls -> ~ has_quotes (join ls) -> (forall c, In c (join ls) -> source_char c = true) -> blanks indent ->
  block_string (description (join ls) indent ++ rest) (join ls) (10 :: rest).
Proof.
  intros T Q C B. destruct (C110_words (join ls) indent rest Q C B) as [v [K _]].
  assert (E : v = join ls); [|rewrite E in K; exact K].
  destruct K as [s [u [raw [E [Bs [R ->]]]]]].
  rewrite description_eq, (lines_join ls T) in E.
  assert (SE : skip_empty ls = ls).
  { destruct (tidy_nonempty ls T) as [l [r [-> L]]]. destruct (tidy_head l L) as [c [t [-> _]]]. reflexivity. }
  rewrite SE, (body_tidy ls T) in E.
  apply (blank_prefix indent s) in E; [|exact B|exact Bs]. injection E as E. subst u.
  pose proof (read_inner indent ls (10 :: rest) B) as RI.
  cbn [app] in RI, R. rewrite RI in R.
  - injection R as <-. apply value_tidy; assumption.
  - assert (H : has3 (join ls) = false).
    { destruct (has3 (join ls)) eqn:H; [|reflexivity]. destruct Q. apply has3_spec. exact H. }
    pose proof (lines_no3 _ H) as L. rewrite (lines_join ls T) in L. exact L.
  - intros l c J K. apply C. apply (lines_chars (join ls) l c); [|exact K]. rewrite (lines_join ls T). exact J.
Qed.

(** ** Quoted strings *)

Lemma literal_quote c : literal_char c = quote_char c.
Proof.
  destruct (control c) eqn:CT.
  - assert (J : In c controls) by (apply control_in; exact CT).
    unfold controls in J. vm_compute in J.
    repeat (destruct J as [<-|J]; [vm_compute; reflexivity|]). destruct J.
  - unfold literal_char, quote_char. change (is_control c) with (control c). rewrite CT.
    destruct (N.eqb_spec c 13) as [->|A]; [reflexivity|]. destruct (N.eqb_spec c 10) as [->|D]; [reflexivity|].
    destruct (N.eqb_spec c 9) as [->|E]; [reflexivity|].
    destruct (N.eqb_spec c 92) as [->|F]; [reflexivity|]. destruct (c =? 34); reflexivity.
Qed.

(** C110.  A string literal is read back exactly when it has none of the control
    characters whose number has other hexadecimal than decimal digits. *)
Theorem C110_literal s rest : quoted_string (literal s ++ rest) s rest <-> Forall plain s.
Proof.
  assert (R : read_string (flat_map literal_char s ++ 34 :: rest) = Some (map unquoted s, rest)).
  { rewrite <- read_quoted. f_equal. f_equal. clear. induction s as [|c s IH]; [reflexivity|].
    cbn [flat_map]. rewrite literal_quote, IH. reflexivity. }
  rewrite <- map_unquoted. unfold literal. cbn [app]. rewrite <- app_assoc. cbn [app]. split.
  - intros [sp [u [E [B V]]]]. apply (blank_prefix [] sp) in E; [|intros c []|exact B].
    subst u. rewrite R in V. injection V as V. exact V.
  - intros E. exists [], (flat_map literal_char s ++ 34 :: rest). split; [reflexivity|].
    split; [intros c []|]. rewrite R, E. reflexivity.
Qed.

(** ** Descriptions written by the MCP server *)

Lemma existsb_lf d : existsb (fun c => c =? 10) d = true <-> In 10 d.
Proof.
  rewrite existsb_exists. split.
  - intros [c [J E]]. apply N.eqb_eq in E. subst c. exact J.
  - intros J. exists 10. split; [exact J|reflexivity].
Qed.

Lemma read_mcp s rest :
  ~ In 92 s -> (forall c, In c s -> c = 9 \/ 32 <= c) ->
  read_string (mcp_quotes s ++ 34 :: rest) = Some (s, rest).
Proof.
  induction s as [|c s IH]; intros A C; [reflexivity|].
  assert (R : read_string (mcp_quotes s ++ 34 :: rest) = Some (s, rest)).
  { apply IH; [intros J; apply A; right; exact J|intros x J; apply C; right; exact J]. }
  unfold mcp_quotes in *. cbn [flat_map]. rewrite <- app_assoc.
  destruct (N.eqb_spec c 34) as [->|N34]; cbn [app read_string].
  - cbn. rewrite R. reflexivity.
  - rewrite (proj2 (N.eqb_neq c 34) N34), (proj2 (N.eqb_neq c 92)) by (intros ->; apply A; left; reflexivity).
    assert (K : (c <? 32) && negb (c =? 9) = false).
    { destruct (C c (or_introl eq_refl)) as [->|L]; [reflexivity|].
      apply andb_false_iff. left. apply N.ltb_ge. exact L. }
    rewrite K, R. reflexivity.
Qed.

(** C110.  A description of one line without backslashes is read back, less white
    space at its end. *)
Theorem C110_mcp_line d indent rest :
  ~ In 10 d -> ~ In 92 d -> (forall c, In c d -> source_char c = true /\ c <> 13) -> blanks indent ->
  exists v s, quoted_string (mcp_description d indent ++ rest) v (10 :: rest) /\ d = v ++ s /\ visible s = [].
Proof.
  intros A D C B. unfold mcp_description.
  destruct (existsb (fun c => c =? 10) d) eqn:X; [apply existsb_lf in X; destruct (A X)|].
  destruct (trim_end_prefix d) as [s E]. exists (trim_end d), s. split.
  - exists indent, (mcp_quotes (trim_end d) ++ 34 :: 10 :: rest).
    split; [rewrite <- ?app_assoc; cbn [app]; rewrite <- ?app_assoc; reflexivity|].
    split; [exact B|]. apply read_mcp.
    + intros J. apply D. apply trim_end_chars. exact J.
    + intros c J. apply trim_end_chars in J. destruct (C c J) as [K N13]. unfold source_char in K.
      rewrite !orb_true_iff, !N.eqb_eq, N.leb_le in K.
      destruct K as [[[K|K]|K]|K]; [left; exact K|subst c; destruct (A J)|destruct (N13 K)|right; exact K].
  - split; [exact E|]. pose proof (visible_trim_end d) as V. rewrite E in V at 2.
    rewrite visible_app in V. rewrite <- (app_nil_r (visible (trim_end d))) in V at 1.
    apply app_inv_head in V. symmetry. exact V.
Qed.

Lemma mcp_no3 s : has3 (mcp_quotes s) = false.
Proof.
  induction s as [|c s IH]; [reflexivity|]. unfold mcp_quotes in *. cbn [flat_map].
  destruct (N.eqb_spec c 34) as [->|N34]; cbn [app].
  - apply has3_cons; [lia|]. cbn [has3]. rewrite IH, orb_false_r.
    destruct s as [|e s]; [reflexivity|]. cbn [flat_map].
    destruct (N.eqb_spec e 34) as [->|E]; cbn [app].
    + reflexivity.
    + rewrite (proj2 (N.eqb_neq e 34) E), andb_false_r. destruct (flat_map _ s); reflexivity.
  - apply has3_cons; [exact N34|exact IH].
Qed.

Lemma split_chars t : forall l c, In l (split_lf t) -> In c l -> In c t.
Proof.
  induction t as [|x t IH]; intros l c J K; cbn [split_lf] in J.
  - destruct J as [<-|[]]. exact K.
  - destruct (x =? 10).
    { destruct J as [<-|J]; [destruct K|right; exact (IH l c J K)]. }
    destruct (split_lf t) as [|l' ls'].
    + destruct J as [<-|[]]. destruct K as [<-|[]]. left. reflexivity.
    + destruct J as [<-|J].
      * destruct K as [<-|K]; [left; reflexivity|right; exact (IH l' c (or_introl eq_refl) K)].
      * right. exact (IH l c (or_intror J) K).
Qed.

Lemma visible_split t : visible (concat (split_lf t)) = visible t.
Proof.
  induction t as [|c t IH]; [reflexivity|]. cbn [split_lf].
  change (visible (c :: t)) with (visible ([c] ++ t)). rewrite visible_app, <- IH.
  destruct (N.eqb_spec c 10) as [->|N10]; [reflexivity|].
  destruct (split_lf t) as [|l ls]; [rewrite <- visible_app; reflexivity|].
  cbn [concat]. rewrite <- visible_app. reflexivity.
Qed.

Lemma mcp_quotes_chars s c : In c (mcp_quotes s) -> In c s \/ c = 92.
Proof.
  unfold mcp_quotes. rewrite in_flat_map. intros [x [J K]]. destruct (N.eqb_spec x 34) as [->|N34].
  - destruct K as [<-|[<-|[]]]; [right; reflexivity|left; exact J].
  - destruct K as [<-|[]]. left. exact J.
Qed.

Lemma mcp_quotes_plain s : ~ In 34 s -> mcp_quotes s = s.
Proof.
  unfold mcp_quotes. induction s as [|c s IH]; intros A; [reflexivity|]. cbn [flat_map].
  rewrite (proj2 (N.eqb_neq c 34)) by (intros ->; apply A; left; reflexivity).
  cbn [app]. f_equal. apply IH. intros J. apply A. right. exact J.
Qed.

Lemma flat_map_map {A C D} (g : A -> C) (f : C -> list D) l : flat_map f (map g l) = flat_map (fun x => f (g x)) l.
Proof. induction l as [|x l IH]; [reflexivity|]. cbn [map flat_map]. rewrite IH. reflexivity. Qed.

(** C110.  A description of several lines never reaches into what follows it; one
    without quotes keeps its visible characters. *)
Theorem C110_mcp_block d indent rest :
  In 10 d -> (forall c, In c d -> source_char c = true) -> blanks indent ->
  exists v, block_string (mcp_description d indent ++ rest) v (10 :: rest)
            /\ (~ In 34 d -> visible v = visible d).
Proof.
  intros A C B. unfold mcp_description. rewrite (proj2 (existsb_lf d) A).
  set (ls := map (fun l => mcp_quotes (trim_end l)) (split_lf d)).
  exists (block_value (10 :: inner indent ls)). split.
  - exists indent, ((10 :: inner indent ls) ++ 34 :: 34 :: 34 :: 10 :: rest), (10 :: inner indent ls).
    split.
    { unfold ls. rewrite <- inner_eq. rewrite flat_map_map.
      unfold quotes. rewrite <- !app_assoc. cbn [app]. rewrite <- !app_assoc. reflexivity. }
    split; [exact B|]. split; [|reflexivity]. apply read_inner; [exact B| |].
    + apply Forall_forall. intros l J. unfold ls in J. apply in_map_iff in J. destruct J as [x [<- J]].
      apply mcp_no3.
    + intros l c J K. unfold ls in J. apply in_map_iff in J. destruct J as [x [<- J]].
      apply mcp_quotes_chars in K. destruct K as [K| ->]; [|reflexivity].
      apply trim_end_chars in K. exact (C c (split_chars d x c J K)).
  - intros Q. rewrite visible_block_value. change (10 :: inner indent ls) with ([10] ++ inner indent ls).
    rewrite visible_app, (visible_inner indent ls B). cbn [app].
    rewrite <- (visible_split d). unfold ls. apply visible_concat_map. intros l J.
    rewrite mcp_quotes_plain; [apply visible_trim_end|]. intros K. apply Q.
    apply (split_chars d l 34 J). apply trim_end_chars. exact K.
Qed.
