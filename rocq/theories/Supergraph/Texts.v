(** * Names of graphs and labels of overrides *)

From Coq Require Import NArith Ascii String List Bool Lia.
From Verif.Supergraph Require Import Model Spec.
Import ListNotations.
Local Open Scope string_scope.
Local Open Scope nat_scope.
Local Open Scope list_scope.

(** ** Values of [join__Graph] *)

Lemma upper_table c :
  (exists d, In (c, d) (combine lower_letters upper_letters) /\ upper c = d)
  \/ (~ In c lower_letters /\ upper c = c).
Proof.
  destruct (in_dec ascii_dec c lower_letters) as [J|J].
  - left. cbn in J. repeat (destruct J as [<-|J]; [eexists; split; [cbn; tauto|reflexivity]|]).
    destruct J.
  - right. split; [exact J|]. destruct c as [[] [] [] [] [] [] [] []]; try reflexivity;
      exfalso; apply J; cbn; tauto.
Qed.

Lemma combine_inj c d e :
  In (c, d) (combine lower_letters upper_letters) ->
  In (c, e) (combine lower_letters upper_letters) -> d = e.
Proof.
  intros J K. cbn in J.
  repeat (destruct J as [J|J];
    [injection J as <- <-; cbn in K;
     repeat (destruct K as [K|K]; [first [injection K as <-; reflexivity|discriminate K]|]); destruct K|]).
  destruct J.
Qed.

Lemma combine_plain c d :
  In (c, d) (combine lower_letters upper_letters) ->
  In c lower_letters /\ In d upper_letters /\ ~ In c ["-"; "_"; " "]%char.
Proof.
  intros J. split; [exact (in_combine_l _ _ _ _ J)|]. split; [exact (in_combine_r _ _ _ _ J)|].
  cbn in J. repeat (destruct J as [J|J]; [injection J as <- <-; cbn; intros K; intuition discriminate|]).
  destruct J.
Qed.

Lemma variant_char_spec c d : variant_char c = d <-> enum_char c d.
Proof.
  unfold variant_char, enum_char.
  destruct (Ascii.eqb c "-") eqn:E1; [apply Ascii.eqb_eq in E1; subst c|].
  { cbn [orb]. split; [intros <-; left; split; [left|]; reflexivity|].
    intros [[_ ->]|[J|[J _]]]; [reflexivity|apply combine_plain in J; exfalso; apply J; left; reflexivity|].
    exfalso. apply J. left. reflexivity. }
  destruct (Ascii.eqb c "_") eqn:E2; [apply Ascii.eqb_eq in E2; subst c|].
  { cbn [orb]. split; [intros <-; left; split; [right; left|]; reflexivity|].
    intros [[_ ->]|[J|[J _]]]; [reflexivity|apply combine_plain in J; exfalso; apply J; right; left; reflexivity|].
    exfalso. apply J. right. left. reflexivity. }
  destruct (Ascii.eqb c " ") eqn:E3; [apply Ascii.eqb_eq in E3; subst c|].
  { cbn [orb]. split; [intros <-; left; split; [right; right; left|]; reflexivity|].
    intros [[_ ->]|[J|[J _]]];
      [reflexivity|apply combine_plain in J; exfalso; apply J; right; right; left; reflexivity|].
    exfalso. apply J. right. right. left. reflexivity. }
  cbn [orb]. apply Ascii.eqb_neq in E1, E2, E3.
  assert (P : ~ In c ["-"; "_"; " "]%char).
  { intros [J|[J|[J|[]]]]; subst c; [apply E1|apply E2|apply E3]; reflexivity. }
  destruct (upper_table c) as [[e [J U]]|[J U]]; rewrite U.
  - split; [intros <-; right; left; exact J|].
    intros [[K _]|[K|[_ [K _]]]]; [destruct (P K)| |].
    + exact (combine_inj _ _ _ J K).
    + destruct K. exact (proj1 (combine_plain _ _ J)).
  - split; [intros <-; right; right; split; [exact P|split; [exact J|reflexivity]]|].
    intros [[K _]|[K|[_ [_ K]]]]; [destruct (P K)| |symmetry; exact K].
    destruct J. exact (proj1 (combine_plain _ _ K)).
Qed.

(** [join_graph_enum_variant_name] is the spelling of the specification. *)
Lemma variant_spec n : forall v, variant n = v <-> enum_value n v.
Proof.
  unfold enum_value. induction n as [|c n IH]; intros v; cbn [variant list_ascii_of_string].
  - split.
    + intros <-. constructor.
    + intros F. inversion F. destruct v; [reflexivity|discriminate].
  - split.
    + intros <-. cbn [list_ascii_of_string]. constructor; [apply variant_char_spec; reflexivity|].
      apply IH. reflexivity.
    + intros F. destruct v as [|d v]; cbn [list_ascii_of_string] in F; [inversion F|].
      inversion F as [|a b x y C R]; subst. apply variant_char_spec in C. apply IH in R. subst.
      reflexivity.
Qed.

Lemma variant_value n : enum_value n (variant n).
Proof. apply variant_spec. reflexivity. Qed.

Lemma enum_char_no_lower c d : enum_char c d -> ~ In d lower_letters.
Proof.
  intros [[_ ->]|[J|[_ [J ->]]]].
  - cbn. intuition discriminate.
  - intros K. apply combine_plain in J. destruct J as [_ [J _]]. cbn in J.
    repeat (destruct J as [<-|J]; [cbn in K; intuition discriminate|]). destruct J.
  - exact J.
Qed.

(** No value of [join__Graph] has a lower case letter. *)
Lemma value_no_lower n v c :
  enum_value n v -> In c (list_ascii_of_string v) -> ~ In c lower_letters.
Proof.
  unfold enum_value. intros F.
  induction F as [|a b x y C R IH]; intros J; [destruct J|].
  destruct J as [<-|J]; [exact (enum_char_no_lower _ _ C)|exact (IH J)].
Qed.

(** ** Labels *)

Lemma strip_prefix_app p : forall r, strip_prefix p (p ++ r)%string = Some r.
Proof.
  induction p as [|a p IH]; intros r; [reflexivity|].
  cbn [String.append strip_prefix]. rewrite Ascii.eqb_refl. apply IH.
Qed.

Lemma strip_prefix_some p : forall s r, strip_prefix p s = Some r -> s = (p ++ r)%string.
Proof.
  induction p as [|a p IH]; intros s r E; cbn [strip_prefix] in E.
  - injection E as ->. reflexivity.
  - destruct s as [|b s]; [discriminate|]. destruct (Ascii.eqb a b) eqn:Q; [|discriminate].
    apply Ascii.eqb_eq in Q. subst b. apply IH in E. subst s. reflexivity.
Qed.

Lemma strip_paren_app d : strip_paren (d ++ ")")%string = Some d.
Proof.
  induction d as [|c d IH]; [reflexivity|].
  cbn [String.append strip_paren]. destruct (d ++ ")")%string eqn:E; [destruct d; discriminate|].
  rewrite IH. reflexivity.
Qed.

Lemma strip_paren_some s : forall d, strip_paren s = Some d -> s = (d ++ ")")%string.
Proof.
  induction s as [|c s IH]; intros d E; cbn [strip_paren] in E; [discriminate|].
  destruct s as [|c' s'].
  - destruct (Ascii.eqb c ")") eqn:Q; [|discriminate]. apply Ascii.eqb_eq in Q. subst c.
    injection E as <-. reflexivity.
  - destruct (strip_paren (String c' s')) as [e|] eqn:P; [|discriminate].
    cbn [option_map] in E. injection E as <-. rewrite (IH e eq_refl). reflexivity.
Qed.

Lemma digit_zero c : N_of_ascii c = 48%N -> c = "0"%char.
Proof. intros E. rewrite <- (ascii_N_embedding c), E. reflexivity. Qed.

Lemma digit_one c : N_of_ascii c = 49%N -> c = "1"%char.
Proof. intros E. rewrite <- (ascii_N_embedding c), E. reflexivity. Qed.

Lemma u8_step c r acc v :
  u8_digits (String c r) acc = Some v ->
  (48 <= N_of_ascii c <= 57)%N /\ (acc * 10 + (N_of_ascii c - 48) <= 255)%N
  /\ u8_digits r (acc * 10 + (N_of_ascii c - 48)) = Some v.
Proof.
  cbn [u8_digits]. intros E.
  destruct ((48 <=? N_of_ascii c)%N && (N_of_ascii c <=? 57)%N) eqn:D; [|discriminate].
  apply andb_true_iff in D. destruct D as [D1 D2]. apply N.leb_le in D1, D2.
  destruct (acc * 10 + (N_of_ascii c - 48) <=? 255)%N eqn:L; [|discriminate].
  apply N.leb_le in L. split; [split; assumption|]. split; assumption.
Qed.

Lemma u8_hundred d : u8_digits d 0 = Some 100%N ->
  exists zeros, (forall c, In c (list_ascii_of_string zeros) -> c = "0"%char)
                /\ d = (zeros ++ "100")%string.
Proof.
  induction d as [|c d IH]; intros E; [discriminate|].
  apply u8_step in E. destruct E as [B [_ E]].
  remember (0 * 10 + (N_of_ascii c - 48))%N as k eqn:K.
  destruct (N.eq_dec k 0) as [Z|Z].
  - rewrite Z in E. destruct (IH E) as [z [HZ ->]].
    exists (String c z). split; [|reflexivity].
    cbn [list_ascii_of_string]. intros x [<-|J]; [apply digit_zero; lia|exact (HZ x J)].
  - destruct d as [|c1 d]; [cbn in E; injection E as E; lia|].
    apply u8_step in E. destruct E as [B1 [_ E]].
    destruct d as [|c2 d]; [cbn in E; injection E as E; lia|].
    apply u8_step in E. destruct E as [B2 [_ E]].
    destruct d as [|c3 d].
    + cbn in E. injection E as E. exists EmptyString.
      split; [intros x []|].
      rewrite (digit_one c), (digit_zero c1), (digit_zero c2) by lia. reflexivity.
    + apply u8_step in E. destruct E as [B3 [L _]]. lia.
Qed.

Lemma u8_zeros z : (forall c, In c (list_ascii_of_string z) -> c = "0"%char) ->
  u8_digits (z ++ "100")%string 0 = Some 100%N.
Proof.
  induction z as [|c z IH]; intros H; [reflexivity|].
  rewrite (H c) by (left; reflexivity). cbn [String.append u8_digits].
  apply IH. intros x J. apply H. right. exact J.
Qed.

Lemma append_assoc (a b c : string) : ((a ++ b) ++ c)%string = (a ++ (b ++ c))%string.
Proof. induction a as [|x a IH]; [reflexivity|]. cbn [String.append]. rewrite IH. reflexivity. Qed.

(** The writer's test of the label is the specification's. *)
Lemma replaces_all_spec l :
  replaces_all (option_map parse_label l) = true <-> full_label l.
Proof.
  unfold full_label. destruct l as [l|]; cbn [option_map].
  2: { split; [left; reflexivity|reflexivity]. }
  unfold parse_label. split.
  - intros R. right.
    destruct (strip_prefix "percent(" l) as [r|] eqn:P; [|discriminate].
    destruct (strip_paren r) as [d|] eqn:Q; [|discriminate].
    destruct (u8_from_str d) as [n|] eqn:U; [|discriminate].
    apply strip_prefix_some in P. apply strip_paren_some in Q.
    cbn [replaces_all] in R. apply N.eqb_eq in R. subst n.
    assert (G : exists sign zeros, (sign = "" \/ sign = "+")
                /\ (forall c, In c (list_ascii_of_string zeros) -> c = "0"%char)
                /\ d = (sign ++ zeros ++ "100")%string).
    { unfold u8_from_str in U. destruct d as [|c d]; [discriminate|].
      destruct (Ascii.eqb c "+") eqn:S1.
      - apply Ascii.eqb_eq in S1. subst c. destruct d as [|c d]; [discriminate|].
        apply u8_hundred in U. destruct U as [z [HZ ->]].
        exists "+", z. split; [right; reflexivity|]. split; [exact HZ|reflexivity].
      - apply u8_hundred in U. destruct U as [z [HZ ->]].
        exists "", z. split; [left; reflexivity|]. split; [exact HZ|reflexivity]. }
    destruct G as [sg [z [HS [HZ ->]]]]. exists sg, z. split; [exact HS|]. split; [exact HZ|].
    subst r l. f_equal. rewrite !append_assoc. reflexivity.
  - intros [E|[sg [z [HS [HZ E]]]]]; [discriminate|].
    injection E as ->. cbn [String.append].
    change (String "p" (String "e" (String "r" (String "c" (String "e" (String "n" (String "t"
             (String "(" (sg ++ z ++ "100)"))))))))%string)
      with ("percent(" ++ (sg ++ z ++ "100)"))%string.
    rewrite strip_prefix_app.
    replace (sg ++ z ++ "100)")%string with ((sg ++ z ++ "100") ++ ")")%string
      by (rewrite !append_assoc; reflexivity).
    rewrite strip_paren_app.
    assert (U : u8_from_str (sg ++ z ++ "100")%string = Some 100%N).
    { destruct HS as [->| ->].
      - cbn [String.append]. pose proof (u8_zeros z HZ) as Q. unfold u8_from_str.
        destruct z as [|c z]; [reflexivity|]. rewrite (HZ c) in * by (left; reflexivity).
        exact Q.
      - cbn [String.append]. unfold u8_from_str. rewrite Ascii.eqb_refl.
        pose proof (u8_zeros z HZ) as Q. destruct (z ++ "100")%string eqn:D; [destruct z; discriminate|].
        exact Q. }
    rewrite U. reflexivity.
Qed.
