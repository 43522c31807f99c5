(** Default values as text (C102). *)
From Coq Require Import String List NArith ZArith Bool Lia.
From Verif Require Import Introspection.Render Introspection.Grammar Introspection.ReadBack.
Import ListNotations.
Local Open Scope list_scope.
Local Open Scope N_scope.

Theorem C102_reads v : printable v -> exists p, parse (display v) = Some p /\ reads p v.
Proof. apply parse_display. Qed.
(** Exactly the strings of [plain] characters are read back. *)
Theorem C102_strings s : parse (display (SString s)) = Some (PString s) <-> Forall plain s.
Proof.
  split.
  - intros H. apply map_unquoted. unfold parse in H. cbn [display] in H. 
    pose proof (read_quoted s []) as R.
    destruct (p_value (S (List.length (write_quoted s))) (write_quoted s)) as [[p r]|] eqn:E; [|discriminate].
    unfold write_quoted in E. remember (flat_map quote_char s ++ [34]) as w eqn:Ew. cbn [p_value] in E.
    change (skip (34 :: w)) with (34 :: w) in E. cbn iota in E. change (34 =? 34) with true in E. cbn iota in E.
    rewrite R in E.
    assert (Ep : p = PString (map unquoted s)).
    { destruct w as [|q1 [|q2 w]]; try (now inversion E). destruct ((q1 =? 34) && (q2 =? 34)); [discriminate|now inversion E]. }
    destruct (skip r); [|discriminate]. injection H as H. congruence.
  - intros F. destruct (parse_display (SString s) (pr_string s F)) as (p & E & R). inversion R; subst. exact E.
Qed.
Definition t := codes.
(** An object with a quote in a string, a negative number, an enum value, null, a float. *)
Definition ex_value : svalue := SObject [
  (t "who"%string, SString [97; 34; 98]); (t "n"%string, SInt (-12)); (t "tags"%string, SList [SEnum (t "RED"%string); SNull]);
  (t "ok"%string, SBool true); (t "x"%string, SFloat (t "1.5e3"%string)); (t "e"%string, SObject [])].
Example C102_ex : printable ex_value /\
  display ex_value = t "{who:""a\""b"",n:-12,tags:[RED,null],ok:true,x:1.5e3,e:{}}"%string /\
  parse (display ex_value) = Some (PObject [
    (t "who"%string, PString [97; 34; 98]); (t "n"%string, PNum (t "-12"%string)); (t "tags"%string, PList [PEnum (t "RED"%string); PNull]);
    (t "ok"%string, PBool true); (t "x"%string, PNum (t "1.5e3"%string)); (t "e"%string, PObject [])]).
Proof.
  split; [|split; reflexivity].
  assert (Nm : forall n, match n with c :: r => name_start c && forallb name_char r | [] => false end = true -> name n).
  { intros [|c r]; [discriminate|]. rewrite andb_true_iff, forallb_forall. intros [A B]. split; [exact A|]. now apply Forall_forall. }
  constructor. repeat (constructor; [split; [apply Nm; reflexivity|cbn [snd]]|]); [..|constructor].
  - constructor. repeat (constructor; [unfold plain; lia|]). constructor.
  - constructor.
  - constructor. constructor; [|repeat constructor]. constructor; [apply Nm; reflexivity|discriminate..].
  - constructor.
  - constructor; [left; reflexivity|repeat constructor].
  - constructor. constructor.
Qed.
(** Other control characters are written with the decimal digits of their code after \u: U+000B
    becomes "\u0011", which is U+0011. *)
Theorem C102_control_refuted : exists s s', s <> s' /\
  display (SString s) = t """\u0011"""%string /\ parse (display (SString s)) = Some (PString s').
Proof. exists [11], [17]. split; [discriminate|split; reflexivity]. Qed.
