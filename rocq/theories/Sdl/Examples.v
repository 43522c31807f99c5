(** * C110: examples and texts that are not read back *)

From Coq Require Import String List NArith Bool Arith Lia.
From Verif Require Import Introspection.Render Introspection.Grammar.
From Verif.Sdl Require Import Model Spec Facts Properties.
Import ListNotations.
Local Open Scope string_scope.
Local Open Scope list_scope.
Local Open Scope N_scope.

Definition lf : text := [10].
Definition two : text := [32; 32].

(** A reader of block strings, for computation. *)
Definition read_back (t : text) : option (text * text) :=
  match skip t with
  | 34 :: 34 :: 34 :: u =>
      match read_block u with
      | Some (raw, rest) => Some (block_value raw, rest)
      | None => None
      end
  | _ => None
  end.

Lemma skip_blanks s t : (forall c, In c s -> blank_char c = true) -> skip (s ++ 34 :: t) = 34 :: t.
Proof.
  induction s as [|c s IH]; intros B; [reflexivity|]. cbn [app skip].
  destruct (blank_cases c (B c (or_introl eq_refl))) as [->| ->]; cbn [ignored];
    (apply IH; intros x J; apply B; right; exact J).
Qed.

Lemma read_back_ok t v rest : block_string t v rest -> read_back t = Some (v, rest).
Proof.
  intros [s [u [raw [-> [B [R ->]]]]]]. unfold read_back. cbn [app].
  rewrite (skip_blanks s _ B), R. reflexivity.
Qed.

(** Two paragraphs, in a field. *)
Definition paragraphs : list text := [codes "The ""price""."; []; codes "In euros \o/ -"; codes "or else"].

Lemma line_tidy c l e : visible_char c = true -> visible_char e = true ->
  forallb (fun x => negb ((x =? 10) || (x =? 13))) (c :: l ++ [e]) = true -> tidy_line (c :: l ++ [e]).
Proof.
  intros V W F. rewrite forallb_forall in F. exists c. split; [reflexivity|]. split; [exact V|].
  exists e. split; [cbn [rev]; rewrite rev_app_distr; reflexivity|]. split; [exact W|].
  split; intros J; specialize (F _ J); discriminate.
Qed.

Example C110_ex :
  block_string (description (join paragraphs) two ++ codes "price: Int") (join paragraphs)
    (10 :: codes "price: Int")
  /\ description (join paragraphs) two
     = codes "  """"""" ++ lf ++ codes "  The ""price""." ++ lf ++ codes "  " ++ lf
       ++ codes "  In euros \o/ -" ++ lf ++ codes "  or else" ++ lf ++ codes "  """"""" ++ lf.
Proof.
  split; [|vm_compute; reflexivity].
  apply C110_tidy.
  - apply tidy_gap; [|apply tidy_next; [|apply tidy_one]].
    + apply (line_tidy 84 (codes "he ""price""") 46); vm_compute; reflexivity.
    + apply (line_tidy 73 (codes "n euros \o/ ") 45); vm_compute; reflexivity.
    + apply (line_tidy 111 (codes "r els") 101); vm_compute; reflexivity.
  - intros H. apply has3_spec in H. vm_compute in H. discriminate.
  - intros c J. revert c J. apply Forall_forall. vm_compute. repeat constructor.
  - intros c [<-|[<-|[]]]; reflexivity.
Qed.

(** A description of Windows with indented lines and empty ones around it. *)
Example C110_ex_words :
  read_back (description (lf ++ codes "  one" ++ [13; 10] ++ lf ++ codes "    two" ++ lf ++ lf) [] ++ codes "type T")
  = Some (codes "one" ++ lf ++ lf ++ codes "two", 10 :: codes "type T").
Proof. vm_compute. reflexivity. Qed.

Example C110_ex_literal : quoted_string (literal (codes "a ""b"" \ c" ++ [9; 8232]) ++ [41]) (codes "a ""b"" \ c" ++ [9; 8232]) [41].
Proof.
  apply C110_literal. cbn [codes app]. repeat (apply Forall_cons; [unfold plain; cbn; lia|]).
  apply Forall_nil.
Qed.

(** ** What is not read back *)

(** Three quotes in a description end it: what follows them is read as the
    definitions of the document. *)
Theorem C110_quotes_refuted :
  exists d v rest,
    d = codes "x""""""type Query { secret: Int } """"""y"
    /\ block_string (description d [] ++ codes "type T") v rest
    /\ v = codes "x"
    /\ rest = codes "type Query { secret: Int } """"""y" ++ lf ++ codes """""""" ++ lf ++ codes "type T".
Proof.
  do 3 eexists. split; [reflexivity|]. split; [|split; reflexivity].
  exists []. do 2 eexists. split; [reflexivity|]. split; [intros c []|]. split; [vm_compute; reflexivity|].
  vm_compute. reflexivity.
Qed.

(** The indentation inside a description is lost: a nested list becomes flat. *)
Theorem C110_indent_refuted :
  exists d v, d = codes "- a" ++ lf ++ codes "  - b"
    /\ block_string (description d []) v lf /\ v = codes "- a" ++ lf ++ codes "- b".
Proof.
  do 2 eexists. split; [reflexivity|]. split; [|reflexivity].
  exists []. do 2 eexists. split; [reflexivity|]. split; [intros c []|]. split; vm_compute; reflexivity.
Qed.

(** What was read back is not always read back again: empty lines go one by one. *)
Theorem C110_again_refuted :
  exists d v w,
    block_string (description d []) v lf /\ block_string (description v []) w lf
    /\ v = codes "a" ++ lf ++ lf ++ lf ++ codes "b" /\ w = codes "a" ++ lf ++ lf ++ codes "b".
Proof.
  exists (codes "a" ++ lf ++ lf ++ codes "  " ++ lf ++ codes "b"). do 2 eexists.
  split; [|split; [|split; reflexivity]];
    (exists []; do 2 eexists; split; [reflexivity|]; split; [intros c []|]; split; vm_compute; reflexivity).
Qed.

(** The control character 31 is written with its decimal digits and read back as
    another. *)
Theorem C110_control_refuted :
  exists s v, quoted_string (literal s) v [] /\ s = [31] /\ v = [49].
Proof.
  do 2 eexists. split; [|split; reflexivity]. exists []. eexists. split; [reflexivity|].
  split; [intros c []|]. vm_compute. reflexivity.
Qed.

(** The description of a built-in scalar is written before the next definition, and
    becomes its description. *)
Theorem C110_builtin_refuted :
  exists builtin d,
    scalars_sdl builtin [(codes "Int", Some d); (codes "Date", None)]
    = scalars_sdl builtin [(codes "Date", Some d)]
    /\ builtin (codes "Int") = true /\ builtin (codes "Date") = false.
Proof.
  exists (text_eqb (codes "Int")), (codes "A number"). vm_compute. auto.
Qed.

(** A backslash at the end of a description takes the closing quote away: the
    string goes on into what follows. *)
Theorem C110_mcp_backslash_refuted :
  exists d rest,
    d = codes "C:\"
    /\ (forall v r, ~ quoted_string (mcp_description d [] ++ rest) v r)
    /\ rest = codes "type T { a: Int }".
Proof.
  do 2 eexists. split; [reflexivity|]. split; [|reflexivity].
  intros v r [s [u [E [B R]]]].
  assert (K : u = tl (mcp_description (codes "C:\") [] ++ codes "type T { a: Int }")).
  { apply (blank_prefix s []); [exact B|intros c []|]. cbn [app]. symmetry. exact E. }
  subst u. vm_compute in R. discriminate.
Qed.

(** Quotes in a description of several lines come back with backslashes. *)
Theorem C110_mcp_quotes_refuted :
  exists d v, d = codes "say ""hi""" ++ lf ++ codes "twice"
    /\ block_string (mcp_description d []) v lf
    /\ v = codes "say \""hi\""" ++ lf ++ codes "twice".
Proof.
  do 2 eexists. split; [reflexivity|]. split; [|reflexivity].
  exists []. do 2 eexists. split; [reflexivity|]. split; [intros c []|]. split; vm_compute; reflexivity.
Qed.

Example C110_ex_mcp :
  read_back (mcp_description (codes "one " ++ lf ++ lf ++ codes "  two") two ++ codes "type T")
  = Some (codes "one" ++ lf ++ lf ++ codes "  two", 10 :: codes "type T")
  /\ quoted_string (mcp_description (codes "a ""b""  ") two) (codes "a ""b""") lf.
Proof.
  split; [vm_compute; reflexivity|]. exists two. eexists. split; [reflexivity|].
  split; [intros c [<-|[<-|[]]]; reflexivity|]. vm_compute. reflexivity.
Qed.
