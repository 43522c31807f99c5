(** What suggestions are for. *)
From Coq Require Import List Bool Ascii String NArith.
From Verif.Lint Require Import Model.
Import ListNotations.
Open Scope list_scope.

Definition Upper (c : ascii) : Prop := (65 <= N_of_ascii c <= 90)%N.
Definition Lower (c : ascii) : Prop := (97 <= N_of_ascii c <= 122)%N.
Definition Digit (c : ascii) : Prop := (48 <= N_of_ascii c <= 57)%N.
Definition Alnum (c : ascii) : Prop := Upper c \/ Lower c \/ Digit c.

(** The same letter or digit, in either case. *)
Inductive Letter : ascii -> ascii -> Prop :=
| letter_same c : Alnum c -> Letter c c
| letter_up c d : Lower c -> N_of_ascii d = (N_of_ascii c - 32)%N -> Letter c d
| letter_down c d : Upper c -> N_of_ascii d = (N_of_ascii c + 32)%N -> Letter c d.

(** The same letters and digits in the same order, whatever is between them. *)
Inductive Reads : text -> text -> Prop :=
| reads_nil : Reads [] []
| reads_left c a b : ~ Alnum c -> Reads a b -> Reads (c :: a) b
| reads_right c a b : ~ Alnum c -> Reads a b -> Reads a (c :: b)
| reads_both c d a b : Letter c d -> Reads a b -> Reads (c :: a) (d :: b).

(** A word in capitals and digits. *)
Definition Shout (w : text) : Prop := w <> [] /\ Forall (fun c => Upper c \/ Digit c) w.

(** WORDS_IN_CAPITALS, with single underscores between them. *)
Inductive Shouty : text -> Prop :=
| shouty_one w : Shout w -> Shouty w
| shouty_more w s : Shout w -> Shouty s -> Shouty (w ++ "_"%char :: s).

(** Names that are left alone: with an underscore in front, or with letters, two underscores and something more. *)
Definition Exempt (s : text) : Prop :=
  (exists r, s = "_"%char :: r) \/
  (exists a c r, s = a ++ "_"%char :: "_"%char :: c :: r /\ a <> [] /\ Forall (fun c => Upper c \/ Lower c) a).

(** Words of names in camel case. *)
Definition Low (w : text) : Prop := Forall (fun c => Lower c \/ Digit c) w /\ Exists Lower w.
Definition Capitalised (w : text) : Prop := exists u r, w = u :: r /\ Upper u /\ Low r.
