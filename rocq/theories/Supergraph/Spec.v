(** * What the supergraph must say about a field

    Nothing here mentions the composer, the writer or the reader. *)

From Coq Require Import NArith Ascii String List Bool.
From Verif.Supergraph Require Import Model.
Import ListNotations.
Local Open Scope string_scope.
Local Open Scope nat_scope.
Local Open Scope list_scope.

(** Lower case letters. *)
Definition lower_letters : list ascii := list_ascii_of_string "abcdefghijklmnopqrstuvwxyz".
Definition upper_letters : list ascii := list_ascii_of_string "ABCDEFGHIJKLMNOPQRSTUVWXYZ".

(** How the character [c] of a subgraph's name is written in [join__Graph]. *)
Definition enum_char (c d : ascii) : Prop :=
  (In c ["-"; "_"; " "]%char /\ d = "_"%char)
  \/ In (c, d) (combine lower_letters upper_letters)
  \/ (~ In c ["-"; "_"; " "]%char /\ ~ In c lower_letters /\ d = c).

(** [v] is the value of [join__Graph] of the subgraph named [n]. *)
Definition enum_value (n v : string) : Prop :=
  Forall2 enum_char (list_ascii_of_string n) (list_ascii_of_string v).

(** A label that leaves nothing to the former subgraph: there is none, or it says
    one hundred percent, with a sign and leading zeros as may be. *)
Definition full_label (l : option string) : Prop :=
  l = None
  \/ exists sign zeros,
       (sign = "" \/ sign = "+")
       /\ (forall c, In c (list_ascii_of_string zeros) -> c = "0"%char)
       /\ l = Some ("percent(" ++ sign ++ zeros ++ "100)")%string.

Section Field.
Variable ty : Type.
Variable fs : Type.

(** Some source takes the field over from the subgraph [g], entirely. *)
Definition taken_over (names : list string) (sources : list (source ty fs)) (g : nat) : Prop :=
  exists s n l,
    In s sources /\ s_override s = Some (n, l) /\ full_label l /\ nth_error names g = Some n.

(** [s] is the definition of the field in its subgraph, and nobody took it over. *)
Definition stays (names : list string) (sources : list (source ty fs)) (s : source ty fs) : Prop :=
  In s sources /\ ~ taken_over names sources (s_graph s).

(** The subgraph resolves the field itself: it is not external there, or it is one
    of the fields of a key. *)
Definition own (s : source ty fs) : Prop := s_external s = false \/ s_key s = true.

Definition serves (names : list string) (sources : list (source ty fs)) (g : nat) : Prop :=
  exists s, stays names sources s /\ s_graph s = g /\ own s.

(** A field of a composed type whose subgraphs are named [names]; [parents] are
    those of the type. *)
Record field_of (names : list string) (parents : list nat) (sources : list (source ty fs)) : Prop := {
  fo_values : forall i j n m v,
    nth_error names i = Some n -> nth_error names j = Some m ->
    enum_value n v -> enum_value m v -> i = j;
  fo_parents : forall g, In g parents -> g < List.length names;
  fo_once : NoDup (map (@s_graph ty fs) sources);
  fo_sources : forall s, In s sources -> In (s_graph s) parents }.

(** An override names a subgraph the way the engine reads it, by its value of
    [join__Graph], only where it takes the field over entirely from it. *)
Definition overrides_read (names : list string) (sources : list (source ty fs)) : Prop :=
  forall s from l g n,
    stays names sources s -> s_override s = Some (from, l) ->
    nth_error names g = Some n -> enum_value n from ->
    n = from /\ full_label l.

(** A name is the origin of one override at most, never of one in the subgraph of
    that name, and what is external has no requirements of its own. *)
Record acceptable (names : list string) (sources : list (source ty fs)) : Prop := {
  ac_once : forall i j s s' from l l',
    nth_error sources i = Some s -> nth_error sources j = Some s' ->
    s_override s = Some (from, l) -> s_override s' = Some (from, l') -> i = j;
  ac_self : forall s from l,
    In s sources -> s_override s = Some (from, l) -> nth_error names (s_graph s) <> Some from;
  ac_external : forall s,
    In s sources -> s_external s = true -> s_requires s = None /\ s_provides s = None }.

(** Every override is from a name with a lower case letter. *)
Definition overrides_lower (sources : list (source ty fs)) : Prop :=
  forall s from l,
    In s sources -> s_override s = Some (from, l) ->
    exists c, In c (list_ascii_of_string from) /\ In c lower_letters.

End Field.
