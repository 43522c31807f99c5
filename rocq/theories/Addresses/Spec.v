(** What an address means to whoever serves it: the percent-decoded segments of its path (RFC 3986, section 2.1). *)
From Coq Require Import List Bool Ascii String NArith.
From Verif.Addresses Require Import Model.
Import ListNotations.
Open Scope char_scope.

Definition hex_value (c : ascii) : option N :=
  let n := N_of_ascii c in
  if (N.leb 48 n && N.leb n 57)%N then Some (n - 48)%N
  else if (N.leb 65 n && N.leb n 70)%N then Some (n - 55)%N
  else if (N.leb 97 n && N.leb n 102)%N then Some (n - 87)%N
  else None.

Fixpoint decode (s : text) : text :=
  match s with
  | "%" :: ((a :: b :: s') as s1) =>
    match hex_value a, hex_value b with
    | Some x, Some y => ascii_of_N (16 * x + y) :: decode s'
    | _, _ => "%" :: decode s1
    end
  | c :: s => c :: decode s
  | [] => []
  end.

(** As above, with a plus sign for a space (forms). *)
Definition form_decode (s : text) : text := decode (map (fun c => if Ascii.eqb c "+" then " " else c) s).

(** The document [d] of the client [c] in the branch [b]. *)
Definition Document (b c d : text) (address : list text) : Prop :=
  map decode address = [T "trusted-documents"; T "branch"; b; c; d].

(** Names that are one segment by themselves. *)
Definition Plain (s : text) : Prop :=
  ~ In "/" s /\ ~ In "\" s /\ ~ In "%" s /\ ~ In "009" s /\ ~ In "010" s /\ ~ In "013" s /\ s <> ["."] /\ s <> ["."; "."].

(** The digits of a hash. *)
Definition HexDigit (c : ascii) : Prop := In c (T "0123456789abcdef").
