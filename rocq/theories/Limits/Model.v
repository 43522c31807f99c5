(** Model of the operation limits checked after parsing.
    Source: crates/engine/operation/src/validation/after_parsing.rs.
    Simplifications: spans and error payloads are dropped; counters are unbounded naturals (a
    [usize] counter would need 2^64 visited fields to wrap); a missing limit is [None] instead of
    [usize::MAX]. *)
From Coq Require Import List String Bool Arith.
Import ListNotations.

(** A selection set as parsed: a sequence of fields (with or without alias), inline fragments and
    fragment spreads.  (The sequence is built into the type to get plain structural recursion.) *)
Inductive sels :=
| SNil
| SField (alias : bool) (sub rest : sels)
| SInline (sub rest : sels)
| SSpread (name : string) (rest : sels).

(** The document's fragments; the parser's lookup takes the first one with the name. *)
Definition fragments := list (string * sels).
Fixpoint lookup (fr : fragments) (name : string) : option sels :=
  match fr with
  | [] => None
  | (n, body) :: fr' => if String.eqb n name then Some body else lookup fr' name
  end.

Record limits := { max_root_fields : option nat; max_depth : option nat;
                   max_aliases : option nat; max_complexity : option nat }.
Definition exceeds (n : nat) (max : option nat) : bool :=
  match max with Some m => m <? n | None => false end.

(** after_parsing.rs:65-75 *)
Record visitor := { stack : list string; root_fields : nat; current_depth : nat;
                    aliases_count : nat; complexity : nat }.
Definition initial : visitor :=
  {| stack := []; root_fields := 0; current_depth := 0; aliases_count := 0; complexity := 0 |}.

Inductive error := TooManyRootFields | TooComplex | TooManyAliases | TooDeep | UnknownFragment | FragmentCycle.
(** [OutOfFuel] is an artefact of the model, excluded by a theorem. *)
Inductive result := Ok (v : visitor) | Err (e : error) | OutOfFuel.

Section Visit.
Variable fr : fragments.
Variable lim : limits.

(** after_parsing.rs:79-104 (visit_selection_set), 106-131 (visit_field), 133-160
    (visit_fragment_spread), 162-164 (visit_inline_fragment).  Fuel is consumed only when entering
    a named fragment; everything else is structural. *)
Fixpoint visit (fuel : nat) : visitor -> sels -> result :=
  fix go (v : visitor) (s : sels) : result :=
  match s with
  | SNil => Ok v
  | SField alias sub rest =>
      let rf := root_fields v + (if current_depth v =? 0 then 1 else 0) in
      if exceeds rf (max_root_fields lim) then Err TooManyRootFields else
      let cx := complexity v + 1 in
      if exceeds cx (max_complexity lim) then Err TooComplex else
      let al := aliases_count v + (if alias then 1 else 0) in
      if exceeds al (max_aliases lim) then Err TooManyAliases else
      let d := current_depth v + 1 in
      if exceeds d (max_depth lim) then Err TooDeep else
      match go {| stack := stack v; root_fields := rf; current_depth := d;
                  aliases_count := al; complexity := cx |} sub with
      | Ok v' => go {| stack := stack v'; root_fields := root_fields v';
                       current_depth := current_depth v' - 1;
                       aliases_count := aliases_count v'; complexity := complexity v' |} rest
      | r => r
      end
  | SInline sub rest => match go v sub with Ok v' => go v' rest | r => r end
  | SSpread name rest =>
      if existsb (String.eqb name) (stack v) then Err FragmentCycle else
      match lookup fr name with
      | None => Err UnknownFragment
      | Some body =>
          match fuel with
          | O => OutOfFuel
          | S fuel =>
              match visit fuel {| stack := stack v ++ [name]; root_fields := root_fields v;
                                  current_depth := current_depth v; aliases_count := aliases_count v;
                                  complexity := complexity v |} body with
              | Ok v' => go {| stack := removelast (stack v'); root_fields := root_fields v';
                               current_depth := current_depth v'; aliases_count := aliases_count v';
                               complexity := complexity v' |} rest
              | r => r
              end
          end
      end
  end.
End Visit.

(** after_parsing.rs:41-63 *)
Definition validate (fr : fragments) (lim : limits) (doc : sels) : result :=
  visit fr lim (S (List.length fr)) initial doc.
