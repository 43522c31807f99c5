(** Specification: the query after expanding every fragment, and its measures. *)
From Coq Require Import List String Arith.
From Verif.Limits Require Import Model.
Import ListNotations.

(** A field tree without any fragment. *)
Inductive ftree := FNode (alias : bool) (children : list ftree).

Inductive expands (fr : fragments) : sels -> list ftree -> Prop :=
| ex_nil : expands fr SNil []
| ex_field a sub ch rest ts : expands fr sub ch -> expands fr rest ts ->
    expands fr (SField a sub rest) (FNode a ch :: ts)
| ex_inline sub ts1 rest ts2 : expands fr sub ts1 -> expands fr rest ts2 ->
    expands fr (SInline sub rest) (ts1 ++ ts2)
| ex_spread n body ts1 rest ts2 : lookup fr n = Some body -> expands fr body ts1 -> expands fr rest ts2 ->
    expands fr (SSpread n rest) (ts1 ++ ts2).

Fixpoint t_size (t : ftree) : nat := match t with FNode _ ch => S (list_sum (map t_size ch)) end.
Fixpoint t_aliases (t : ftree) : nat :=
  match t with FNode a ch => (if a then 1 else 0) + list_sum (map t_aliases ch) end.
Fixpoint t_depth (t : ftree) : nat := match t with FNode _ ch => S (list_max (map t_depth ch)) end.
Definition size (ts : list ftree) := list_sum (map t_size ts).
Definition aliases (ts : list ftree) := list_sum (map t_aliases ts).
Definition depth (ts : list ftree) := list_max (map t_depth ts).

Definition at_most (n : nat) (max : option nat) : Prop := match max with Some m => n <= m | None => True end.
Definition within (lim : limits) (ts : list ftree) : Prop :=
  at_most (List.length ts) (max_root_fields lim) /\ at_most (depth ts) (max_depth lim) /\
  at_most (aliases ts) (max_aliases lim) /\ at_most (size ts) (max_complexity lim).

(** Fragment references: [mentions s n]: a spread of [n] occurs in the text of [s]. *)
Fixpoint mentions (s : sels) (n : string) : Prop :=
  match s with
  | SNil => False
  | SField _ sub rest | SInline sub rest => mentions sub n \/ mentions rest n
  | SSpread m rest => m = n \/ mentions rest n
  end.
Inductive reaches (fr : fragments) : sels -> string -> Prop :=
| re_direct s n : mentions s n -> reaches fr s n
| re_step s m body n : mentions s m -> lookup fr m = Some body -> reaches fr body n -> reaches fr s n.
(** Some fragment used by the document uses itself, directly or not. *)
Definition cyclic (fr : fragments) (doc : sels) : Prop :=
  exists n body, reaches fr doc n /\ lookup fr n = Some body /\ reaches fr body n.
(** The document uses a fragment that is not defined. *)
Definition dangling (fr : fragments) (doc : sels) : Prop :=
  exists n, reaches fr doc n /\ lookup fr n = None.
