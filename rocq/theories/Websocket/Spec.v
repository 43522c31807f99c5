(** What a client may rely on, in terms of the events that were handled and the messages that were sent. *)
From Coq Require Import List Bool Arith NArith.
From Verif.Websocket Require Import Model.
Import ListNotations.

(** The messages of one task. *)
Definition of_task (k : nat) (l : list (option nat * message)) : list message :=
  map snd (filter (fun m => match fst m with Some k' => Nat.eqb k' k | None => false end) l).
Definition prefix {A} (a b : list A) : Prop := exists c, b = a ++ c.
(** Messages about an operation. *)
Definition about (i : id) (m : message) : Prop :=
  match m with MNext j _ | MError j _ | MComplete j => j = i | _ => False end.
Definition is_close (m : message) : Prop := match m with MClose _ => True | _ => False end.
(** The last thing said about an id is that it is subscribed. *)
Definition in_use (i : id) (heard : list event) : bool :=
  fold_left (fun b e =>
    match e with
    | Subscribe j _ => if Nat.eqb i j then true else b
    | Complete j => if Nat.eqb i j then false else b
    | _ => b
    end) heard false.
(** The operations of the events after [before]: those of ids that are not in use. *)
Fixpoint operations (before heard : list event) : list (id * nat) :=
  match heard with
  | [] => []
  | e :: heard => match e with Subscribe i r => if in_use i before then [] else [(i, r)] | _ => [] end ++ operations (before ++ [e]) heard
  end.
