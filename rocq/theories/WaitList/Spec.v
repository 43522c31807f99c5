(** What callers of the cache should get, in terms of what happened. *)
From Coq Require Import List Bool PeanoNat.
From Verif.WaitList Require Import Model.
Import ListNotations.

Section Spec.
  Variable V : Type.

  Notation event := (event V).

  Fixpoint count (p : event -> bool) (es : list event) : nat :=
    match es with
    | [] => 0
    | e :: es => (if p e then 1 else 0) + count p es
    end.

  Definition is_call (e : event) : bool := match e with Call _ => true | _ => false end.

  (** What lets another caller be told to compute the value: it was inserted or removed, or somebody didn't want to wait any longer. *)
  Definition renews (e : event) : bool :=
    match e with Insert _ _ | Remove _ | Timeout _ _ => true | _ => false end.

  (** The call [w] came after [before], and [later] happened since. *)
  Definition called (w : nat) (before later es : list event) : Prop :=
    es = before ++ Call V :: later /\ count is_call before = w.

  (** The wait is over for the caller [w]: it timed out, the list was taken by an [insert] or dropped by a [remove], or by another caller that timed out. *)
  Definition over (w : nat) (e : event) : Prop :=
    match e with
    | Timeout _ w' => w' = w
    | Take _ _ | Remove _ => True
    | Clean _ w' => w' <> w
    | _ => False
    end.

  (** How many callers were told that they are the one to compute the value. *)
  Fixpoint leaders (cs : list (caller V)) : nat :=
    match cs with
    | [] => 0
    | Leads _ :: cs => S (leaders cs)
    | _ :: cs => leaders cs
    end.
End Spec.
