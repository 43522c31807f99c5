(** What the users of a pool may rely on, in terms of the log. *)
From Coq Require Import List Bool PeanoNat.
From Verif.Pool Require Import Model.
Import ListNotations.

(** A call of the instance [i] didn't return. *)
Definition failed (i : nat) (l : list entry) : Prop :=
  exists h c o, In (Called h i c o) l /\ (o = Trapped \/ o = Cancelled).

(** What wasmtime guarantees: an instance that a call has left in the middle can't be entered again. *)
Definition credible (l : list entry) : Prop :=
  forall l1 l2 h i c b, l = l1 ++ Called h i c (Returned b) :: l2 -> ~ failed i l1.

(** The guest was asked to make a subscription and didn't yet drop it. *)
Fixpoint subscribed_from (b : bool) (i : nat) (l : list entry) : bool :=
  match l with
  | [] => b
  | Called _ j c o :: l =>
    subscribed_from (if Nat.eqb i j
                     then match c, o with
                          | CCreate, _ | CResolve, _ => true
                          | CDrop, Returned _ => false
                          | _, _ => b
                          end
                     else b) i l
  | _ :: l => subscribed_from b i l
  end.
Definition subscribed : nat -> list entry -> bool := subscribed_from false.

Fixpoint created (l : list entry) : nat := match l with [] => 0 | Created _ :: l => S (created l) | _ :: l => created l end.
Fixpoint destroyed (l : list entry) : nat := match l with [] => 0 | Destroyed _ :: l => S (destroyed l) | _ :: l => destroyed l end.

(** How often the session [h] was told that the next item can't be had because the guest has trapped. *)
Fixpoint trapped_next (h : nat) (l : list entry) : nat :=
  match l with
  | [] => 0
  | Called h' _ CNext Trapped :: l => (if Nat.eqb h h' then 1 else 0) + trapped_next h l
  | _ :: l => trapped_next h l
  end.
