(** What sharing a subscription should look like to a client, in terms of what happened. *)
From Coq Require Import List Bool PeanoNat.
From Verif.Dedup Require Import Model.
Import ListNotations.

Section Spec.
  Variables A K X : Type.
  Variable cap : nat.

  Notation event := (event A K X).

  (** What the guest of the [i]th task gave, in order; its error is the last. *)
  Fixpoint gave (i : nat) (es : list event) : list A :=
    match es with
    | [] => []
    | Next _ _ _ j items :: es => if Nat.eqb j i then items ++ gave i es else gave i es
    | GuestFails _ _ _ j e :: es => if Nat.eqb j i then e :: gave i es else gave i es
    | _ :: es => gave i es
    end.

  (** How many of these the task has passed on. *)
  Fixpoint sends (i : nat) (es : list event) : nat :=
    match es with
    | [] => 0
    | (Send _ _ _ j | SendError _ _ _ j) :: es => if Nat.eqb j i then S (sends i es) else sends i es
    | _ :: es => sends i es
    end.

  (** How many clients there are. *)
  Fixpoint clients (es : list event) : nat :=
    match es with
    | [] => 0
    | Subscribe _ _ _ _ _ :: es => S (clients es)
    | _ :: es => clients es
    end.

  (** The [j]th client came after [before] and asked the extension [x] for [k]. *)
  Definition client (j : nat) (before : list event) (x : X) (k : K) (es : list event) : Prop :=
    exists later, es = before ++ Subscribe _ _ _ x k :: later /\ clients before = j.

  (** A client is given the messages [l] from the position [p] up to [q]: one after the other, or it is told
      once that some were skipped, and then at least as many as are kept were sent after these. *)
  Inductive reads (l : list A) : nat -> list (option A) -> nat -> Prop :=
  | reads_nothing p : reads l p [] p
  | reads_next p a got q : nth_error l p = Some a -> reads l (S p) got q -> reads l p (Some a :: got) q
  | reads_lag p p' got q : p < p' -> p' + cap <= List.length l -> reads l p' got q -> reads l p (None :: got) q.
End Spec.
