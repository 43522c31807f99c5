(** Specification of the delivery of subscription events. *)
From Coq Require Import List Arith Bool.
From Verif.Subscription Require Import Model.
Import ListNotations.

(** Events whose responses were sent, in that order. *)
Definition sent {R : Type} (log : list (event R)) : list nat := flat_map (fun e => match e with Sent k _ => [k] | _ => [] end) log.
(** Every response sent is that of the execution of the event. *)
Definition genuine {R : Type} (log : list (event R)) : Prop :=
  forall before k r after, log = before ++ Sent k r :: after -> In (Ended k r) before.
(** The execution of an event starts before it ends and ends once. *)
Definition executed {R : Type} (log : list (event R)) : Prop :=
  forall before k r after, log = before ++ Ended k r :: after -> In (Taken k) before /\ forall r', ~ In (Ended k r') before.
(** Events executing at the end of [log]. *)
Definition executing {R : Type} (log : list (event R)) (k : nat) : Prop := In (Taken k) log /\ forall r, ~ In (Ended k r) log.
