(** Model of the loop that answers the events of a subscription.
    Source: crates/engine/src/execution/operation/coordinator.rs, [SubscriptionExecution::execute] (174-239).
    Simplifications: events are numbered in the order in which the subgraph produced them; the execution of
    an event (Scheduler/Model.v, [run_event]) is reduced to the moment it finishes and its response, both
    chosen by the environment; [FuturesOrdered] is a queue whose head is returned once it is finished, all of
    its members making progress concurrently (futures crate, not modelled further).  One [Poll] is one
    iteration of a loop; it does nothing when all the futures it awaits are pending. *)
From Coq Require Import List Arith Bool.
Import ListNotations.

Section Response.
Variable R : Type.

(** In the main loop, in the loop after the end of the stream (230-238), finished, or given up because
    nobody reads the responses any more (201-203, 235-237). *)
Inductive phase := Loop | Drain | Done | Gone.
(** What can be observed: an event is taken from the stream and its execution starts; an execution
    finishes; a response is sent. *)
Inductive event := Taken (k : nat) | Ended (k : nat) (r : R) | Sent (k : nat) (r : R).
Record state :=
  { s_phase : phase;
    s_next : nat;                      (** first event not taken yet *)
    s_queue : list (nat * option R);   (** [response_futures] *)
    s_log : list event }.
Definition init : state := {| s_phase := Loop; s_next := 0; s_queue := []; s_log := [] |}.

(** The environment finishes an execution, or the loop is polled; [ready]: the stream has an item or is
    over; [accepted]: a response sent now is accepted. *)
Inductive op := Finish (k : nat) (r : R) | Poll (ready accepted : bool).

Fixpoint finish (k : nat) (r : R) (q : list (nat * option R)) : option (list (nat * option R)) :=
  match q with
  | [] => None
  | (j, v) :: q' =>
      if j =? k then match v with None => Some ((j, Some r) :: q') | Some _ => None end
      else match finish k r q' with Some q'' => Some ((j, v) :: q'') | None => None end
  end.
(** 207-227: the next item of a stream of [total] events, or its end. *)
Definition take (total : nat) (s : state) : state :=
  if s_next s <? total then
    {| s_phase := s_phase s; s_next := s_next s + 1; s_queue := s_queue s ++ [(s_next s, None)]; s_log := s_log s ++ [Taken (s_next s)] |}
  else {| s_phase := Drain; s_next := s_next s; s_queue := s_queue s; s_log := s_log s |}.
(** 197-204, 232-238: the response at the head of the queue, if it is there. *)
Definition deliver (accepted : bool) (s : state) : option state :=
  match s_queue s with
  | (k, Some r) :: q =>
      Some (if accepted
            then {| s_phase := s_phase s; s_next := s_next s; s_queue := q; s_log := s_log s ++ [Sent k r] |}
            else {| s_phase := Gone; s_next := s_next s; s_queue := q; s_log := s_log s |})
  | _ => None
  end.
Definition step (total : nat) (s : state) (o : op) : state :=
  match o with
  | Finish k r =>
      match finish k r (s_queue s) with
      | Some q => {| s_phase := s_phase s; s_next := s_next s; s_queue := q; s_log := s_log s ++ [Ended k r] |}
      | None => s
      end
  | Poll ready accepted =>
      match s_phase s with
      | Loop =>
          if length (s_queue s) =? 0 then if ready then take total s else s
          else if length (s_queue s) <? 3 then
            match deliver accepted s with
            | Some s' => s'
            | None => if ready then take total s else s
            end
          else match deliver accepted s with Some s' => s' | None => s end
      | Drain =>
          if length (s_queue s) =? 0 then {| s_phase := Done; s_next := s_next s; s_queue := s_queue s; s_log := s_log s |}
          else match deliver accepted s with Some s' => s' | None => s end
      | Done | Gone => s
      end
  end.
Definition run (total : nat) (ops : list op) : state := fold_left (step total) ops init.
End Response.
Arguments Loop : default implicits.
Arguments Taken {R} k.
Arguments Ended {R} k r.
Arguments Sent {R} k r.
Arguments Finish {R} k r.
Arguments Poll {R} ready accepted.
