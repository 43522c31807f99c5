(** Model of a websocket connection of a client.
    Source: crates/federated-server/src/router/graphql/ws/{accepter.rs (26-223), service.rs (108-120)},
    crates/engine/src/{websocket.rs, engine.rs (337-355: WebsocketSession::execute)}.
    Simplifications: a connection is a state and the inputs that tasks, timers, sockets and the client give it, one at a
    time, in any order; an input that can't happen in a state changes nothing.  The identity of a request and of a response
    is a number.  Texts are events, or not (the parser is not modelled), binary messages are texts or not UTF-8.
    A task that is aborted may go on until it next yields: it is [Stopping] until the runtime drops it ([Dropped]).
    The connection refuses to send anything after a close frame (tungstenite: SendAfterClosing). *)
From Coq Require Import List Bool Arith NArith.
Import ListNotations.
Local Open Scope nat_scope.
Local Open Scope list_scope.

(** websocket.rs:10-35; requests, responses and payloads of the initialisation as numbers. *)
Notation id := nat (only parsing).
Inductive event := Init | Subscribe (i : id) (request : nat) | Complete (i : id) | Ping | Pong.
(** What is received: recv_message (accepter.rs:208-222) skips [Frame], and ends the connection for [CloseFrame],
    [Broken] and [NotText].  [Text None]: not an event. *)
Inductive incoming := Text (e : option event) | NotText | Frame | CloseFrame | Broken.
(** Response::RefusedRequest and the others; engine.rs:345-354. *)
Inductive response := Refused (r : nat) | Other (r : nat).
Inductive message :=
| MNext (i : id) (r : nat) | MError (i : id) (r : nat) | MComplete (i : id) | MAck | MPing | MPong | MClose (code : N).
Definition message_of (i : id) (r : response) : message :=
  match r with Refused r => MError i r | Other r => MNext i r end.

Inductive phase :=
| Waiting          (* accept_websocket *)
| Creating         (* create_websocket_session *)
| Open (blocked : option message)   (* websocket_loop; with a message that is waiting for room in the queue *)
| Ended.
Inductive status := Running | Stopping | Over.
Record task := { t_id : id; t_status : status; t_sent : list message (* what it has sent so far, for statements only *) }.
Record state := {
  s_phase : phase;
  s_subs : list (id * nat);                    (* subscriptions: the task of an id *)
  s_tasks : list task;
  s_queue : list (option nat * message);       (* with the task that sent it, for statements only *)
  s_pump : bool;                               (* the task that sends the queue is alive *)
  s_out : list (option nat * message);         (* what was sent to the client *)
  s_executed : list (id * nat);                (* operations that were given to the engine, in order *)
  s_heard : list event                         (* events the loop has handled, for statements only *)
}.
Definition start : state :=
  {| s_phase := Waiting; s_subs := []; s_tasks := []; s_queue := []; s_pump := true; s_out := []; s_executed := []; s_heard := [] |}.

Inductive input :=
| Receive (m : incoming) (sent : bool)    (* [sent]: whether a direct answer (before the loop) can be sent *)
| Session (ok : bool) (sent : bool)       (* the session was created, or refused *)
| Elapsed                                 (* three seconds passed *)
| Yield (k : nat) (r : response)          (* the stream of task k gives a response *)
| Finish (k : nat)                        (* the stream of task k ends *)
| Dropped (k : nat)                       (* an aborted task is dropped *)
| Pump (ok : bool)                        (* the first message of the queue is sent *)
| Room.                                   (* the loop sends the message it's waiting with *)

Definition with_phase (p : phase) (s : state) : state :=
  {| s_phase := p; s_subs := s_subs s; s_tasks := s_tasks s; s_queue := s_queue s; s_pump := s_pump s; s_out := s_out s; s_executed := s_executed s; s_heard := s_heard s |}.
Definition with_tasks (l : list task) (s : state) : state :=
  {| s_phase := s_phase s; s_subs := s_subs s; s_tasks := l; s_queue := s_queue s; s_pump := s_pump s; s_out := s_out s; s_executed := s_executed s; s_heard := s_heard s |}.
Definition with_subs (l : list (id * nat)) (s : state) : state :=
  {| s_phase := s_phase s; s_subs := l; s_tasks := s_tasks s; s_queue := s_queue s; s_pump := s_pump s; s_out := s_out s; s_executed := s_executed s; s_heard := s_heard s |}.
Definition write (m : option nat * message) (s : state) : state :=
  {| s_phase := s_phase s; s_subs := s_subs s; s_tasks := s_tasks s; s_queue := s_queue s; s_pump := s_pump s; s_out := s_out s ++ [m]; s_executed := s_executed s; s_heard := s_heard s |}.
Definition enqueue (m : option nat * message) (s : state) : state :=
  {| s_phase := s_phase s; s_subs := s_subs s; s_tasks := s_tasks s; s_queue := s_queue s ++ [m]; s_pump := s_pump s; s_out := s_out s; s_executed := s_executed s; s_heard := s_heard s |}.
Definition hear (e : event) (s : state) : state :=
  {| s_phase := s_phase s; s_subs := s_subs s; s_tasks := s_tasks s; s_queue := s_queue s; s_pump := s_pump s; s_out := s_out s; s_executed := s_executed s; s_heard := s_heard s ++ [e] |}.
(** mpsc::channel(16), accepter.rs:65 *)
Definition room (s : state) : bool := List.length (s_queue s) <? 16.

Fixpoint update {A} (k : nat) (f : A -> A) (l : list A) {struct l} : list A :=
  match l, k with [], _ => [] | x :: l, O => f x :: l | x :: l, S k => x :: update k f l end.
Definition set_status (st : status) (t : task) : task := {| t_id := t_id t; t_status := st; t_sent := t_sent t |}.
Definition add_sent (m : message) (st : status) (t : task) : task := {| t_id := t_id t; t_status := st; t_sent := t_sent t ++ [m] |}.
(** AbortHandle::abort *)
Definition abort (t : task) : task := match t_status t with Running => set_status Stopping t | _ => t end.
(** The loop returns: its tasks are dropped (85), and with them its end of the queue. *)
Definition finish (s : state) : state := with_phase Ended (with_tasks (map abort (s_tasks s)) s).

Definition find_sub (i : id) (l : list (id * nat)) : option nat :=
  match find (fun x => Nat.eqb (fst x) i) l with Some x => Some (snd x) | None => None end.

(** accepter.rs:88-103: the loop sends an answer, once there's room, unless the queue is gone. *)
Definition answer (m : message) (s : state) : state :=
  if s_pump s then
    if room s then
      let s := enqueue (None, m) (with_phase (Open None) s) in
      match m with MClose _ => finish s | _ => s end
    else with_phase (Open (Some m)) s
  else finish s.

(** handle_incoming_event, 105-142 *)
Definition handle (e : event) (s : state) : state :=
  match e with
  | Subscribe i r =>
      match find_sub i (s_subs s) with
      | Some _ => answer (MClose 4409) s
      | None =>
          {| s_phase := s_phase s; s_subs := (i, List.length (s_tasks s)) :: s_subs s;
             s_tasks := s_tasks s ++ [{| t_id := i; t_status := Running; t_sent := [] |}];
             s_queue := s_queue s; s_pump := s_pump s; s_out := s_out s; s_executed := s_executed s ++ [(i, r)]; s_heard := s_heard s |}
      end
  | Complete i =>
      match find_sub i (s_subs s) with
      | Some k => with_tasks (update k abort (s_tasks s)) (with_subs (filter (fun x => negb (Nat.eqb (fst x) i)) (s_subs s)) s)
      | None => s
      end
  | Pong => s
  | Ping => answer MPong s
  | Init => answer (MClose 4429) s
  end.

(** accept_websocket, 155-203 *)
Definition accept (e : event) (sent : bool) (s : state) : state :=
  match e with
  | Init => with_phase Creating s
  | Ping => if sent then write (None, MPing) s else with_phase Ended s
  | Subscribe _ _ => with_phase Ended (if sent then write (None, MClose 4401) s else s)
  | Complete _ | Pong => s
  end.

Definition receive (m : incoming) (sent : bool) (s : state) : state :=
  match s_phase s, m with
  | (Waiting | Open None), Frame => s
  | Waiting, Text (Some e) => accept e sent s
  | Waiting, _ => with_phase Ended s
  | Open None, Text (Some e) => handle e (hear e s)
  | Open None, Text None => s
  | Open None, _ => finish s
  | _, _ => s
  end.

(** subscription_loop, 144-153: a message of task [k], after which it is [st]. *)
Definition task_sends (k : nat) (m : id -> message) (st : status -> status) (s : state) : state :=
  match nth_error (s_tasks s) k with
  | None => s
  | Some t =>
      match t_status t with
      | Over => s
      | _ =>
          if s_pump s then
            if room s then enqueue (Some k, m (t_id t)) (with_tasks (update k (add_sent (m (t_id t)) (st (t_status t))) (s_tasks s)) s) else s
          else with_tasks (update k (set_status Over) (s_tasks s)) s
      end
  end.

(** Whether a close frame was sent. *)
Definition closed (s : state) : bool := existsb (fun m => match snd m with MClose _ => true | _ => false end) (s_out s).

Definition step (s : state) (i : input) : state :=
  match i with
  | Receive m sent => receive m sent s
  | Session ok sent =>
      match s_phase s with
      | Creating =>
          if ok then (if sent then with_phase (Open None) (write (None, MAck) s) else with_phase Ended s)
          else with_phase Ended (if sent then write (None, MClose 4403) s else s)
      | _ => s
      end
  | Elapsed =>
      match s_phase s with
      | Waiting | Creating => with_phase Ended (write (None, MClose 4408) s)
      | _ => s
      end
  | Yield k r => task_sends k (fun i => message_of i r) (fun st => st) s
  | Finish k => task_sends k MComplete (fun _ => Over) s
  | Dropped k =>
      match nth_error (s_tasks s) k with
      | Some t => match t_status t with Stopping => with_tasks (update k (set_status Over) (s_tasks s)) s | _ => s end
      | None => s
      end
  | Pump ok =>
      match s_pump s, s_queue s with
      | true, m :: q =>
          if ok && negb (closed s) then
            {| s_phase := s_phase s; s_subs := s_subs s; s_tasks := s_tasks s; s_queue := q; s_pump := true; s_out := s_out s ++ [m]; s_executed := s_executed s; s_heard := s_heard s |}
          else
            {| s_phase := s_phase s; s_subs := s_subs s; s_tasks := s_tasks s; s_queue := []; s_pump := false; s_out := s_out s; s_executed := s_executed s; s_heard := s_heard s |}
      | _, _ => s
      end
  | Room =>
      match s_phase s with
      | Open (Some m) => answer m s
      | _ => s
      end
  end.

Definition run (inputs : list input) : state := fold_left step inputs start.

