(** Deduplicated subscriptions of extensions: clients whose subscription has the same key share one stream
    of the guest (crates/wasi-component-loader/src/extension/runtime/resolver/subscription/dedup.rs, and the
    one of older extensions, crates/wasi-component-loader/src/extension/runtime/subscription/dedup.rs;
    the map is that of collection/engine.rs:24, 37).

    The state is what clients and tasks share, and one event is one atomic action of one of them, so that a
    list of events is an interleaving.  The broadcast channel is tokio's: a receiver that is more than the
    capacity behind is told so and continues with the oldest message that is kept; it ends when all is read
    and no sender is left (the task has one and the map has one).  Simplifications: responses, keys and
    extensions are abstract; calling the guest is an event with its answer; that guests are dropped and
    instances recycled isn't kept.  *)
From Coq Require Import List Bool PeanoNat.
Import ListNotations.

Section Dedup.
  (** Responses, keys and extensions. *)
  Variables A K X : Type.
  Variable same_key : K -> K -> bool.
  (** The capacity of a broadcast channel (1000 is asked for, tokio keeps the next power of two). *)
  Variable cap : nat.

  (** What a task is about to do. *)
  Inductive phase :=
  | Starting                  (** older extensions: in [resolve_subscription] *)
  | Idle                      (** waiting for the guest *)
  | Sending (items : list A)  (** in the loop over the items *)
  | Removing (items : list A) (** a send has failed *)
  | Failing (e : A)           (** the guest failed, the error isn't sent yet *)
  | Ending                    (** before the entry is removed *)
  | Finished.

  Record channel := {
    c_key : K;
    c_ext : X;
    c_phase : phase;
    c_closed : bool;          (** [client_registrations_closed] *)
    c_sent : list A           (** what the channel was sent *)
  }.

  Inductive status := Open | Left | Over.

  Record receiver := {
    r_chan : nat;
    r_next : nat;             (** the position of the next message *)
    r_got : list (option A);  (** what the client was given, [None] for having been too slow *)
    r_status : status
  }.

  Record state := {
    entries : list (K * nat);
    channels : list channel;
    receivers : list receiver
  }.

  Definition start : state := {| entries := []; channels := []; receivers := [] |}.

  Fixpoint update {B} (i : nat) (f : B -> B) (l : list B) : list B :=
    match l, i with
    | [], _ => []
    | x :: l, O => f x :: l
    | x :: l, S i => x :: update i f l
    end.

  Definition entry (k : K) (s : state) : option nat :=
    option_map snd (find (fun e => same_key (fst e) k) (entries s)).

  Definition without (k : K) (es : list (K * nat)) : list (K * nat) :=
    filter (fun e => negb (same_key (fst e) k)) es.

  Definition with_phase (p : phase) (c : channel) : channel :=
    {| c_key := c_key c; c_ext := c_ext c; c_phase := p; c_closed := c_closed c; c_sent := c_sent c |}.

  Definition close (p : phase) (c : channel) : channel :=
    {| c_key := c_key c; c_ext := c_ext c; c_phase := p; c_closed := true; c_sent := c_sent c |}.

  (** [broadcast::Sender::send]: an error if nobody receives. *)
  Definition send (a : A) (ok : bool) (p : phase) (c : channel) : channel :=
    {| c_key := c_key c; c_ext := c_ext c; c_phase := p; c_closed := c_closed c;
       c_sent := if ok then c_sent c ++ [a] else c_sent c |}.

  Definition listens (i : nat) (r : receiver) : bool :=
    Nat.eqb (r_chan r) i && match r_status r with Open => true | _ => false end.

  Definition heard (i : nat) (s : state) : bool := existsb (listens i) (receivers s).

  (** The loop over the items, then back to the guest. *)
  Definition after (items : list A) : phase := match items with [] => Idle | _ => Sending items end.

  Definition set_channel (i : nat) (f : channel -> channel) (s : state) : state :=
    {| entries := entries s; channels := update i f (channels s); receivers := receivers s |}.

  Definition remove_key (k : K) (s : state) : state :=
    {| entries := without k (entries s); channels := channels s; receivers := receivers s |}.

  Definition given (m : option A) (next : nat) (st : status) (r : receiver) : receiver :=
    {| r_chan := r_chan r; r_next := next;
       r_got := match st with Over => r_got r | _ => r_got r ++ [m] end; r_status := st |}.

  Definition leave (r : receiver) : receiver :=
    {| r_chan := r_chan r; r_next := r_next r; r_got := r_got r; r_status := Left |}.

  Definition set_receiver (i : nat) (f : receiver -> receiver) (s : state) : state :=
    {| entries := entries s; channels := channels s; receivers := update i f (receivers s) |}.

  Definition join (i : nat) (c : channel) : receiver :=
    {| r_chan := i; r_next := List.length (c_sent c); r_got := []; r_status := Open |}.

  (** dedup.rs:37-56: under the lock of the entry.  [p] is where the new task begins. *)
  Definition subscribe (p : phase) (x : X) (k : K) (s : state) : option state :=
    match entry k s with
    | Some i =>
      option_map (fun c => {| entries := entries s; channels := channels s; receivers := receivers s ++ [join i c] |})
        (nth_error (channels s) i)
    | None =>
      let c := {| c_key := k; c_ext := x; c_phase := p; c_closed := false; c_sent := [] |} in
      let i := List.length (channels s) in
      Some {| entries := (k, i) :: entries s; channels := channels s ++ [c]; receivers := receivers s ++ [join i c] |}
    end.

  Definition finished (c : channel) : bool := match c_phase c with Finished => true | _ => false end.

  (** No sender is left. *)
  Definition disconnected (i : nat) (c : channel) (s : state) : bool :=
    finished c && negb (existsb (fun e => Nat.eqb (snd e) i) (entries s)).

  (** [BroadcastStream::next], dedup.rs:42-45, 113-116.  [None]: there is nothing to read yet. *)
  Definition receive (j : nat) (s : state) : option state :=
    match nth_error (receivers s) j with
    | Some r =>
      match r_status r, nth_error (channels s) (r_chan r) with
      | Open, Some c =>
        let n := List.length (c_sent c) in
        if Nat.ltb (r_next r + cap) n then Some (set_receiver j (given None (n - cap) Open) s)
        else match nth_error (c_sent c) (r_next r) with
        | Some a => Some (set_receiver j (given (Some a) (S (r_next r)) Open) s)
        | None => if disconnected (r_chan r) c s then Some (set_receiver j (given None (r_next r) Over) s) else None
        end
      | _, _ => None
      end
    | None => None
    end.

  Inductive event :=
  | Subscribe (x : X) (k : K)
  | Started (i : nat) (ok : bool)         (** older extensions: the answer of [resolve_subscription] *)
  | Next (i : nat) (items : list A)       (** the guest's next items *)
  | Send (i : nat)
  | Remove (i : nat)
  | GuestEnds (i : nat)
  | GuestFails (i : nat) (e : A)
  | SendError (i : nat)
  | Finish (i : nat)
  | Receive (j : nat)
  | Leave (j : nat).

  Definition on_channel (i : nat) (s : state) (f : channel -> option state) : option state :=
    match nth_error (channels s) i with Some c => f c | None => None end.

  (** One action, resolver/subscription/dedup.rs.  [None] if it can't happen now. *)
  Definition step (s : state) (e : event) : option state :=
    match e with
    | Subscribe x k => subscribe Idle x k s
    | Started _ _ => None
    | Next i items => (* dedup.rs:62-71 *)
      on_channel i s (fun c =>
      match c_phase c with
      | Idle => Some (set_channel i (with_phase (after items)) s)
      | _ => None
      end)
    | Send i => (* dedup.rs:95-109 *)
      on_channel i s (fun c =>
      match c_phase c with
      | Sending (a :: items) =>
        if heard i s then Some (set_channel i (send a true (after items)) s)
        else if c_closed c then Some (set_channel i (send a false Finished) s)
        else Some (set_channel i (send a false (Removing items)) s)
      | _ => None
      end)
    | Remove i => (* dedup.rs:105-106 *)
      on_channel i s (fun c =>
      match c_phase c with
      | Removing items => Some (remove_key (c_key c) (set_channel i (close (after items)) s))
      | _ => None
      end)
    | GuestEnds i => (* dedup.rs:72-76 *)
      on_channel i s (fun c => match c_phase c with Idle => Some (set_channel i (with_phase Ending) s) | _ => None end)
    | GuestFails i e => (* dedup.rs:82-86 *)
      on_channel i s (fun c => match c_phase c with Idle => Some (set_channel i (with_phase (Failing e)) s) | _ => None end)
    | SendError i => (* dedup.rs:87 *)
      on_channel i s (fun c =>
      match c_phase c with
      | Failing e => Some (set_channel i (send e (heard i s) Ending) s)
      | _ => None
      end)
    | Finish i => (* dedup.rs:77-80, 88-91 *)
      on_channel i s (fun c =>
      match c_phase c with
      | Ending =>
        let s' := set_channel i (with_phase Finished) s in
        Some (if c_closed c then s' else remove_key (c_key c) s')
      | _ => None
      end)
    | Receive j => receive j s
    | Leave j =>
      match nth_error (receivers s) j with
      | Some r => match r_status r with Open => Some (set_receiver j leave s) | _ => None end
      | None => None
      end
    end.

  (** The same for older extensions, subscription/dedup.rs:43-115. *)
  Definition step_old (s : state) (e : event) : option state :=
    match e with
    | Subscribe x k => subscribe Starting x k s
    | Started i ok => (* subscription/dedup.rs:66: on an error only the function returns; its client [Leave]s *)
      on_channel i s (fun c =>
      match c_phase c with
      | Starting =>
        Some (set_channel i (with_phase (if ok then Idle else Finished)) s)
      | _ => None
      end)
    | Next i items => (* subscription/dedup.rs:73-85 *)
      on_channel i s (fun c =>
      match c_phase c with
      | Idle =>
        if c_closed c && negb (heard i s) then Some (set_channel i (with_phase Finished) s)
        else Some (set_channel i (with_phase (after items)) s)
      | _ => None
      end)
    | Send i => (* subscription/dedup.rs:101-113 *)
      on_channel i s (fun c =>
      match c_phase c with
      | Sending (a :: items) =>
        Some (set_channel i (send a (heard i s) (if heard i s then after items else Removing items)) s)
      | _ => None
      end)
    | Remove i =>
      on_channel i s (fun c =>
      match c_phase c with
      | Removing _ => Some (remove_key (c_key c) (set_channel i (close (if c_closed c then Finished else Idle)) s))
      | _ => None
      end)
    | GuestEnds i | GuestFails i _ => (* subscription/dedup.rs:86-97 *)
      on_channel i s (fun c => match c_phase c with Idle => Some (set_channel i (with_phase Ending) s) | _ => None end)
    | SendError _ => None
    | Finish i =>
      on_channel i s (fun c =>
      match c_phase c with Ending => Some (remove_key (c_key c) (set_channel i (with_phase Finished) s)) | _ => None end)
    | Receive j => receive j s
    | Leave j =>
      match nth_error (receivers s) j with
      | Some r => match r_status r with Open => Some (set_receiver j leave s) | _ => None end
      | None => None
      end
    end.

  Fixpoint run (f : state -> event -> option state) (es : list event) (s : state) : option state :=
    match es with
    | [] => Some s
    | e :: es => match f s e with Some s => run f es s | None => None end
    end.
End Dedup.
