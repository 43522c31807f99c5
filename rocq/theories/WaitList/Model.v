(** The cache of extensions, whose callers wait for the one that computes a missing value
    (crates/wasi-component-loader/src/resources/cache.rs; the one of SDKs up to 0.18,
    crates/wasi-component-loader/src/cache.rs, differs in how values expire and has no [remove]).

    One key is modelled: the entries of different keys share nothing, except that a full cache evicts values,
    which [Expire] may do at any time.  An event is one atomic action of one caller or writer, so that a list of
    events is an interleaving.  A wait list is an mpsc channel of [cap] (1024) places whose sender and receiver
    are both in the map (so its sender is never closed while it is there, cache.rs:126-133); who looks it up
    gets a sender, and who removes it has the receiver.  Simplifications: values are abstract; which callers
    time out is a choice of the run; a value that was sent to a waiting caller is received at once
    ([timeout] polls the receiver before it looks at the time). *)
From Coq Require Import List Bool PeanoNat.
Import ListNotations.

Section WaitList.
  Variable V : Type.
  Variable cap : nat.

  (** Where a call of [get] is. *)
  Inductive caller :=
  | Looking               (** before [self.cache.get] *)
  | Missed                (** before [get_or_create_wait_list] *)
  | Joining (l : nat)     (** in [wait_list_sender.send] *)
  | Waiting (l : nat)     (** in [value_receiver.await] *)
  | Cleaning (l : nat)    (** before [wait_list.remove_if] *)
  | Got (v : V)           (** returned a value *)
  | Leads                 (** returned [None] because it made the wait list *)
  | Empty                 (** returned [None] after it waited *)
  | Gone.                 (** dropped while it waited *)

  (** Where a call of [insert] or [remove] is. *)
  Inductive writer :=
  | Storing (v : V)             (** the value is in the cache *)
  | Draining (v : V) (l : nat)  (** it has the receiver *)
  | Closing (l : nat)           (** the last [try_recv] found nothing *)
  | Removing                    (** the wait list is removed, the value isn't *)
  | Done.

  Record wait_list := { l_open : bool; l_queue : list nat }.

  Record state := {
    cached : option V;
    current : option nat;
    lists : list wait_list;
    callers : list caller;
    writers : list writer
  }.

  Definition start : state := {| cached := None; current := None; lists := []; callers := []; writers := [] |}.

  Fixpoint update {B} (i : nat) (x : B) (l : list B) : list B :=
    match l, i with
    | [], _ => []
    | _ :: l, O => x :: l
    | y :: l, S i => y :: update i x l
    end.

  Definition set_caller (w : nat) (c : caller) (s : state) : state :=
    {| cached := cached s; current := current s; lists := lists s; callers := update w c (callers s); writers := writers s |}.
  Definition set_writer (n : nat) (x : writer) (s : state) : state :=
    {| cached := cached s; current := current s; lists := lists s; callers := callers s; writers := update n x (writers s) |}.
  Definition set_list (i : nat) (l : wait_list) (s : state) : state :=
    {| cached := cached s; current := current s; lists := update i l (lists s); callers := callers s; writers := writers s |}.
  Definition set_current (c : option nat) (s : state) : state :=
    {| cached := cached s; current := c; lists := lists s; callers := callers s; writers := writers s |}.
  Definition set_cached (v : option V) (s : state) : state :=
    {| cached := v; current := current s; lists := lists s; callers := callers s; writers := writers s |}.
  Definition add_writer (x : writer) (s : state) : state :=
    {| cached := cached s; current := current s; lists := lists s; callers := callers s; writers := writers s ++ [x] |}.

  (** The receiver is dropped, and with it what is in the channel. *)
  Definition dropped : wait_list := {| l_open := false; l_queue := [] |}.

  (** [DashMap::remove] of the wait list, dropped at once. *)
  Definition forget (s : state) : state :=
    match current s with
    | Some l => set_current None (set_list l dropped s)
    | None => s
    end.

  Inductive event :=
  | Call
  | Look (w : nat)
  | Reserve (w : nat)
  | Enqueue (w : nat)
  | Fail (w : nat)       (** the list was dropped *)
  | Timeout (w : nat)
  | Clean (w : nat)
  | Cancel (w : nat)
  | Insert (v : V)
  | Take (n : nat)
  | Drain (n : nat)
  | Close (n : nat)
  | Remove
  | Invalidate (n : nat)
  | Expire.

  Definition on_caller (w : nat) (s : state) (f : caller -> option state) : option state :=
    match nth_error (callers s) w with Some c => f c | None => None end.
  Definition on_writer (n : nat) (s : state) (f : writer -> option state) : option state :=
    match nth_error (writers s) n with Some x => f x | None => None end.
  Definition on_list (i : nat) (s : state) (f : wait_list -> option state) : option state :=
    match nth_error (lists s) i with Some l => f l | None => None end.

  (** [waiter.send(value)]: nothing if the caller doesn't wait anymore. *)
  Definition give (v : V) (w : nat) (s : state) : state :=
    match nth_error (callers s) w with
    | Some (Waiting _) => set_caller w (Got v) s
    | _ => s
    end.

  Definition step (s : state) (e : event) : option state :=
    match e with
    | Call => Some {| cached := cached s; current := current s; lists := lists s; callers := callers s ++ [Looking]; writers := writers s |}
    | Look w => (* cache.rs:43-45 *)
      on_caller w s (fun c => match c with
      | Looking => Some (set_caller w match cached s with Some v => Got v | None => Missed end s)
      | _ => None
      end)
    | Reserve w => (* cache.rs:47-52, 119-147: under the lock of the entry *)
      on_caller w s (fun c => match c with
      | Missed =>
        match current s with
        | Some l => Some (set_caller w (Joining l) s)
        | None =>
          let l := List.length (lists s) in
          Some (set_caller w Leads
            {| cached := cached s; current := Some l; lists := lists s ++ [{| l_open := true; l_queue := [] |}];
               callers := callers s; writers := writers s |})
        end
      | _ => None
      end)
    | Enqueue w => (* cache.rs:57-58 *)
      on_caller w s (fun c => match c with
      | Joining i =>
        on_list i s (fun l =>
        if l_open l && Nat.ltb (List.length (l_queue l)) cap
        then Some (set_caller w (Waiting i) (set_list i {| l_open := true; l_queue := l_queue l ++ [w] |} s))
        else None)
      | _ => None
      end)
    | Fail w => (* cache.rs:58-59 *)
      on_caller w s (fun c => match c with
      | Joining i | Waiting i => on_list i s (fun l => if l_open l then None else Some (set_caller w (Cleaning i) s))
      | _ => None
      end)
    | Timeout w => (* cache.rs:56 *)
      on_caller w s (fun c => match c with Joining i | Waiting i => Some (set_caller w (Cleaning i) s) | _ => None end)
    | Clean w => (* cache.rs:72-90 *)
      on_caller w s (fun c => match c with
      | Cleaning i =>
        Some (set_caller w Empty
          match current s with Some l => if Nat.eqb l i then forget s else s | None => s end)
      | _ => None
      end)
    | Cancel w => on_caller w s (fun c => match c with Joining _ | Waiting _ => Some (set_caller w Gone s) | _ => None end)
    | Insert v => Some (add_writer (Storing v) (set_cached (Some v) s)) (* cache.rs:95 *)
    | Take n => (* cache.rs:100 *)
      on_writer n s (fun x => match x with
      | Storing v => Some (set_current None (set_writer n match current s with Some l => Draining v l | None => Done end s))
      | _ => None
      end)
    | Drain n => (* cache.rs:101-103 *)
      on_writer n s (fun x => match x with
      | Draining v i =>
        on_list i s (fun l => match l_queue l with
        | w :: q => Some (give v w (set_list i {| l_open := l_open l; l_queue := q |} s))
        | [] => Some (set_writer n (Closing i) s)
        end)
      | _ => None
      end)
    | Close n => (* cache.rs:104 *)
      on_writer n s (fun x => match x with Closing i => Some (set_writer n Done (set_list i dropped s)) | _ => None end)
    | Remove => Some (add_writer Removing (forget s)) (* cache.rs:108 *)
    | Invalidate n => (* cache.rs:109 *)
      on_writer n s (fun x => match x with Removing => Some (set_writer n Done (set_cached None s)) | _ => None end)
    | Expire => Some (set_cached None s)
    end.

  Fixpoint run (es : list event) (s : state) : option state :=
    match es with
    | [] => Some s
    | e :: es => match step s e with Some s => run es s | None => None end
    end.
End WaitList.
