(** How a change of the schema file or of the configuration becomes the engine that answers requests
    (crates/federated-server/src/graph/loader/schema_file.rs and mod.rs, serve/mod.rs:65-160, engine/reloader.rs).

    An event is one atomic action: of who edits the file or the configuration, of the task that polls the file, of the one
    that passes configurations on, of the reloader, or of a task that builds an engine.  The log has what the reloader is
    told and which engines are served.  Simplifications: every write has a modification time of its own; the content of a
    file is a text or can't be read; the schema, the configuration and the engine are their inputs; building an engine
    succeeds or fails by choice of the run; extensions aren't modelled.

    [JoinHandle::abort] (reloader.rs:103-105) stops a task at its next await; a task that runs meanwhile goes on until
    there.  With [prompt] aborted tasks stop at once. *)
From Coq Require Import List Bool PeanoNat.
Import ListNotations.

Section Reload.
  Variable G C : Type.
  Variable c0 : C.      (** the configuration the gateway was started with *)
  Variable cap : nat.   (** places of the channel of updates (serve/mod.rs:75) *)
  Variable prompt : bool.

  (** events.rs:8-14 *)
  Inductive update := Graph (g : G) | Conf (c : C).

  (** The task that polls the file. *)
  Inductive poller :=
  | PStart                    (** before mod.rs:67 *)
  | PSend0 (g : G)            (** mod.rs:71-74 *)
  | PFirst                    (** before schema_file.rs:27 *)
  | PIdle (seen : option nat) (** schema_file.rs:46; [None] is the time of start, which no file has (schema_file.rs:29) *)
  | PSeen (seen : nat)        (** schema_file.rs:53-55 *)
  | PSend (seen : nat) (g : G)(** schema_file.rs:66-69 *)
  | PDead.                    (** the gateway doesn't start *)

  (** The task that passes configurations on (serve/mod.rs:140-153). *)
  Inductive bridge := BDrop | BWait | BSend (c : C).

  Inductive reloader :=
  | RWait (c : C)             (** reloader.rs:67-82 *)
  | RInit (g : G) (c : C)     (** reloader.rs:96 *)
  | RLoop (g : G) (c : C)     (** reloader.rs:102 *)
  | RFailed.

  Inductive stage := Building | Ready | Over.

  (** A task that builds an engine (reloader.rs:112-145): [Ready] is past its last await. *)
  Record task := { t_graph : G; t_conf : C; t_stage : stage; t_aborted : bool }.

  Record state := {
    file : option (nat * option G);   (** modification time, content *)
    clock : nat;
    poll : poller;
    conf : C; version : nat;          (** the watch channel of configurations *)
    seen : nat; pass : bridge;
    queue : list update;
    reload : reloader;
    tasks : list task;
    served : option (G * C)
  }.

  Inductive entry := Told (u : update) | Serves (g : G) (c : C) | Fails.

  Inductive event :=
  | Write (g : option G) | Delete
  | InitRead | Finger | Tick | Read (ok : bool) | Push
  | Config (c : C) | Changed | Pass
  | Recv | InitBuilt (ok : bool)
  | Built (i : nat) (ok : bool) | Publish (i : nat) | Drop (i : nat).

  Definition start : state :=
    {| file := None; clock := 0; poll := PStart; conf := c0; version := 0; seen := 0; pass := BDrop; queue := []; reload := RWait c0; tasks := []; served := None |}.

  Definition set_file f s := {| file := f; clock := S (clock s); poll := poll s; conf := conf s; version := version s; seen := seen s; pass := pass s; queue := queue s; reload := reload s; tasks := tasks s; served := served s |}.
  Definition set_poll p s := {| file := file s; clock := clock s; poll := p; conf := conf s; version := version s; seen := seen s; pass := pass s; queue := queue s; reload := reload s; tasks := tasks s; served := served s |}.
  Definition set_conf c s := {| file := file s; clock := clock s; poll := poll s; conf := c; version := S (version s); seen := seen s; pass := pass s; queue := queue s; reload := reload s; tasks := tasks s; served := served s |}.
  Definition set_pass n b s := {| file := file s; clock := clock s; poll := poll s; conf := conf s; version := version s; seen := n; pass := b; queue := queue s; reload := reload s; tasks := tasks s; served := served s |}.
  Definition set_queue q s := {| file := file s; clock := clock s; poll := poll s; conf := conf s; version := version s; seen := seen s; pass := pass s; queue := q; reload := reload s; tasks := tasks s; served := served s |}.
  Definition set_reload r s := {| file := file s; clock := clock s; poll := poll s; conf := conf s; version := version s; seen := seen s; pass := pass s; queue := queue s; reload := r; tasks := tasks s; served := served s |}.
  Definition set_tasks ts s := {| file := file s; clock := clock s; poll := poll s; conf := conf s; version := version s; seen := seen s; pass := pass s; queue := queue s; reload := reload s; tasks := ts; served := served s |}.
  Definition set_served e s := {| file := file s; clock := clock s; poll := poll s; conf := conf s; version := version s; seen := seen s; pass := pass s; queue := queue s; reload := reload s; tasks := tasks s; served := e |}.

  Fixpoint put (i : nat) (x : task) (l : list task) : list task :=
    match l, i with
    | [], _ => []
    | _ :: l, O => x :: l
    | y :: l, S i => y :: put i x l
    end.

  Definition abort (t : task) : task := {| t_graph := t_graph t; t_conf := t_conf t; t_stage := t_stage t; t_aborted := true |}.
  Definition at_stage (x : stage) (t : task) : task := {| t_graph := t_graph t; t_conf := t_conf t; t_stage := x; t_aborted := t_aborted t |}.

  Definition spawn (g : G) (c : C) (s : state) : state :=
    set_reload (RLoop g c) (set_tasks (map abort (tasks s) ++ [{| t_graph := g; t_conf := c; t_stage := Building; t_aborted := false |}]) s).

  Definition stopped (t : task) : bool := prompt && t_aborted t.

  (** Only the latest task has to be aborted: those before it were. *)
  Definition recv (u : update) (s : state) : option state :=
    match reload s, u with
    | RWait c, Graph g => Some (set_reload (RInit g c) s)
    | RWait _, Conf c => Some (set_reload (RWait c) s)
    | RLoop _ c, Graph g => Some (spawn g c s)
    | RLoop g _, Conf c => Some (spawn g c s)
    | RInit _ _, _ | RFailed, _ => None
    end.

  Definition push (u : update) (s : state) : option state :=
    if Nat.ltb (List.length (queue s)) cap then Some (set_queue (queue s ++ [u]) s) else None.

  Definition same (a b : option nat) : bool :=
    match a, b with Some a, Some b => Nat.eqb a b | None, None => true | _, _ => false end.

  Definition quiet (o : option state) : option (state * list entry) :=
    match o with Some s => Some (s, []) | None => None end.

  Definition step (s : state) (e : event) : option (state * list entry) :=
    match e with
    | Write g => Some (set_file (Some (clock s, g)) s, [])
    | Delete => Some (set_file None s, [])
    | InitRead => (* mod.rs:67-69 *)
      match poll s with
      | PStart => Some (set_poll match file s with Some (_, Some g) => PSend0 g | _ => PDead end s, [])
      | _ => None
      end
    | Finger => (* schema_file.rs:26-29 *)
      match poll s with PFirst => Some (set_poll (PIdle (option_map fst (file s))) s, []) | _ => None end
    | Tick => (* schema_file.rs:46-53 *)
      match poll s with
      | PIdle m =>
        Some (match file s with
              | Some (n, _) => if same m (Some n) then s else set_poll (PSeen n) s
              | None => s
              end, [])
      | _ => None
      end
    | Read ok => (* schema_file.rs:55-62 *)
      match poll s with
      | PSeen n =>
        Some (set_poll match ok, file s with true, Some (_, Some g) => PSend n g | _, _ => PIdle (Some n) end s, [])
      | _ => None
      end
    | Push =>
      quiet match poll s with
      | PSend0 g => push (Graph g) (set_poll PFirst s)
      | PSend n g => push (Graph g) (set_poll (PIdle (Some n)) s)
      | _ => None
      end
    | Config c => Some (set_conf c s, [])
    | Changed => (* [changed] waits for a value newer than the last one seen, and the first one was *)
      if Nat.ltb (seen s) (version s) then
        match pass s with
        | BDrop => Some (set_pass (version s) BWait s, [])             (* serve/mod.rs:142-143 *)
        | BWait => Some (set_pass (version s) (BSend (conf s)) s, [])  (* serve/mod.rs:145-146 *)
        | BSend _ => None
        end
      else None
    | Pass => (* serve/mod.rs:148 *)
      quiet match pass s with BSend c => push (Conf c) (set_pass (seen s) BWait s) | _ => None end
    | Recv => (* reloader.rs:68-76, 101-110 *)
      match queue s with
      | u :: q => match recv u (set_queue q s) with Some s => Some (s, [Told u]) | None => None end
      | [] => None
      end
    | InitBuilt ok => (* reloader.rs:96-97 *)
      match reload s with
      | RInit g c =>
        if ok then Some (set_served (Some (g, c)) (set_reload (RLoop g c) s), [Serves g c])
        else Some (set_reload RFailed s, [Fails])
      | _ => None
      end
    | Built i ok => (* reloader.rs:131, 137-139 *)
      match nth_error (tasks s) i with
      | Some t =>
        match t_stage t with
        | Building =>
          if stopped t then None
          else if ok then Some (set_tasks (put i (at_stage Ready t) (tasks s)) s, [])
          else Some (set_tasks (put i (at_stage Over t) (tasks s)) s, [Fails])
        | _ => None
        end
      | None => None
      end
    | Publish i => (* reloader.rs:132-135 *)
      match nth_error (tasks s) i with
      | Some t =>
        match t_stage t with
        | Ready =>
          if stopped t then None
          else Some (set_served (Some (t_graph t, t_conf t)) (set_tasks (put i (at_stage Over t) (tasks s)) s), [Serves (t_graph t) (t_conf t)])
        | _ => None
        end
      | None => None
      end
    | Drop i =>
      match nth_error (tasks s) i with
      | Some t =>
        match t_stage t with
        | Building => if t_aborted t then Some (set_tasks (put i (at_stage Over t) (tasks s)) s, []) else None
        | Ready => if stopped t then Some (set_tasks (put i (at_stage Over t) (tasks s)) s, []) else None
        | Over => None
        end
      | None => None
      end
    end.

  Fixpoint run (es : list event) (s : state) : option (state * list entry) :=
    match es with
    | [] => Some (s, [])
    | e :: es =>
      match step s e with
      | Some (s, l) => match run es s with Some (s, l') => Some (s, l ++ l') | None => None end
      | None => None
      end
    end.
End Reload.

(** [extract_operations_to_warm] (reloader.rs:171-194): how many of the [n] cached operations are warmed. *)
Definition warmed {O} (enabled : bool) (percent : nat) (operations : list O) : list O :=
  if negb enabled then []
  else if Nat.leb 100 percent then operations
  else firstn (List.length operations * (Nat.div percent 100)) operations.
