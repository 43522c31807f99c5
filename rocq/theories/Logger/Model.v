(** Rotating log files (C33).

    Modelled code: crates/rolling-logger/src/{lib,log_file,strategy}.rs.

    The file system is one directory: the current file, the rotated files (named
    after a number of milliseconds) and the contents of the files (inodes), so
    that a handle goes on pointing at a file that was renamed. Times are readings
    of the system clock in nanoseconds since the epoch, in any order. Whether the
    system calls succeed, and how many bytes a write takes, is given with each
    operation. Not modelled: what a crash of the machine does to data that the
    operating system acknowledged, and two processes writing to the same path. *)

From Coq Require Import List ZArith NArith Bool.
Import ListNotations.
Local Open Scope Z_scope.

Definition bytes := list N.
Definition inode := nat.

(** strategy.rs 4-22. *)
Inductive kind := Never | Minutely | Hourly | Daily | Weekly | Monthly | Yearly | Size (max : N).

(** log_file.rs 9-25. *)
Definition minute_secs := 60.
Definition hour_secs := minute_secs * 60.
Definition day_secs := hour_secs * 24.
Definition week_secs := day_secs * 7.
Definition month_secs := day_secs * 30.
Definition year_secs := day_secs * 365.

(** LogFile together with its RotateStrategy (log_file.rs 29-36, strategy.rs 26-31). *)
Record logger := mklogger { handle : inode; size : N; strategy : kind; rotate_start : Z }.

Record state := mkstate {
  current : option inode;        (* the file at the path of the logger *)
  rotated : list (Z * inode);    (* files at path.{milliseconds} *)
  data : inode -> bytes;
  next : inode;
  log : option logger            (* the logger of the running process *)
}.

Definition empty_dir : state := mkstate None [] (fun _ => []) 0%nat None.

(** strategy.rs 134-139: milliseconds since the epoch, 0 before it. *)
Definition start_timestamp (start : Z) : Z := if start <? 0 then 0 else start / 1000000.

(** strategy.rs 158-160, in seconds: 0 when the clock went backwards. *)
Definition lifetime_secs (start now : Z) : Z := if now <? start then 0 else (now - start) / 1000000000.

(** log_file.rs 71-84. *)
Definition needs_rotation (l : logger) (now : Z) : bool :=
  let secs := lifetime_secs (rotate_start l) now in
  match strategy l with
  | Never => false
  | Minutely => minute_secs <=? secs
  | Hourly => hour_secs <=? secs
  | Daily => day_secs <=? secs
  | Weekly => week_secs <=? secs
  | Monthly => month_secs <=? secs
  | Yearly => year_secs <=? secs
  | Size max => (max <=? size l)%N
  end.

Definition len (b : bytes) : N := N.of_nat (length b).

(** log_file.rs 50-64: an existing file is appended to, otherwise one is created. *)
Definition open_log (s : state) (k : kind) (start : Z) : state :=
  match current s with
  | Some i => mkstate (current s) (rotated s) (data s) (next s) (Some (mklogger i (len (data s i)) k start))
  | None =>
      let d := fun j => if Nat.eqb j (next s) then [] else data s j in
      mkstate (Some (next s)) (rotated s) d (S (next s)) (Some (mklogger (next s) 0%N k start))
  end.

(** std::fs::rename replaces what was at the target. *)
Definition rename_current (s : state) (ms : Z) (i : inode) : state :=
  mkstate None (filter (fun p => negb (fst p =? ms)) (rotated s) ++ [(ms, i)]) (data s) (next s) (log s).

(** What the operating system does with a write. *)
Record io := mkio { rename_ok : bool; open_ok : bool; taken : option nat }.

(** lib.rs 69-80. Flushing a file does nothing, its writes are not buffered.
    The boolean is false when an error is returned. *)
Definition flush_and_rotate (s : state) (l : logger) (now : Z) (o : io) : state * bool :=
  match current s with
  | Some i =>
      if rename_ok o then
        let s := rename_current s (start_timestamp (rotate_start l)) i in
        if open_ok o then (open_log s (strategy l) now, true) else (s, false)
      else (s, false)
  | None => (s, false)   (* there is nothing to rename *)
  end.

(** log_file.rs 104-107: the size counts the bytes offered (a u64). *)
Definition write_file (s : state) (l : logger) (buf : bytes) (o : io) : state * option bytes :=
  let size := ((size l + len buf) mod 18446744073709551616)%N in
  let l' := mklogger (handle l) size (strategy l) (rotate_start l) in
  match taken o with
  | Some n =>
      let b := firstn n buf in
      let d := fun j => if Nat.eqb j (handle l) then (data s j ++ b)%list else data s j in
      (mkstate (current s) (rotated s) d (next s) (Some l'), Some b)
  | None => (mkstate (current s) (rotated s) (data s) (next s) (Some l'), None)
  end.

Inductive op :=
| Open (k : kind) (now : Z) (ok : bool)
    (** RollingLogger::new in a new process, lib.rs 52-57; whatever logger there was is gone. *)
| Write (now start : Z) (buf : bytes) (o : io).
    (** lib.rs 101-107; [now] is read by needs_rotation, [start] for the new file. *)

(** The bytes acknowledged, None for an error. *)
Definition step (s : state) (o : op) : state * option bytes :=
  match o with
  | Open k now true => (open_log s k now, Some [])
  | Open _ _ false => (mkstate (current s) (rotated s) (data s) (next s) None, None)
  | Write now start buf w =>
      match log s with
      | None => (s, None)
      | Some l =>
          if needs_rotation l now then
            match flush_and_rotate s l start w with
            | (s', true) => match log s' with Some l' => write_file s' l' buf w | None => (s', None) end
            | (s', false) => (s', None)
            end
          else write_file s l buf w
      end
  end.

Fixpoint run (s : state) (ops : list op) : state * bytes :=
  match ops with
  | [] => (s, [])
  | o :: r =>
      let (s', out) := step s o in
      let (s'', rest) := run s' r in
      (s'', match out with Some b => b | None => [] end ++ rest)%list
  end.
