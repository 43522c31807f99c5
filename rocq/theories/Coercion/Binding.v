(** Model of the binding of variable definitions.
    Source: crates/engine/operation/src/bind/operation.rs:391-502.
    Simplifications: name lookup of the inner type and its error cases are left out (the inner
    definition is given); only the type's modifiers are modelled. *)
From Coq Require Import NArith List Bool.
From Verif.Wrapping Require Import Model Spec.
Import ListNotations.

(** The parser's [ty.wrappers()]: outermost first (operation.rs:489-491 reverses it). *)
Inductive wrapper := PNonNull | PList.
Fixpoint wrappers (t : ty) : list wrapper :=
  match t with
  | Named r => if r then [PNonNull] else []
  | ListOf e r => (if r then [PNonNull] else []) ++ PList :: wrappers e
  end.

(** operation.rs:488-496; [None] is the panic of [Wrapping::list]. *)
Fixpoint apply_wrappers (w : wrapping) (l : list wrapper) : option wrapping :=
  match l with
  | [] => Some w
  | PNonNull :: l' => apply_wrappers (non_null w) l'
  | PList :: l' => match list_ w with Some w' => apply_wrappers w' l' | None => None end
  end.
Definition convert_type (t : ty) : option wrapping := apply_wrappers new (rev (wrappers t)).

(** operation.rs:411-428: the type recorded for a variable; [default] is [Some true] for a
    non-null default value, [Some false] for an explicit null default. *)
Definition variable_wrapping (t : ty) (default : option bool) : option wrapping :=
  match convert_type t with
  | None => None
  | Some w =>
      match default with
      | Some true => if is_list w then list_non_null w else Some (non_null new)
      | _ => Some w
      end
  end.
