(** When two documents ask the same query: what the normal form is meant to
    capture, without reference to the code (C45).

    Names given by the client to its fields (aliases), the values of literals
    and the order of arguments, directives, variables and selections don't
    matter; nor do operations that aren't asked for, and fragments that the
    operation doesn't reach. Two entries with the same name have to stay in the
    same order. *)

From Coq Require Import String List Bool.
From Verif Require Import Normalizer.Model.
Import ListNotations.
Local Open Scope list_scope.

(** Literals of the same kind, or the same variable, enum value, boolean, null. *)
Definition same_value (v w : value) : Prop :=
  match v, w with
  | VInt _, VInt _ | VFloat _, VFloat _ | VStr _, VStr _ | VList _, VList _ | VObj _, VObj _ => True
  | VVar _, _ | VBool _, _ | VNull, _ | VEnum _, _ => v = w
  | _, _ => False
  end.

(** The same entries up to [R], in an order where only entries with different
    keys have changed places. *)
Inductive reordered {A K} (key : A -> K) (R : A -> A -> Prop) : list A -> list A -> Prop :=
| ro_nil : reordered key R [] []
| ro_cons x y l m : R x y -> reordered key R l m -> reordered key R (x :: l) (y :: m)
| ro_swap x y l : key x <> key y -> reordered key R (x :: y :: l) (y :: x :: l)
| ro_trans l m n : reordered key R l m -> reordered key R m n -> reordered key R l n.

Definition same_arg (a b : string * value) : Prop := fst a = fst b /\ same_value (snd a) (snd b).
Definition same_args : arguments -> arguments -> Prop := reordered fst same_arg.

Definition same_dir (a b : directive) : Prop := dir_name a = dir_name b /\ same_args (dir_args a) (dir_args b).
Definition same_dirs : list directive -> list directive -> Prop := reordered dir_name same_dir.

(** What distinguishes the entries of a selection set. *)
Inductive sel_key := KField (n : string) | KSpread (n : string) | KInline (c : option string).
Definition key_of (s : selection) : sel_key :=
  match s with Field _ n _ _ _ => KField n | Spread n _ => KSpread n | Inline c _ _ => KInline c end.

Inductive same_sel : selection -> selection -> Prop :=
| ss_field a a' n args args' dirs dirs' sels sels' :
    same_args args args' -> same_dirs dirs dirs' -> reordered key_of same_sel sels sels' ->
    same_sel (Field a n args dirs sels) (Field a' n args' dirs' sels')
| ss_spread n dirs dirs' : same_dirs dirs dirs' -> same_sel (Spread n dirs) (Spread n dirs')
| ss_inline c dirs dirs' sels sels' :
    same_dirs dirs dirs' -> reordered key_of same_sel sels sels' -> same_sel (Inline c dirs sels) (Inline c dirs' sels').

Definition same_sels : list selection -> list selection -> Prop := reordered key_of same_sel.

Definition same_op (a b : definition) : Prop :=
  match a, b with
  | DSet s, DSet t => same_sels s t
  | DOp o, DOp p =>
      op_type o = op_type p /\ op_name o = op_name p /\ reordered var_name eq (op_vars o) (op_vars p) /\
      same_dirs (op_dirs o) (op_dirs p) /\ same_sels (op_sels o) (op_sels p)
  | _, _ => False
  end.

Definition same_frag (f g : fragment) : Prop :=
  frag_name f = frag_name g /\ frag_cond f = frag_cond g /\
  same_dirs (frag_dirs f) (frag_dirs g) /\ same_sels (frag_sels f) (frag_sels g).

(** The operations asked for: all without a name, those of the name otherwise
    (and bare selection sets, which the parser accepts beside them). *)
Definition asked (name : option string) (d : definition) : bool :=
  match d with
  | DFrag _ => false
  | DSet _ => true
  | DOp o => match name with
             | None => true
             | Some n => match op_name o with Some m => String.eqb m n | None => false end
             end
  end.

(** The fragments spread in a selection. *)
Fixpoint spreads (s : selection) : list string :=
  match s with
  | Field _ _ _ _ sels => flat_map spreads sels
  | Spread n _ => [n]
  | Inline _ _ sels => flat_map spreads sels
  end.

Definition def_spreads (d : definition) : list string :=
  match d with
  | DOp o => flat_map spreads (op_sels o)
  | DSet s => flat_map spreads s
  | DFrag f => flat_map spreads (frag_sels f)
  end.

(** The fragments that the operations reach. *)
Inductive reached (name : option string) (ds : document) : string -> Prop :=
| re_op d n : In d ds -> asked name d = true -> In n (def_spreads d) -> reached name ds n
| re_frag f n : In (DFrag f) ds -> reached name ds (frag_name f) -> In n (def_spreads (DFrag f)) -> reached name ds n.

Definition frag_names (ds : document) : list string :=
  flat_map (fun d => match d with DFrag f => [frag_name f] | _ => [] end) ds.

(** Valid documents have no two fragments with the same name. *)
Definition unique_frags (ds : document) : Prop := NoDup (frag_names ds).

Definition same_query (name : option string) (d1 d2 : document) : Prop :=
  Forall2 same_op (filter (asked name) d1) (filter (asked name) d2) /\
  forall n, reached name d1 n ->
    (exists f1 f2, In (DFrag f1) d1 /\ In (DFrag f2) d2 /\ frag_name f1 = n /\ same_frag f1 f2) \/
    (~ In n (frag_names d1) /\ ~ In n (frag_names d2)).

(** Every fragment of the query is defined before the fragments that it spreads. *)
Definition callers_first (name : option string) (ds : document) : Prop :=
  forall f g, In (DFrag f) ds -> In (DFrag g) ds -> reached name ds (frag_name f) ->
    In (frag_name g) (def_spreads (DFrag f)) ->
    exists l1 l2 l3, ds = l1 ++ DFrag f :: l2 ++ DFrag g :: l3.
