(** Normal forms of query documents, for the usage statistics (C45), and texts of
    documents without their literals, for the traces (C44).

    Modelled code: crates/operation-normalizer/src, all of it.

    The documents are those of the two parsers (graphql_parser for normalize,
    cynic_parser for sanitize); both syntax trees have the same contents and
    are modelled by the same types. Positions, comments and descriptions are
    left out: none of the functions looks at them. *)

From Coq Require Import String Ascii List Bool ZArith.
Import ListNotations.
Local Open Scope string_scope.
Local Open Scope list_scope.

(** *** Documents *)

(** graphql_parser::query::Value, cynic_parser::Value. A float is given by its
    bits. *)
Inductive value :=
| VVar (n : string)
| VInt (z : Z)
| VFloat (bits : Z)
| VStr (s : string)
| VBool (b : bool)
| VNull
| VEnum (n : string)
| VList (l : list value)
| VObj (l : list (string * value)).

Definition arguments := list (string * value).
Record directive := Directive { dir_name : string; dir_args : arguments }.

Inductive selection :=
| Field (alias : option string) (name : string) (args : arguments) (dirs : list directive) (sels : list selection)
| Spread (name : string) (dirs : list directive)
| Inline (cond : option string) (dirs : list directive) (sels : list selection).

Inductive gtype := TNamed (n : string) | TList (t : gtype) | TNonNull (t : gtype).
Record variable := VarDef { var_name : string; var_type : gtype; var_default : option value }.

Inductive op_kind := Query | Mutation | Subscription.

Record operation := Operation {
  op_type : op_kind;
  op_name : option string;
  op_vars : list variable;
  op_dirs : list directive;
  op_sels : list selection
}.

Record fragment := Fragment {
  frag_name : string;
  frag_cond : string;
  frag_dirs : list directive;
  frag_sels : list selection
}.

(** [DSet] is a bare selection set, OperationDefinition::SelectionSet. *)
Inductive definition := DOp (o : operation) | DSet (s : list selection) | DFrag (f : fragment).

Definition document := list definition.

(** *** Stable sort *)

(** slice::sort_by is stable: the result is determined for comparisons that are
    total preorders, whatever the algorithm. *)
Fixpoint insert_by {A} (cmp : A -> A -> comparison) (x : A) (l : list A) : list A :=
  match l with
  | [] => [x]
  | y :: r => match cmp x y with Gt => y :: insert_by cmp x r | _ => x :: l end
  end.

Definition sort_by {A} (cmp : A -> A -> comparison) (l : list A) : list A := fold_right (insert_by cmp) [] l.

(** *** normalize *)

(** normalize/arguments.rs 6-24. *)
Definition norm_value (v : value) : value :=
  match v with
  | VStr _ => VStr ""
  | VFloat _ => VFloat 0
  | VInt _ => VInt 0
  | VList _ => VList []
  | VObj _ => VObj []
  | _ => v
  end.

(** normalize/arguments.rs 3-26. *)
Definition norm_args (args : arguments) : arguments :=
  map (fun a => (fst a, norm_value (snd a))) (sort_by (fun a b => String.compare (fst a) (fst b)) args).

(** normalize/directives.rs. *)
Definition norm_dirs (dirs : list directive) : list directive :=
  map (fun d => Directive (dir_name d) (norm_args (dir_args d)))
    (sort_by (fun a b => String.compare (dir_name a) (dir_name b)) dirs).

(** The map of used fragments, HashMap<String, bool>. *)
Definition used := list (string * bool).

Fixpoint used_get (u : used) (n : string) : option bool :=
  match u with
  | [] => None
  | (m, b) :: r => if String.eqb m n then Some b else used_get r n
  end.

(** entry(name).or_insert(b) *)
Definition used_mark (u : used) (n : string) (b : bool) : used :=
  match used_get u n with Some _ => u | None => (n, b) :: u end.

(** normalize/selection_set.rs 44-63. *)
Definition sort_selection (a b : selection) : comparison :=
  match a, b with
  | Field _ m _ _ _, Field _ n _ _ _ => String.compare m n
  | Field _ _ _ _ _, Spread _ _ => Lt
  | Field _ _ _ _ _, Inline _ _ _ => Lt
  | Spread _ _, Field _ _ _ _ _ => Gt
  | Spread m _, Spread n _ => String.compare m n
  | Spread _ _, Inline _ _ _ => Lt
  | Inline _ _ _, Field _ _ _ _ _ => Gt
  | Inline _ _ _, Spread _ _ => Gt
  | Inline m _ _, Inline n _ _ =>
      match m, n with
      | None, None => Eq
      | None, Some _ => Lt
      | Some _, None => Gt
      | Some m, Some n => String.compare m n
      end
  end.

(** normalize/selection_set.rs 17-42, with the loop of 10-12 inside. *)
Fixpoint norm_sel (u : used) (in_op : bool) (s : selection) {struct s} : selection * used :=
  let fix items (u : used) (l : list selection) : list selection * used :=
    match l with
    | [] => ([], u)
    | s :: r => let (s', u1) := norm_sel u in_op s in let (r', u2) := items u1 r in (s' :: r', u2)
    end in
  match s with
  | Field _ n args dirs sels =>
      let (sels', u') := items u sels in
      (Field None n (norm_args args) (norm_dirs dirs) (sort_by sort_selection sels'), u')
  | Spread n dirs => (Spread n (norm_dirs dirs), used_mark u n in_op)
  | Inline c dirs sels =>
      let (sels', u') := items u sels in (Inline c (norm_dirs dirs) (sort_by sort_selection sels'), u')
  end.

Fixpoint norm_items (u : used) (in_op : bool) (l : list selection) : list selection * used :=
  match l with
  | [] => ([], u)
  | s :: r => let (s', u1) := norm_sel u in_op s in let (r', u2) := norm_items u1 in_op r in (s' :: r', u2)
  end.

(** normalize/selection_set.rs 5-15. *)
Definition norm_set (u : used) (in_op : bool) (l : list selection) : list selection * used :=
  let (l', u') := norm_items u in_op l in (sort_by sort_selection l', u').

(** normalize/operation.rs. *)
Definition norm_op (u : used) (o : operation) : operation * used :=
  let (s, u') := norm_set u true (op_sels o) in
  (Operation (op_type o) (op_name o) (sort_by (fun a b => String.compare (var_name a) (var_name b)) (op_vars o))
     (norm_dirs (op_dirs o)) s, u').

(** normalize.rs 18-27: the definitions kept for the name of the operation. *)
Definition selected (name : option string) (d : definition) : bool :=
  match name, d with
  | Some n, DOp o => match op_name o with Some m => String.eqb m n | None => false end
  | _, _ => true
  end.

(** normalize.rs 29-34. *)
Fixpoint norm_ops (u : used) (ds : document) : document * used :=
  match ds with
  | [] => ([], u)
  | DOp o :: r => let (o', u1) := norm_op u o in let (r', u2) := norm_ops u1 r in (DOp o' :: r', u2)
  | DSet s :: r => let (s', u1) := norm_set u true s in let (r', u2) := norm_ops u1 r in (DSet s' :: r', u2)
  | DFrag f :: r => let (r', u2) := norm_ops u r in (DFrag f :: r', u2)
  end.

(** normalize.rs 36-49. *)
Fixpoint norm_frags (u : used) (ds : document) : document * used :=
  match ds with
  | [] => ([], u)
  | DFrag f :: r =>
      match used_get u (frag_name f) with
      | None => let (r', u2) := norm_frags u r in (DFrag f :: r', u2)
      | Some _ =>
          let (s, u1) := norm_set u true (frag_sels f) in
          let (r', u2) := norm_frags u1 r in
          (DFrag (Fragment (frag_name f) (frag_cond f) (norm_dirs (frag_dirs f)) s) :: r', u2)
      end
  | d :: r => let (r', u2) := norm_frags u r in (d :: r', u2)
  end.

(** normalize.rs 51-54. *)
Definition retained (u : used) (d : definition) : bool :=
  match d with
  | DFrag f => match used_get u (frag_name f) with Some b => b | None => false end
  | _ => true
  end.

(** normalize.rs 56-64. *)
Definition sort_definition (a b : definition) : comparison :=
  match a, b with
  | DFrag f, DFrag g => String.compare (frag_name f) (frag_name g)
  | DFrag _, _ => Lt
  | _, DFrag _ => Gt
  | _, _ => Eq
  end.

(** normalize.rs 14-71: the document that is then printed; [None] is the error. *)
Definition normalize (name : option string) (ds : document) : option document :=
  let ds := filter (selected name) ds in
  let (ds, u) := norm_ops [] ds in
  let (ds, u) := norm_frags u ds in
  match sort_by sort_definition (filter (retained u) ds) with
  | [] => None
  | r => Some r
  end.

(** *** sanitize *)

(** [rendered] is a list of characters, what each function pushes at its end. *)
Definition text := list ascii.
Definition lit (s : string) : text := list_ascii_of_string s.

(** The loops of the code push something before the first element, between two
    elements and after the last one. *)
Definition elements {A} (sep close : text) (p : A -> text) : list A -> text :=
  fix go (l : list A) : text :=
    match l with
    | [] => []
    | x :: r => p x ++ match r with [] => close | _ => sep ++ go r end
    end.

Definition enclosed {A} (open sep close : text) (p : A -> text) (l : list A) : text :=
  match l with [] => [] | _ => open ++ elements sep close p l end.

(** sanitize/value.rs. *)
Fixpoint san_value (v : value) : text :=
  match v with
  | VVar n => lit "$" ++ lit n
  | VInt _ | VFloat _ => lit "0"
  | VStr _ => lit """"""
  | VBool true => lit "true"
  | VBool false => lit "false"
  | VNull => lit "null"
  | VEnum n => lit n
  | VList _ => lit "[]"
  | VObj l =>
      lit "{" ++ elements (lit ", ") [] (fun f => lit (fst f) ++ lit ": " ++ san_value (snd f)) l ++ lit "}"
  end.

Definition san_arg (a : string * value) : text := lit (fst a) ++ lit ": " ++ san_value (snd a).

(** sanitize/directives.rs. *)
Definition san_dir (d : directive) : text :=
  lit " @" ++ lit (dir_name d) ++ enclosed (lit "(") (lit ",") (lit ")") san_arg (dir_args d).
Definition san_dirs (l : list directive) : text := flat_map san_dir l.

(** sanitize/selection.rs. *)
Fixpoint san_sel (s : selection) : text :=
  match s with
  | Field alias n args dirs sels =>
      lit " " ++ match alias with Some a => lit a ++ lit ": " | None => [] end ++ lit n
      ++ enclosed (lit "(") (lit ", ") (lit ")") san_arg args
      ++ san_dirs dirs ++ enclosed (lit " {") [] (lit " }") san_sel sels
  | Inline c dirs sels =>
      lit " ..." ++ match c with Some t => lit " on " ++ lit t | None => [] end
      ++ san_dirs dirs ++ enclosed (lit " {") [] (lit " }") san_sel sels
  | Spread n _ => lit " ..." ++ lit n ++ lit " "
  end.

Definition san_sels (l : list selection) : text := enclosed (lit " {") [] (lit " }") san_sel l.

(** cynic_parser's Display for types. *)
Fixpoint print_type (t : gtype) : text :=
  match t with
  | TNamed n => lit n
  | TList t => lit "[" ++ print_type t ++ lit "]"
  | TNonNull t => print_type t ++ lit "!"
  end.

(** sanitize/variables.rs. *)
Definition san_var (v : variable) : text := lit "$" ++ lit (var_name v) ++ lit ": " ++ print_type (var_type v).
Definition san_vars (l : list variable) : text := enclosed (lit "(") (lit ", ") (lit ")") san_var l.

(** sanitize/operation.rs. *)
Definition san_kind (k : op_kind) : text :=
  match k with Query => lit "query" | Mutation => lit "mutation" | Subscription => lit "subscription" end.

Definition san_op (k : op_kind) (name : option string) (vars : list variable) (sels : list selection) : text :=
  san_kind k ++ match name with Some n => lit " " ++ lit n | None => [] end ++ san_vars vars ++ san_sels sels.

(** sanitize/fragment.rs. *)
Definition san_frag (f : fragment) : text :=
  lit "fragment " ++ lit (frag_name f) ++ lit " on " ++ lit (frag_cond f) ++ san_dirs (frag_dirs f)
  ++ san_sels (frag_sels f).

(** A bare selection set is a query for cynic_parser. *)
Definition san_def (d : definition) : text :=
  match d with
  | DOp o => san_op (op_type o) (op_name o) (op_vars o) (op_sels o)
  | DSet s => san_op Query None [] s
  | DFrag f => san_frag f
  end.

(** sanitize.rs 11-29. *)
Definition sanitize (ds : document) : text := elements (lit " ") [] san_def ds.
