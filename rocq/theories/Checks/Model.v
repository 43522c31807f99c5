(* Model of the operation checks: /repo/crates/operation-checks/src.

   Schemas are read from the documents of SchemaDiff/Ast.v, and the changes are
   those of SchemaDiff/Diff.v.  The parser of operations is not modelled.  The
   code numbers the selection sets of an operation, sorts the selections by the
   number of their set and finds them again by binary search; here selections
   are nested (operation.rs, operation/async_graphql.rs 69-133).  Texts such as
   "Type.field" that serve as keys are pairs.  Counts are not bounded.  The
   messages of diagnostics are left out. *)
From Coq Require Import String List Bool Arith NArith.
Import ListNotations.
From Verif.SchemaDiff Require Import Ast Search Diff.
Local Open Scope string_scope.
Local Open Scope list_scope.

(** schema/wrapping_types.rs: the lists from the outermost to the innermost, with
    whether they are non-null, and whether the innermost type is.  Types of more
    than 57 nested lists are left out. *)
Definition wrapping : Type := list bool * bool.

Inductive comparison_result := NoChange | RemovedNonNull | AddedNonNull | NotCompatible.

Definition removed (s : comparison_result) : comparison_result :=
  match s with NoChange | RemovedNonNull => RemovedNonNull | AddedNonNull | NotCompatible => NotCompatible end.
Definition added (s : comparison_result) : comparison_result :=
  match s with NoChange | AddedNonNull => AddedNonNull | RemovedNonNull | NotCompatible => NotCompatible end.

(* 102-124 *)
Fixpoint compare_lists (l m : list bool) (s : comparison_result) : comparison_result :=
  match l, m with
  | nil, nil => s
  | true :: l', true :: m' | false :: l', false :: m' => compare_lists l' m' s
  | true :: l', false :: m' => compare_lists l' m' (removed s)
  | false :: l', true :: m' => compare_lists l' m' (added s)
  | _ :: _, nil | nil, _ :: _ => NotCompatible
  end.

(* 94-135 *)
Definition compare_wrapping (x y : wrapping) : comparison_result :=
  let s := compare_lists (fst x) (fst y) NoChange in
  match snd x, snd y with
  | true, true | false, false => s
  | true, false => removed s
  | false, true => added s
  end.

(* 87-92 *)
Definition is_nonnull (x : wrapping) : bool :=
  match fst x with
  | nil => snd x
  | b :: _ => b
  end.

(* schema/async_graphql.rs 119-135 *)
Fixpoint extract_type (nonnull : bool) (t : ty) : string * wrapping :=
  match t with
  | TName n => (n, (nil, nonnull))
  | TNonNull t' => extract_type true t'
  | TList t' => let '(n, (ls, i)) := extract_type false t' in (n, (nonnull :: ls, i))
  end.

(** schema.rs *)
Record sfield := mksfield { sf_type : string; sf_field : string; sf_base : string; sf_wrap : wrapping }.
Record sarg := mksarg { sa_type : string; sa_field : string; sa_arg : string; sa_base : string; sa_wrap : wrapping; sa_default : bool }.

Record schema := mkschema {
  s_fields : list sfield;
  s_args : list sarg;
  s_impls : list (string * string);        (* implementer and interface *)
  s_inputs : list string;
  s_query : string;
  s_mutation : string;
  s_subscription : string }.

Definition cmp2 (x y : string * string) : comparison :=
  match String.compare (fst x) (fst y) with Eq => String.compare (snd x) (snd y) | c => c end.

Definition field_key (x : sfield) : string * string := (sf_type x, sf_field x).
Definition arg_key (x : sarg) : string * string * string := (sa_type x, sa_field x, sa_arg x).

Definition not_gt (c : comparison) : bool := match c with Gt => false | _ => true end.
Definition below (c : comparison) : bool := match c with Lt => true | _ => false end.

(* schema/async_graphql.rs 32-97: the fields and arguments of a definition.  The
   arguments of the fields of interfaces are not kept. *)
Definition to_field (n : string) (x : field) : sfield :=
  let '(b, w) := extract_type false (f_type x) in mksfield n (f_name x) b w.
Definition to_input (n : string) (x : input) : sfield :=
  let '(b, w) := extract_type false (i_type x) in mksfield n (i_name x) b w.
Definition to_arg (n f : string) (x : input) : sarg :=
  let '(b, w) := extract_type false (i_type x) in
  mksarg n f (i_name x) b w (match i_default x with Some _ => true | None => false end).

Definition tdefs_of (x : def) : list tdef :=
  match x with
  | DType t | DTypeExt t => [t]
  | _ => nil
  end.

Definition table_fields (t : tdef) : list sfield :=
  match t with
  | TObject n _ fs | TInterface n _ fs => map (to_field n) fs
  | TInput n fs => map (to_input n) fs
  | _ => nil
  end.

Definition table_args (t : tdef) : list sarg :=
  match t with
  | TObject n _ fs => flat_map (fun x => map (to_arg n (f_name x)) (f_args x)) fs
  | _ => nil
  end.

Definition table_impls (t : tdef) : list (string * string) :=
  match t with
  | TObject n impls _ | TInterface n impls _ => map (fun i => (n, i)) impls
  | _ => nil
  end.

Definition table_inputs (t : tdef) : list string :=
  match t with
  | TInput n _ => [n]
  | _ => nil
  end.

(* 18-30, 112-114: a later definition or extension of the schema wins *)
Definition roots_of (x : def) : list roots :=
  match x with
  | DSchema r | DSchemaExt r => [r]
  | _ => nil
  end.

Definition root_name (get : roots -> option string) (default : string) (l : list roots) : string :=
  fold_left (fun acc r => match get r with Some n => n | None => acc end) l default.

(* 7-116 *)
Definition schema_of (d : doc) : schema :=
  let ts := flat_map tdefs_of d in
  let rs := flat_map roots_of d in
  mkschema
    (sort (fun x y => not_gt (cmp2 (field_key x) (field_key y))) (flat_map table_fields ts))
    (sort (fun x y => not_gt (cmp3 (arg_key x) (arg_key y))) (flat_map table_args ts))
    (sort (fun x y => not_gt (cmp2 x y)) (flat_map table_impls ts))
    (flat_map table_inputs ts)
    (root_name r_query "Query" rs)
    (root_name r_mutation "Mutation" rs)
    (root_name r_subscription "Subscription" rs).

Definition found {A} (r : nat + A) : option nat := match r with inl i => Some i | inr _ => None end.

(* 35-45 *)
Definition find_field (s : schema) (n f : string) : option nat :=
  found (bsearch (fun x => cmp2 (field_key x) (n, f)) (s_fields s)).

(* 48-56 *)
Definition find_argument (s : schema) (n f a : string) : option nat :=
  found (bsearch (fun x => cmp3 (arg_key x) (n, f, a)) (s_args s)).

(* 58-69 *)
Definition iter_fields (s : schema) (n : string) : list sfield :=
  let start := partition_point (fun x => below (String.compare (sf_type x) n)) (s_fields s) in
  take_while (fun x => String.eqb n (sf_type x)) (skipn start (s_fields s)).

(* 71-88: the predicate of the partition does not hold of a prefix *)
Fixpoint enumerate {A} (i : nat) (l : list A) : list (nat * A) :=
  match l with
  | nil => nil
  | x :: r => (i, x) :: enumerate (S i) r
  end.

Definition iter_field_arguments (s : schema) (x : sfield) : list (nat * sarg) :=
  let start := partition_point
    (fun y => below (String.compare (sa_type y) (sf_type x)) && below (String.compare (sa_field y) (sf_field x))) (s_args s) in
  enumerate start (take_while (fun y => String.eqb (sa_type y) (sf_type x) && String.eqb (sa_field y) (sf_field x))
                     (skipn start (s_args s))).

(* 90-102 *)
Definition iter_interface_implementations (s : schema) (n : string) : list string :=
  let start := partition_point (fun x => below (String.compare (fst x) n)) (s_impls s) in
  map snd (take_while (fun x => String.eqb (fst x) n) (skipn start (s_impls s))).

(** operation.rs *)
Inductive op_type := Query | Mutation | Subscription.

(* An argument is its name, with the value if it is that of an enum. *)
Inductive selection :=
| SField (name : string) (args : list (string * option string)) (sub : list selection)
| SSpread (fragment : string)
| SInline (on : option string) (sub : list selection).

Record operation := mkop {
  o_type : op_type;
  o_fragments : list (string * (string * list selection));
  o_root : list selection;
  o_enums : list (string * string) }.     (* of the defaults of variables *)

(** aggregate_field_usage.rs *)

(* A HashMap of counts. *)
Fixpoint bump {K} (eqb : K -> K -> bool) (k : K) (n : N) (l : list (K * N)) : list (K * N) :=
  match l with
  | nil => [(k, n)]
  | (k', m) :: r => if eqb k k' then (k', (m + n)%N) :: r else (k', m) :: bump eqb k n r
  end.

Definition contains {K} (eqb : K -> K -> bool) (k : K) (l : list (K * N)) : bool := existsb (fun p => eqb k (fst p)) l.

Definition pair_eqb (x y : string * string) : bool := String.eqb (fst x) (fst y) && String.eqb (snd x) (snd y).

Record usage := mkusage {
  u_increment : N;
  u_fields : list (nat * N);
  u_args : list (nat * N);
  u_enums : list ((string * string) * N);
  u_left_out : list (nat * N);
  u_conditions : list ((string * string) * N) }.

Definition no_usage : usage := mkusage 1 nil nil nil nil nil.

Definition register_field (i : nat) (u : usage) : usage :=
  mkusage (u_increment u) (bump Nat.eqb i (u_increment u) (u_fields u)) (u_args u) (u_enums u) (u_left_out u) (u_conditions u).
Definition register_argument (i : nat) (u : usage) : usage :=
  mkusage (u_increment u) (u_fields u) (bump Nat.eqb i (u_increment u) (u_args u)) (u_enums u) (u_left_out u) (u_conditions u).
Definition register_enum (k : string * string) (u : usage) : usage :=
  mkusage (u_increment u) (u_fields u) (u_args u) (bump pair_eqb k (u_increment u) (u_enums u)) (u_left_out u) (u_conditions u).
Definition register_left_out (i : nat) (u : usage) : usage :=
  mkusage (u_increment u) (u_fields u) (u_args u) (u_enums u) (bump Nat.eqb i (u_increment u) (u_left_out u)) (u_conditions u).
(* 250-255: by one, not by the increment *)
Definition register_condition (k : string * string) (u : usage) : usage :=
  mkusage (u_increment u) (u_fields u) (u_args u) (u_enums u) (u_left_out u) (bump pair_eqb k 1 (u_conditions u)).

Definition set_increment (n : N) (u : usage) : usage :=
  mkusage n (u_fields u) (u_args u) (u_enums u) (u_left_out u) (u_conditions u).

(* 132-139 *)
Definition apply_threshold (t : N) (u : usage) : usage :=
  let keep {K} (l : list (K * N)) := filter (fun p => N.leb t (snd p)) l in
  mkusage (u_increment u) (keep (u_fields u)) (keep (u_args u)) (keep (u_enums u)) (keep (u_left_out u)) (keep (u_conditions u)).

(* 212-227 *)
Definition use_argument (s : schema) (n f : string) (u : usage) (x : string * option string) : usage :=
  match find_argument s n f (fst x) with
  | None => u
  | Some i =>
      let u := register_argument i u in
      match snd x, nth_error (s_args s) i with
      | Some v, Some y => register_enum (sa_base y, v) u
      | _, _ => u
      end
  end.

(* 234-241 *)
Definition left_out (s : schema) (x : sfield) (args : list (string * option string)) (u : usage) : usage :=
  fold_left (fun u p =>
    if forallb (fun a => negb (String.eqb (fst a) (sa_arg (snd p)))) args &&
       (is_nonnull (sa_wrap (snd p)) && sa_default (snd p))
    then register_left_out (fst p) u else u) (iter_field_arguments s x) u.

Definition find_fragment (n : string) (fs : list (string * (string * list selection))) : option (string * list selection) :=
  match find (fun p => String.eqb (fst p) n) fs with
  | Some p => Some (snd p)
  | None => None
  end.

Fixpoint fold_option {A B} (f : A -> B -> option A) (l : list B) (a : A) : option A :=
  match l with
  | nil => Some a
  | x :: r => match f a x with Some a' => fold_option f r a' | None => None end
  end.

(* 185-268; nothing is returned if the recursion does not end *)
Fixpoint aggregate_selection (fuel : nat) (s : schema) (fs : list (string * (string * list selection)))
    (parent : string) (u : usage) (x : selection) : option usage :=
  match fuel with
  | O => None
  | S fuel =>
      match x with
      | SField f args sub =>
          match find_field s parent f with
          | None => Some u
          | Some i =>
              match nth_error (s_fields s) i with
              | None => Some u
              | Some y =>
                  let u := fold_left (use_argument s parent f) args (register_field i u) in
                  option_map (left_out s y args) (fold_option (aggregate_selection fuel s fs (sf_base y)) sub u)
              end
          end
      | SSpread n =>
          match find_fragment n fs with
          | None => Some u
          | Some (on, sub) => fold_option (aggregate_selection fuel s fs on) sub u
          end
      | SInline (Some on) sub => fold_option (aggregate_selection fuel s fs on) sub (register_condition (parent, on) u)
      | SInline None sub => fold_option (aggregate_selection fuel s fs parent) sub u
      end
  end.

Definition op_root (s : schema) (t : op_type) : string :=
  match t with
  | Query => s_query s
  | Mutation => s_mutation s
  | Subscription => s_subscription s
  end.

(* 171-183 *)
Definition aggregate (fuel : nat) (s : schema) (u : usage) (o : operation) : option usage :=
  let u := fold_left (fun u k => register_enum k u) (o_enums o) u in
  fold_option (aggregate_selection fuel s (o_fragments o) (op_root s (o_type o))) (o_root o) u.

(** check.rs *)

(* The two implementations of UsageProvider. *)
Inductive provider :=
| Used (u : usage)
| AllUsed.

Definition field_is_used (p : provider) (i : nat) : bool :=
  match p with Used u => contains Nat.eqb i (u_fields u) | AllUsed => true end.
Definition argument_is_used (p : provider) (i : nat) : bool :=
  match p with Used u => contains Nat.eqb i (u_args u) | AllUsed => true end.
Definition enum_value_is_used (p : provider) (k : string * string) : bool :=
  match p with Used u => contains pair_eqb k (u_enums u) | AllUsed => true end.
Definition argument_is_left_out (p : provider) (i : nat) : bool :=
  match p with Used u => contains Nat.eqb i (u_left_out u) | AllUsed => true end.
Definition type_condition_is_used (p : provider) (k : string * string) : bool :=
  match p with Used u => contains pair_eqb k (u_conditions u) | AllUsed => true end.

Inductive severity := Warning | Error.

Inductive verdict :=
| Silent
| Reported (s : severity)
| Panics.

(* 211-223, with the recursion; the set is a list *)
Fixpoint used_input_types_rec (fuel : nat) (s : schema) (acc : list string) (root : string) : option (list string) :=
  match fuel with
  | O => None
  | S fuel =>
      if existsb (String.eqb root) acc then Some acc
      else fold_option (used_input_types_rec fuel s) (map sf_base (iter_fields s root)) (root :: acc)
  end.

(* Every call that goes deeper adds a name, and the names are those of fields and arguments. *)
Definition input_fuel (s : schema) : nat := S (S (length (s_fields s))).

(* check.rs 205-235 *)
Definition find_used_input_types (s : schema) (p : provider) : list string :=
  match p with
  | AllUsed => s_inputs s
  | Used u =>
      match fold_option (used_input_types_rec (input_fuel s) s)
              (flat_map (fun q => match nth_error (s_args s) (fst q) with Some y => [sa_base y] | None => nil end) (u_args u)) nil with
      | Some l => l
      | None => nil
      end
  end.

Section Rules.
  Context (src target : schema) (p : provider).

  Definition has_name (x : string) (l : list string) : bool := existsb (String.eqb x) l.

  (* 42-50 *)
  Definition used_field (n f : string) : bool :=
    match find_field src n f with None => false | Some i => field_is_used p i end.
  (* 52-58 *)
  Definition used_argument (n f a : string) : bool :=
    match find_argument src n f a with None => false | Some i => argument_is_used p i end.
  (* 64-70 *)
  Definition used_left_out (n f a : string) : bool :=
    match find_argument src n f a with None => false | Some i => argument_is_left_out p i end.

  Definition when (b : bool) : verdict := if b then Reported Error else Silent.

  (** check/rules.rs *)

  (* 8-70 *)
  Definition remove_field (n f : string) : verdict :=
    if has_name n (s_inputs src) then
      if has_name n (find_used_input_types src p) then
        let required :=
          match find_field src n f with
          | Some i => match nth_error (s_fields src) i with Some y => is_nonnull (sf_wrap y) | None => false end
          | None => false
          end in
        Reported (if required then Error else Warning)
      else Silent
    else when (used_field n f).

  (* 73-105 *)
  Definition add_field_argument (n f a : string) : verdict :=
    if used_field n f then
      match find_argument target n f a with
      | None => Panics
      | Some i =>
          match nth_error (s_args target) i with
          | Some y => when (is_nonnull (sa_wrap y) && negb (sa_default y))
          | None => Panics
          end
      end
    else Silent.

  (* 109-142 *)
  Definition add_field (n f : string) : verdict :=
    match find_field target n f with
    | None => Silent
    | Some i =>
        match nth_error (s_fields target) i with
        | Some y => when (is_nonnull (sf_wrap y) && has_name n (find_used_input_types src p))
        | None => Silent
        end
    end.

  (* 146-202: both arguments are looked for in the source *)
  Definition change_field_argument_type (n f a : string) : verdict :=
    let otherwise := when (used_argument n f a) in
    if used_field n f then
      match find_argument src n f a with
      | Some i =>
          match nth_error (s_args src) i, nth_error (s_args target) i with
          | Some x, Some y =>
              if negb (String.eqb (sa_base x) (sa_base y)) then otherwise
              else
                match compare_wrapping (sa_wrap x) (sa_wrap y) with
                | RemovedNonNull => Silent
                | AddedNonNull => when (negb (sa_default y))
                | NoChange | NotCompatible => otherwise
                end
          | _, _ => Panics
          end
      | None => otherwise
      end
    else Silent.

  (* 204-222 *)
  Definition remove_field_argument (n f a : string) : verdict := when (used_argument n f a).

  (* 228-298 *)
  Definition change_field_type (n f : string) : verdict :=
    match find_field src n f, find_field target n f with
    | Some i, Some j =>
        match nth_error (s_fields src) i, nth_error (s_fields target) j with
        | Some x, Some y =>
            let input := has_name n (s_inputs src) in
            if (if input then has_name n (find_used_input_types src p) else used_field n f) then
              let c := compare_wrapping (sf_wrap x) (sf_wrap y) in
              if negb (String.eqb (sf_base x) (sf_base y)) then Reported Error
              else
                match c, input with
                | NotCompatible, _ => Reported Error
                | AddedNonNull, true => Reported Warning
                | RemovedNonNull, false => Reported Error
                | _, _ => Silent
                end
            else Silent
        | _, _ => Silent
        end
    | _, _ => Silent
    end.

  (* 302-325 *)
  Definition remove_interface_implementation (n i : string) : verdict := when (type_condition_is_used p (i, n)).

  (* 329-347 *)
  Definition remove_union_member (n m : string) : verdict := when (type_condition_is_used p (n, m)).

  (* 353-400 *)
  Definition remove_object_type (n : string) : verdict :=
    if existsb (fun i => type_condition_is_used p (i, n)) (iter_interface_implementations src n) then Reported Error
    else if has_name n [s_query src; s_mutation src; s_subscription src] then
      when (existsb (fun y => used_field n (sf_field y)) (iter_fields src n))
    else Silent.

  (* 403-417 *)
  Definition remove_enum_value (n v : string) : verdict := when (enum_value_is_used p (n, v)).

  (* 420-433 *)
  Definition remove_field_argument_default (n f a : string) : verdict := when (used_left_out n f a).

  (* check.rs 122-190 *)
  Definition check_change (c : change) : verdict :=
    match c_kind c, c_path c with
    | RemoveObjectType, PType n => remove_object_type n
    | RemoveField, PField n f => remove_field n f
    | AddFieldArgument, PArg n f a => add_field_argument n f a
    | AddField, PField n f => add_field n f
    | ChangeFieldArgumentType, PArg n f a => change_field_argument_type n f a
    | RemoveFieldArgument, PArg n f a => remove_field_argument n f a
    | ChangeFieldType, PField n f => change_field_type n f
    | RemoveInterfaceImplementation, PImpl n i => remove_interface_implementation n i
    | RemoveUnionMember, PField n m => remove_union_member n m
    | RemoveEnumValue, PField n v => remove_enum_value n v
    | RemoveFieldArgumentDefault, PArg n f a => remove_field_argument_default n f a
    | _, _ => Silent
    end.

  (* 83-97: nothing is returned if a rule panics *)
  Fixpoint check (l : list change) : option (list (change * severity)) :=
    match l with
    | nil => Some nil
    | c :: r =>
        match check_change c, check r with
        | Silent, Some ds => Some ds
        | Reported s, Some ds => Some ((c, s) :: ds)
        | _, _ => None
        end
    end.
End Rules.

(* The check of documents as the tests of the crate run it: the changes are
   those of the two documents. *)
Definition check_docs (a b : doc) (p : provider) : option (list (change * severity)) :=
  match diff a b with
  | Some l => check (schema_of a) (schema_of b) p l
  | None => None
  end.
