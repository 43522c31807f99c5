(** Model of query modifiers: accumulation, grouping by extension and directive, and the call of the
    authorization extensions.
    Source: crates/engine/src/prepare/cached/builder/modifiers.rs,
    crates/engine/src/prepare/operation_plan/query_modifications.rs and
    crates/wasi-component-loader/src/extension/runtime/authorization.rs.
    Simplifications: a rule target (site, arguments, subgraph) is a number; the decision to insert a
    rule (which directives sit on a field, lines 45-272) is the input; response modifiers are left out. *)
From Coq Require Import List Arith Bool.
Import ListNotations.

(** [QueryModifierRule]; a native rule carries its list of conditions, here an opaque number. *)
Inductive rule := Native (directives : nat) | Ext (directive : nat) (target : nat).
Definition rule_eq_dec (a b : rule) : {a = b} + {a <> b}.
Proof. decide equality; apply Nat.eq_dec. Defined.
Record record := { r_rule : rule; r_root : bool; r_fields : list nat }.

(** modifiers.rs:286-291, without the response rules: map from rule to index, and records. *)
Record accumulator := { dedup : list (rule * nat); records : list record }.
Fixpoint lookup (r : rule) (m : list (rule * nat)) : option nat :=
  match m with [] => None | (r', i) :: m' => if rule_eq_dec r r' then Some i else lookup r m' end.
Fixpoint update (i : nat) (f : record -> record) (l : list record) : list record :=
  match l, i with
  | [], _ => []
  | x :: l', O => f x :: l'
  | x :: l', S i' => x :: update i' f l'
  end.
(** modifiers.rs:293-313 *)
Definition insert (a : accumulator) (r : rule) (field : option nat) : accumulator :=
  let '(a, ix) :=
    match lookup r (dedup a) with
    | Some ix => (a, ix)
    | None => ({| dedup := (r, List.length (records a)) :: dedup a;
                  records := records a ++ [{| r_rule := r; r_root := false; r_fields := [] |}] |},
               List.length (records a))
    end in
  {| dedup := dedup a;
     records := update ix (fun x => match field with
       | Some f => {| r_rule := r_rule x; r_root := r_root x; r_fields := r_fields x ++ [f] |}
       | None => {| r_rule := r_rule x; r_root := true; r_fields := r_fields x |} end) (records a) |}.
(** modifiers.rs:25-43 then the insertions of 45-272 in order; [native]: the records of @skip/@include. *)
Definition accumulate (native : list record) (inserts : list (rule * option nat)) : list record :=
  records (fold_left (fun a i => insert a (fst i) (snd i)) inserts {| dedup := []; records := native |}).

Section Build.
(** The schema: extension and (interned) name of a directive; [name_cmp] compares the names' strings. *)
Variable ext_of : nat -> nat.
Variable name_of : nat -> nat.
Variable name_cmp : nat -> nat -> comparison.

(** modifiers.rs:341-355 *)
Definition order (l r : record) : comparison :=
  match r_rule l, r_rule r with
  | Ext a _, Ext b _ => match Nat.compare (ext_of a) (ext_of b) with
                        | Eq => name_cmp (name_of a) (name_of b)
                        | c => c
                        end
  | Ext _ _, _ => Gt
  | _, Ext _ _ => Lt
  | _, _ => Eq
  end.

Definition range := (nat * nat)%type.
Definition ext_group := (nat * range * range)%type.
Definition dir_group := (nat * range)%type.

(** modifiers.rs:385-411; [ix] is the index of the next record, [e dstart estart] the open extension
    group, [nm nstart] the open directive group.  [None]: the [unreachable!] of line 388. *)
Fixpoint group_loop (ix : nat) (recs : list record) (e dstart estart nm nstart : nat)
    (be : list ext_group) (bd : list dir_group) : option (list ext_group * list dir_group) :=
  match recs with
  | [] =>
      let bd' := bd ++ [(nm, (nstart, ix))] in
      Some (be ++ [(e, (dstart, List.length bd'), (estart, ix))], bd')
  | x :: recs' =>
      match r_rule x with
      | Native _ => None
      | Ext d _ =>
          if negb (e =? ext_of d) then
            let bd' := bd ++ [(nm, (nstart, ix))] in
            group_loop (S ix) recs' (ext_of d) (List.length bd') ix (name_of d) ix
              (be ++ [(e, (dstart, List.length bd'), (estart, ix))]) bd'
          else if negb (nm =? name_of d) then
            group_loop (S ix) recs' e dstart estart (name_of d) ix be (bd ++ [(nm, (nstart, ix))])
          else group_loop (S ix) recs' e dstart estart nm nstart be bd
      end
  end.
(** modifiers.rs:357-415: skip the native records, then group.  Result: end of the native records,
    groups by extension, groups by directive. *)
Fixpoint build_from (ix : nat) (recs : list record) : option (nat * list ext_group * list dir_group) :=
  match recs with
  | [] => Some (ix, [], [])
  | x :: recs' =>
      match r_rule x with
      | Native _ => build_from (S ix) recs'
      | Ext d _ =>
          match group_loop (S ix) recs' (ext_of d) 0 ix (name_of d) ix [] [] with
          | Some (be, bd) => Some (ix, be, bd)
          | None => None
          end
      end
  end.

(** query_modifications.rs:147-156: the elements handed to the runtime, [None] for the
    [unreachable!("Not an extension modifier")]. *)
Fixpoint elements (recs : list record) : option (list rule) :=
  match recs with
  | [] => Some []
  | x :: recs' =>
      match r_rule x, elements recs' with
      | Ext d t, Some l => Some (Ext d t :: l)
      | _, _ => None
      end
  end.

Definition slice {A} (l : list A) (a b : nat) : list A := firstn (b - a) (skipn a l).
(** authorization.rs:60-111: one call per extension, with the directive ranges made relative, and what
    the extension reads through them: directive names with the elements of their range. *)
Definition call (els : list rule) (bd : list dir_group) (g : ext_group) : nat * list (nat * list rule) :=
  let '(e, (d0, d1), (q0, q1)) := g in
  (e, map (fun n => let '(nm, (s, t)) := n in (nm, slice (slice els q0 q1) (s - q0) (t - q0))) (slice bd d0 d1)).

(** query_modifications.rs:99-111 and 113-185: [Some []] without extension modifiers. *)
Definition authorize (sorted : list record) : option (list (nat * list (nat * list rule))) :=
  match build_from 0 sorted with
  | None => None
  | Some (_, [], _) => Some []
  | Some (_, be, bd) =>
      match elements sorted with
      | None => None
      | Some els => Some (map (call els bd) be)
      end
  end.

(** query_modifications.rs:212-238 and 378-388: the fields denied by the decisions on the elements
    [q0 .. q1); [None]: the [unwrap] of line 233. *)
Inductive decisions := GrantAll | DenyAll (error : nat) | DenySome (element_to_error : list (nat * nat)).
Definition deny (x : record) (error : nat) : list (nat * nat) := map (fun f => (f, error)) (r_fields x).
Fixpoint deny_some (sorted : list record) (q : range) (l : list (nat * nat)) : option (list (nat * nat)) :=
  match l with
  | [] => Some []
  | (i, e) :: l' =>
      if fst q + i <? snd q then
        match nth_error sorted (fst q + i), deny_some sorted q l' with
        | Some x, Some r => Some (deny x e ++ r)
        | _, _ => None
        end
      else None
  end.
Definition handle_decisions (sorted : list record) (q : range) (d : decisions) : option (list (nat * nat)) :=
  match d with
  | GrantAll => Some []
  | DenyAll e => Some (flat_map (fun x => deny x e) (slice sorted (fst q) (snd q)))
  | DenySome l => deny_some sorted q l
  end.
End Build.
