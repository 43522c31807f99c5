(** Specification: CollectFields of the GraphQL specification (6.3.2) along a path of the response. *)
From Coq Require Import List Arith NArith Bool Sorting.Sorted Sorting.Permutation.
From Verif.Skip Require Import Model.
Import ListNotations.

Section Spec.
Variable possible : nat -> list nat.
Variable env : nat -> bool.

Definition holds (ty : nat) (cond : option nat) : bool :=
  match cond with None => true | Some c => existsb (Nat.eqb ty) (possible c) end.
(** Fields that an object of type [ty] has to consider, each with all the directives on it and on the
    fragments around it. *)
Record candidate := { c_key : nat; c_entity : nat; c_dirs : list dir; c_out : option nat; c_sub : list selection }.
Fixpoint collect (ty : nat) (dirs : list dir) (s : selection) : list candidate :=
  match s with
  | Field key entity ds out sub => [{| c_key := key; c_entity := entity; c_dirs := dirs ++ ds; c_out := out; c_sub := sub |}]
  | Fragment cond ds sels => if holds ty cond then flat_map (collect ty (dirs ++ ds)) sels else []
  end.
Definition allowed (d : dir) : bool := match d with Include v => env v | Skip v => negb (env v) end.
Definition visible (c : candidate) : bool := forallb allowed (c_dirs c).
Definition candidates (sels : list selection) (ty k : nat) : list candidate :=
  filter (fun c => c_key c =? k) (flat_map (collect ty []) sels).
Fixpoint shown (sels : list selection) (path : list (nat * nat)) : bool :=
  match path with
  | [] => true
  | (ty, k) :: path' =>
      match filter visible (candidates sels ty k) with
      | [] => false
      | vs => shown (flat_map c_sub vs) path'
      end
  end.
(** All the candidates met along the path agree on being visible. *)
Fixpoint agree (sels : list selection) (path : list (nat * nat)) : Prop :=
  match path with
  | [] => True
  | (ty, k) :: path' =>
      (forall a b, In a (candidates sels ty k) -> In b (candidates sels ty k) -> visible a = visible b) /\
      agree (flat_map c_sub (candidates sels ty k)) path'
  end.
(** The path is one the schema allows: types of objects are possible types of the fields followed, and a
    field selected under satisfied type conditions exists on the object's type. *)
Fixpoint typed (sels : list (nat * list selection)) (path : list (nat * nat)) : Prop :=
  match path with
  | [] => True
  | (ty, k) :: path' =>
      (forall out ss, In (out, ss) sels -> In ty (possible out)) /\
      (forall c, In c (flat_map (collect ty []) (flat_map snd sels)) -> In ty (possible (c_entity c))) /\
      exists outs, map c_out (candidates (flat_map snd sels) ty k) = map Some outs /\
        typed (combine outs (map c_sub (candidates (flat_map snd sels) ty k))) path'
      \/ path' = []
  end.
End Spec.

(** A total order on response keys. *)
Record key_order (cmp : nat -> nat -> comparison) : Prop := {
  ko_eq : forall a b, cmp a b = Eq <-> a = b;
  ko_opp : forall a b, cmp b a = CompOpp (cmp a b);
  ko_trans : forall a b c, cmp a b = Lt -> cmp b c = Lt -> cmp a c = Lt }.
(** Any sort that follows the comparison. *)
Definition sorts {A} (cmp : A -> A -> comparison) (sort : list A -> list A) : Prop :=
  forall l, Permutation l (sort l) /\ StronglySorted (fun a b => cmp a b <> Gt) (sort l).
