(** Specification of query modifiers: which rule must reach which extension. *)
From Coq Require Import List Arith Bool Sorting.Sorted Sorting.Permutation.
From Verif.Modifiers Require Import Model.
Import ListNotations.

(** What an extension is asked: (extension, directive name, rule). *)
Definition asked (calls : list (nat * list (nat * list rule))) : list (nat * nat * rule) :=
  flat_map (fun c => flat_map (fun g => map (fun r => (fst c, fst g, r)) (snd g)) (snd c)) calls.
(** The owner of a rule. *)
Definition owned (ext_of name_of : nat -> nat) (r : rule) : nat * nat * rule :=
  match r with Ext d _ => (ext_of d, name_of d, r) | Native _ => (0, 0, r) end.
Definition is_ext (r : rule) : Prop := match r with Ext _ _ => True | Native _ => False end.
(** Result of sorting with the comparison. *)
Definition sorted_by (cmp : record -> record -> comparison) (l : list record) : Prop :=
  StronglySorted (fun a b => cmp a b <> Gt) l.
(** Fields a rule applies to, among the insertions. *)
Definition fields_of (r : rule) (inserts : list (rule * option nat)) : list nat :=
  flat_map (fun i => if rule_eq_dec (fst i) r then match snd i with Some f => [f] | None => [] end else []) inserts.
(** A total order on names. *)
Record name_order (cmp : nat -> nat -> comparison) : Prop := {
  no_eq : forall a b, cmp a b = Eq <-> a = b;
  no_opp : forall a b, cmp b a = CompOpp (cmp a b);
  no_trans : forall a b c, cmp a b = Lt -> cmp b c = Lt -> cmp a c = Lt }.
