(** What a search for a tree should give, in terms of paths. *)
From Coq Require Import NArith List Arith.
From Verif.Steiner Require Import Model.
Import ListNotations.
Local Open Scope nat_scope.

(** [path g P x p y]: the edges [p], all in [P], lead from [x] to [y]. *)
Inductive path (g : graph) (P : nat -> Prop) : nat -> list nat -> nat -> Prop :=
| path_nil x : path g P x [] x
| path_cons e ed p y : nth_error g e = Some ed -> P e -> path g P (e_dst ed) p y -> path g P (e_src ed) (e :: p) y.

(** The sum of the weights of edges. *)
Fixpoint sum_weights (g : graph) (es : list nat) : N :=
  match es with
  | [] => 0%N
  | e :: es' => ((match nth_error g e with Some ed => e_weight ed | None => 0 end) + sum_weights g es')%N
  end.

(** A tree with a root: there is exactly one way from the root to each node. *)
Definition rooted_tree (g : graph) (root : nat) (nodes edges : list nat) : Prop :=
  In root nodes /\
  (forall e, In e edges -> exists ed, nth_error g e = Some ed /\ In (e_src ed) nodes /\ In (e_dst ed) nodes) /\
  (forall x, In x nodes -> exists p, path g (fun e => In e edges) root p x /\
                                     (forall q, path g (fun e => In e edges) root q x -> q = p)).

(** An edge the search may take: one of the greatest weight stands for an edge that is not there. *)
Definition light (g : graph) (e : nat) : Prop := exists ed, nth_error g e = Some ed /\ (e_weight ed < 65535)%N.
Definition reachable_from (g : graph) (nodes : list nat) (t : nat) : Prop :=
  exists x p, In x nodes /\ path g (light g) x p t.

(** A queue gives one of its entries, unless it's empty. *)
Definition pops_an_entry {A} (pop : list A -> option A) : Prop :=
  (forall h x, pop h = Some x -> In x h) /\ (forall h, pop h = None -> h = []).
