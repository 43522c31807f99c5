(** The grammar of field selection maps: which texts spell a value.  White space may stand
    between any two tokens, except after the "." of a leading type; it must separate the fields
    of an object. *)
From Coq Require Import List NArith Bool.
From Verif Require Import SelectionMap.Model.
Import ListNotations.
Local Open Scope list_scope.
Local Open Scope N_scope.

Definition blank (t : text) : Prop := Forall (fun c => In c [32; 9; 10; 13]) t.
Definition letter (c : N) : Prop := (65 <= c <= 90) \/ (97 <= c <= 122) \/ c = 95.
Definition is_name (n : name) : Prop :=
  match n with [] => False | c :: r => letter c /\ Forall (fun c => letter c \/ 48 <= c <= 57) r end.

(** A token with blanks before and after it. *)
Definition around (x : N) (t : text) : Prop := exists a b, blank a /\ blank b /\ t = a ++ x :: b.

Inductive spells_segment : segment -> text -> Prop :=
| sp_plain n : is_name n -> spells_segment (Segment n None) n
| sp_typed n m a b c : is_name n -> is_name m -> blank a -> blank b -> blank c ->
    spells_segment (Segment n (Some m)) (n ++ a ++ [60] ++ b ++ m ++ c ++ [62]).
Inductive spells_segments : list segment -> text -> Prop :=
| sg_one s t : spells_segment s t -> spells_segments [s] t
| sg_more s t d l u : spells_segment s t -> around 46 d -> spells_segments l u -> spells_segments (s :: l) (t ++ d ++ u).
Inductive spells_path : path -> text -> Prop :=
| pa_plain l t : spells_segments l t -> spells_path (Path None l) t
| pa_typed n a b c l t : is_name n -> blank a -> blank b -> blank c -> spells_segments l t ->
    spells_path (Path (Some n) l) ([60] ++ a ++ n ++ b ++ [62] ++ c ++ [46] ++ t).

Inductive spells : value -> text -> Prop :=
| sp_value l t : spells_alternatives l t -> spells (Value l) t
with spells_alternatives : list entry -> text -> Prop :=
| al_one e t : spells_entry e t -> spells_alternatives [e] t
| al_more e t d l u : spells_entry e t -> around 124 d -> spells_alternatives l u ->
    spells_alternatives (e :: l) (t ++ d ++ u)
with spells_entry : entry -> text -> Prop :=
| en_identity : spells_entry Identity [46]
| en_path p t : spells_path p t -> spells_entry (EPath p) t
| en_object l t : spells_object l t -> spells_entry (EObject None l) t
| en_path_object p t d l u : spells_path p t -> around 46 d -> spells_object l u ->
    spells_entry (EObject (Some p) l) (t ++ d ++ u)
| en_list v t : spells_list v t -> spells_entry (EList None v) t
| en_path_list p t a v u : spells_path p t -> blank a -> spells_list v u -> spells_entry (EList (Some p) v) (t ++ a ++ u)
with spells_object : list ofield -> text -> Prop :=
| ob_none a : blank a -> spells_object [] ([123] ++ a ++ [125])
| ob_some a l t b : blank a -> spells_fields l t -> blank b -> spells_object l ([123] ++ a ++ t ++ b ++ [125])
with spells_fields : list ofield -> text -> Prop :=
| fi_one f t : spells_field f t -> spells_fields [f] t
| fi_more f t c a l u : spells_field f t -> blank (c :: a) -> spells_fields l u -> spells_fields (f :: l) (t ++ (c :: a) ++ u)
with spells_field : ofield -> text -> Prop :=
| fd_short k : is_name k -> spells_field (OField k None) k
| fd_long k d v t : is_name k -> around 58 d -> spells v t -> spells_field (OField k (Some v)) (k ++ d ++ t)
with spells_list : value -> text -> Prop :=
| li_list a v t b : blank a -> spells v t -> blank b -> spells_list v ([91] ++ a ++ t ++ b ++ [93]).

(** Values whose names are names and which have alternatives and segments. *)
Definition ok_segment (s : segment) : Prop :=
  is_name (g_field s) /\ match g_ty s with Some n => is_name n | None => True end.
Definition ok_path (p : path) : Prop :=
  p_segments p <> [] /\ Forall ok_segment (p_segments p) /\ match p_ty p with Some n => is_name n | None => True end.
Inductive ok : value -> Prop :=
| ok_value l : l <> [] -> Forall ok_entry l -> ok (Value l)
with ok_entry : entry -> Prop :=
| ok_identity : ok_entry Identity
| ok_epath p : ok_path p -> ok_entry (EPath p)
| ok_object p l : match p with Some p => ok_path p | None => True end -> Forall ok_field l -> ok_entry (EObject p l)
| ok_list p v : match p with Some p => ok_path p | None => True end -> ok v -> ok_entry (EList p v)
with ok_field : ofield -> Prop :=
| ok_short k : is_name k -> ok_field (OField k None)
| ok_long k v : is_name k -> ok v -> ok_field (OField k (Some v)).
