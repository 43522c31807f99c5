(** What is claimed about the response store: merging (C21, C22). *)

From Coq Require Import List Arith ZArith String Bool Sorted.
From Verif Require Import Response.Model.
Import ListNotations.
Local Open Scope nat_scope.

(** ** Keys *)

(** The order of the client: the query position, then the key. *)
Definition kbefore (a b : rkey) : Prop := fst a < fst b \/ (fst a = fst b /\ snd a < snd b).

(** Fields ordered by key, each key once. *)
Definition ordered {A} (l : list (rkey * A)) : Prop := StronglySorted kbefore (map fst l).

(** ** C21 *)

(** [after] has every field of [before] unchanged, every default field whose key
    was missing with its default value, nothing else, and no key twice. *)
Definition completed (before : fields) (ds : list (rkey * option string)) (after : fields) : Prop :=
  (forall f, In f before -> In f after) /\
  (forall k v, In (k, v) ds -> ~ In k (map fst before) ->
     In (k, match v with Some s => VStr s | None => VNull end) after) /\
  (forall k, In k (map fst after) -> In k (map fst before) \/ In k (map fst ds)) /\
  NoDup (map fst after).

(** A default field which comes after every field present. *)
Definition trailing (before : fields) (d : rkey * option string) : Prop :=
  forall f, In f before -> kbefore (fst f) (fst d).

(** ** C22: the values of the store as trees *)

(** A tree with the objects and lists it is stored in.  [TInacc]: the value is
    hidden from the client. *)
Inductive tree :=
| TLeaf (v : val)
| TList (i : id) (l : list tree)
| TObj (i : id) (d : option nat) (fs : list (rkey * tree))
| TInacc (i : id) (t : tree).

Definition is_leaf (v : val) : bool :=
  match v with VList _ | VObj _ | VInacc _ => false | _ => true end.

(** The store holds this tree for this value. *)
Inductive rep (ps : list part) : val -> tree -> Prop :=
| RLeaf v : is_leaf v = true -> rep ps v (TLeaf v)
| RList i vs ts :
    get_list ps i = Some vs -> Forall2 (rep ps) vs ts -> rep ps (VList i) (TList i ts)
| RObj i d fs ts :
    get_obj ps i = Some (MkObj d fs) -> map fst fs = map fst ts ->
    Forall2 (rep ps) (map snd fs) (map snd ts) ->
    rep ps (VObj i) (TObj i d ts)
| RInacc i v t :
    get_inacc ps i = Some v -> rep ps v t -> rep ps (VInacc i) (TInacc i t).

(** The objects of a tree. *)
Fixpoint objs (t : tree) : list id :=
  match t with
  | TLeaf _ => []
  | TList _ l => flat_map objs l
  | TObj i _ fs => i :: flat_map (fun f => objs (snd f)) fs
  | TInacc _ t => objs t
  end.

(** The objects of the trees of fields. *)
Definition fobjs (l : list (rkey * tree)) : list id := flat_map objs (map snd l).

(** The fields hold these trees. *)
Definition freps (ps : list part) (fs : fields) (ts : list (rkey * tree)) : Prop :=
  map fst fs = map fst ts /\ Forall2 (rep ps) (map snd fs) (map snd ts).

(** Every object has its fields ordered. *)
Inductive tidy : tree -> Prop :=
| TdLeaf v : tidy (TLeaf v)
| TdList i l : Forall tidy l -> tidy (TList i l)
| TdObj i d fs : ordered fs -> Forall tidy (map snd fs) -> tidy (TObj i d fs)
| TdInacc i t : tidy t -> tidy (TInacc i t).

(** What the client sees of a tree. *)
Fixpoint show (t : tree) : out :=
  match t with
  | TLeaf v => match v with
               | VBool b => OBool b | VInt z => OInt z | VFloat f => OFloat f
               | VStr s => OStr s | VAny o => o
               | VInts l => OList (map OInt l) | VFloats l => OList (map OFloat l)
               | _ => ONull
               end
  | TList _ l => OList (map show l)
  | TObj _ _ fs =>
      OObj (flat_map (fun f => if fst (fst f) =? 0 then [] else [(snd (fst f), show (snd f))]) fs)
  | TInacc _ _ => ONull
  end.

Fixpoint depth (t : tree) : nat :=
  match t with
  | TLeaf _ => 0
  | TList _ l => S (fold_right (fun t n => Nat.max (depth t) n) 0 l)
  | TObj _ _ fs => S (fold_right (fun f n => Nat.max (depth (snd f)) n) 0 fs)
  | TInacc _ t => S (depth t)
  end.

(** The pairs of trees which agree: both objects whose common fields agree, both
    lists whose elements agree up to the shortest, both null, values hidden from
    the client being looked into. *)
Inductive agrees : tree -> tree -> Prop :=
| AgNull : agrees (TLeaf VNull) (TLeaf VNull)
| AgObj i d fs i' d' fs' :
    (forall k t t', In (k, t) fs -> In (k, t') fs' -> agrees t t') ->
    agrees (TObj i d fs) (TObj i' d' fs')
| AgList i l i' l' :
    (forall n t t', nth_error l n = Some t -> nth_error l' n = Some t' -> agrees t t') ->
    agrees (TList i l) (TList i' l')
| AgInacc i t i' t' : agrees t t' -> agrees (TInacc i t) (TInacc i' t')
| AgInaccL i t t' : (forall j u, t' <> TInacc j u) -> agrees t t' -> agrees (TInacc i t) t'
| AgInaccR t i' t' : (forall j u, t <> TInacc j u) -> agrees t t' -> agrees t (TInacc i' t').

(** [merged t t' r]: [r] is the first tree with, at every object, the fields
    only the second has, and the merge of those they have in common.  Elements
    of lists are merged pairwise; those the second list has in excess are not
    kept. *)
Inductive merged : tree -> tree -> tree -> Prop :=
| MgNull : merged (TLeaf VNull) (TLeaf VNull) (TLeaf VNull)
| MgObj i d fs i' d' fs' r :
    ordered r ->
    (forall k t, In (k, t) fs -> ~ In k (map fst fs') -> In (k, t) r) ->
    (forall k t', In (k, t') fs' -> ~ In k (map fst fs) -> In (k, t') r) ->
    (forall k t t', In (k, t) fs -> In (k, t') fs' -> exists u, In (k, u) r /\ merged t t' u) ->
    (forall k, In k (map fst r) -> In k (map fst fs) \/ In k (map fst fs')) ->
    merged (TObj i d fs) (TObj i' d' fs') (TObj i d r)
| MgList i l i' l' r :
    List.length r = List.length l ->
    (forall n t t', nth_error l n = Some t -> nth_error l' n = Some t' ->
       exists u, nth_error r n = Some u /\ merged t t' u) ->
    (forall n t, nth_error l n = Some t -> nth_error l' n = None -> nth_error r n = Some t) ->
    merged (TList i l) (TList i' l') (TList i r)
| MgInacc i t i' t' r : merged t t' r -> merged (TInacc i t) (TInacc i' t') (TInacc i r)
| MgInaccL i t t' r : (forall j u, t' <> TInacc j u) -> merged t t' r -> merged (TInacc i t) t' (TInacc i r)
| MgInaccR t i' t' r : (forall j u, t <> TInacc j u) -> merged t t' r -> merged t (TInacc i' t') r.
