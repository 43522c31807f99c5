(** Model of field selection maps: what they are bound to and what is made of that.

    Binding:
    crates/engine/schema/src/builder/coerce/field_selection_map/{mod.rs, model.rs, target.rs}.
    Wrappings are type references (Wrapping/Properties.v, C01, C02: what the packed ones mean).
    Errors have no text.  The types are found by name ([gr_type]) rather than with a binary
    search in the types ordered by name. *)
From Coq Require Import List NArith Bool Arith.
From Verif Require Import Response.Model Wrapping.Spec Views.Model SelectionMap.Model.
Import ListNotations.
Local Open Scope nat_scope.
Local Open Scope list_scope.

Inductive def := DScalar (n : nat) | DEnum (n : nat) | DObject (n : nat) | DInterface (n : nat) | DUnion (n : nat) | DInput (n : nat).
Record tyref := TyRef { t_def : def; t_wrap : ty }.
Record fielddef := Field { f_name : name; f_type : tyref }.
(** The fields of an object or interface; the objects a composite type may be, in order. *)
Record graph := Graph {
  gr_field : nat -> fielddef;
  gr_fields : def -> list nat;
  gr_possible : def -> list nat;
  gr_type : name -> option def
}.
(** TargetField (target.rs:8-28): input values or fields of the subgraph, by id.  The key is
    the id of the string that is the name; [a_object] the fields of its type. *)
Inductive missing := MNone | MDefault (x : out) | MProvidable.
Record targets := Targets {
  a_key : nat -> nat;
  a_type : nat -> tyref;
  a_object : nat -> option (bool * list nat);
  a_missing : nat -> missing
}.

(** target.rs:30-101.  [ii_internal]: is_internal_in_id. *)
Record input := Input { ii_key : nat; ii_type : tyref; ii_default : option out; ii_internal : option nat }.
Definition argument_targets (inputs : nat -> input) (objects : nat -> bool * list nat) (subgraph : nat) : targets :=
  Targets (fun i => ii_key (inputs i)) (fun i => ii_type (inputs i))
    (fun i => match t_def (ii_type (inputs i)) with
              | DInput n => Some (fst (objects n), filter (fun j => match ii_internal (inputs j) with
                                                                    | None => true
                                                                    | Some s => Nat.eqb s subgraph
                                                                    end) (snd (objects n)))
              | _ => None
              end)
    (fun i => match ii_default (inputs i) with Some x => MDefault x | None => MNone end).
(** target.rs:103-161 *)
Definition field_targets (g : graph) (key : nat -> nat) (exists_in provided_by : nat -> list nat) (subgraph : nat) : targets :=
  Targets key (fun f => f_type (gr_field g f))
    (fun f => match t_def (f_type (gr_field g f)) with
              | DObject _ | DInterface _ =>
                  Some (false, filter (fun j => existsb (Nat.eqb subgraph) (exists_in j)) (gr_fields g (t_def (f_type (gr_field g f)))))
              | _ => None
              end)
    (fun f => if existsb (Nat.eqb subgraph) (provided_by f) then MProvidable else MNone).

(** model.rs:3-113 *)
Inductive bvalue := BValue (alternatives : list bentry)
with bentry :=
| BIdentity
| BPath (p : list nat)
| BObject (p : option (list nat)) (fields : list bofield)
| BList (p : option (list nat)) (v : bvalue)
with bofield := BOField (id : nat) (v : bfield)
with bfield := BFValue (v : bvalue) | BFField (f : nat) | BFDefault (x : out).
Definition bo_id (f : bofield) : nat := let (i, _) := f in i.
Inductive avalue := AObject (fields : list aofield) | AValue (v : bvalue)
with aofield := AOField (id : nat) (v : afield)
with afield := AFObject (fields : list aofield) | AFValue (v : bfield).
Definition ao_id (f : aofield) : nat := let (i, _) := f in i.

Fixpoint name_eqb (a b : name) : bool :=
  match a, b with
  | [], [] => true
  | x :: a, y :: b => N.eqb x y && name_eqb a b
  | _, _ => false
  end.
Fixpoint lenb (s o : ty) : bool :=
  match s, o with
  | Named rs, Named ro => negb rs || ro
  | ListOf es rs, ListOf eo ro => (negb rs || ro) && lenb es eo
  | _, _ => false
  end.
Definition composite (d : def) : bool := match d with DObject _ | DInterface _ | DUnion _ => true | _ => false end.
(** [swap_remove]: the last one takes the place of the one removed. *)
Definition swap_remove (ix : nat) (l : list nat) : list nat :=
  if Nat.eqb (S ix) (List.length l) then firstn ix l
  else firstn ix l ++ [last l 0] ++ firstn (List.length l - ix - 2) (skipn (S ix) l).
(** [position] *)
Fixpoint position (p : nat -> bool) (l : list nat) : option nat :=
  match l with
  | [] => None
  | x :: l => if p x then Some 0 else option_map S (position p l)
  end.

(** field_set.rs:280-303; both lists are in order. *)
Fixpoint disjoint (l : list nat) : list nat -> bool :=
  match l with
  | [] => fun _ => true
  | a :: l' => fix go r := match r with
                           | [] => true
                           | b :: r' => match Nat.compare a b with
                                        | Lt => disjoint l' r
                                        | Eq => false
                                        | Gt => go r'
                                        end
                           end
  end.

Section Bind.
  Variable g : graph.
  Variable strings : nat -> name.
  Variable T : targets.

  (** mod.rs:288-316 *)
  Definition bind_condition (parent : def) (ty : name) : option def :=
    match gr_type g ty with
    | Some ((DObject _ | DInterface _) as d) => if disjoint (gr_possible g parent) (gr_possible g d) then None else Some d
    | _ => None
    end.
  Definition field_named (d : def) (n : name) : option nat :=
    match d with
    | DObject _ | DInterface _ => find (fun f => name_eqb (f_name (gr_field g f)) n) (gr_fields g d)
    | _ => None
    end.
  (** mod.rs:216-286 *)
  Fixpoint bind_segments (l : list segment) (d : def) (w : ty) : option (list nat * tyref) :=
    match l with
    | [] => Some ([], TyRef d w)
    | s :: l =>
        match field_named d (SelectionMap.Model.g_field s) with
        | None => None
        | Some f =>
            let t := f_type (gr_field g f) in
            let w' := if required w then t_wrap t else make_nullable (t_wrap t) in
            bind (match SelectionMap.Model.g_ty s with
                  | Some n => if composite (t_def t) then bind_condition (t_def t) n else None
                  | None => Some (t_def t)
                  end) (fun d' =>
            bind (bind_segments l d' w') (fun '(p, src) => Some (f :: p, src)))
        end
    end.
  Definition bind_path (src : tyref) (p : path) : option (list nat * tyref) :=
    if listp (t_wrap src) then None
    else if composite (t_def src) then
      bind (match p_ty p with Some n => bind_condition (t_def src) n | None => Some (t_def src) end) (fun d =>
      bind_segments (p_segments p) d (t_wrap src))
    else None.

  (** mod.rs:486-527 *)
  Definition compatible (src : tyref) (t : nat) (w : ty) : bool :=
    lenb w (t_wrap src) &&
    match t_def (a_type T t), t_def src with
    | DScalar a, DScalar b | DEnum a, DEnum b => Nat.eqb a b
    | _, _ => false
    end.
  (** mod.rs:372-384: the place of the target with this name. *)
  Definition place (targets : list nat) (k : name) : option nat :=
    position (fun t => name_eqb (strings (a_key T t)) k) targets.

  (** mod.rs:136-160, 344-367: what is left of the targets. *)
  Definition fill {A} (id : A -> nat) (default : nat -> out -> A) : list nat -> list A -> option (list A) :=
    fix go targets bs :=
      match targets with
      | [] => Some bs
      | t :: l =>
          if existsb (fun b => Nat.eqb (id b) t) bs then go l bs
          else match a_missing T t with
               | MDefault x => go l (bs ++ [default t x])
               | MProvidable => go l bs
               | MNone => if required (t_wrap (a_type T t)) then None else go l bs
               end
      end.

  (** mod.rs:165-177 *)
  Fixpoint bind_selected (src : tyref) (t : nat) (w : ty) (v : value) {struct v} : option bvalue :=
    match v with
    | Value l =>
        bind ((fix go l := match l with
                           | [] => Some []
                           | e :: l => bind (bind_entry src t w e) (fun b => bind (go l) (fun l => Some (b :: l)))
                           end) l) (fun l => Some (BValue l))
    end
  (** mod.rs:179-214 with 319-367 and 448-484 *)
  with bind_entry (src : tyref) (t : nat) (w : ty) (e : entry) {struct e} : option bentry :=
    match e with
    | EPath p =>
        bind (bind_path src p) (fun '(p, _) =>
        match rev p with
        | [] => None
        | f :: _ => if compatible (f_type (gr_field g f)) t w then Some (BPath p) else None
        end)
    | EObject p fields =>
        bind (match p with
              | None => Some (None, src)
              | Some p => bind (bind_path src p) (fun '(p, s) => Some (Some p, s))
              end) (fun '(p, s) =>
        if listp w then None
        else if required w && negb (required (t_wrap s)) then None
        else match a_object T t with
             | None => None
             | Some (one_of, ts) =>
                 bind ((fix go fields ts :=
                          match fields with
                          | [] => Some ([], ts)
                          | f :: fields =>
                              bind (bind_ofield s ts f) (fun '(b, ts) =>
                              bind (go fields ts) (fun '(l, ts) => Some (b :: l, ts)))
                          end) fields ts) (fun '(bs, ts) =>
                 if one_of && Nat.ltb 1 (List.length bs) then None
                 else bind (fill bo_id (fun t x => BOField t (BFDefault x)) ts bs) (fun bs => Some (BObject p bs)))
             end)
    | EList p v =>
        bind (match p with
              | None => Some (None, src)
              | Some p => bind (bind_path src p) (fun '(p, s) => Some (Some p, s))
              end) (fun '(p, s) =>
        if required w && negb (required (t_wrap s)) then None
        else match element w, element (t_wrap s) with
             | Some w', Some s' => bind (bind_selected (TyRef (t_def s) s') t w' v) (fun v => Some (BList p v))
             | _, _ => None
             end)
    | Identity => if compatible src t w then Some BIdentity else None
    end
  (** mod.rs:369-446 *)
  with bind_ofield (src : tyref) (ts : list nat) (f : ofield) {struct f} : option (bofield * list nat) :=
    match f with
    | OField k v =>
        match place ts k with
        | None => None
        | Some ix =>
            let t := nth ix ts 0 in
            let ts := swap_remove ix ts in
            bind (match v with
                  | Some v => bind (bind_selected src t (t_wrap (a_type T t)) v) (fun b => Some (BFValue b))
                  | None =>
                      if listp (t_wrap src) then None
                      else match field_named (t_def src) k with
                           | None => None
                           | Some f => if compatible (f_type (gr_field g f)) t (t_wrap (a_type T t)) then Some (BFField f) else None
                           end
                  end) (fun b => Some (BOField t b, ts))
        end
    end.

  (** mod.rs:51-77 *)
  Fixpoint bind_value (src : tyref) (t : nat) (v : value) {struct v} : option avalue :=
    match v with
    | Value [e] => bind_one src t e
    | v => bind (bind_selected src t (t_wrap (a_type T t)) v) (fun b => Some (AValue b))
    end
  (** ... and mod.rs:79-163 *)
  with bind_one (src : tyref) (t : nat) (e : entry) {struct e} : option avalue :=
    match e with
    | EObject None fields =>
        match a_object T t with
        | None => None
        | Some (one_of, ts) =>
            bind ((fix go fields ts :=
                     match fields with
                     | [] => Some ([], ts)
                     | f :: fields =>
                         bind (bind_afield src ts f) (fun '(b, ts) =>
                         bind (go fields ts) (fun '(l, ts) => Some (b :: l, ts)))
                     end) fields ts) (fun '(bs, ts) =>
            if one_of && Nat.ltb 1 (List.length bs) then None
            else bind (fill ao_id (fun t x => AOField t (AFValue (BFDefault x))) ts bs) (fun bs => Some (AObject bs)))
        end
    | e => bind (bind_entry src t (t_wrap (a_type T t)) e) (fun b => Some (AValue (BValue [b])))
    end
  with bind_afield (src : tyref) (ts : list nat) (f : ofield) {struct f} : option (aofield * list nat) :=
    match f with
    | OField k (Some v) =>
        match place ts k with
        | None => None
        | Some ix =>
            let t := nth ix ts 0 in
            bind (bind_value src t v) (fun b =>
            Some (AOField t (match b with AObject l => AFObject l | AValue v => AFValue (BFValue v) end), swap_remove ix ts))
        end
    | f => bind (bind_ofield src ts f) (fun '(BOField t b, ts) => Some (AOField t (AFValue b), ts))
    end.
End Bind.

(** ** Requirements and injections
    crates/engine/schema/src/builder/graph/directives/composite/injection/explicit.rs and
    builder/graph/selections.rs.  The injections are trees, not indices into what was pushed.
    [sid f] is the id [insert_field] gives to the field [f] without arguments: always the
    same (selections.rs:41-49). *)
Section Create.
  Variable sid : nat -> nat.
  Variable key : nat -> nat.

  (** schema/src/field_set/union.rs:17-58, on the subselection of [x]. *)
  Fixpoint union_sub (x : item) (rs : list item) {struct x} : list item :=
    match x with
    | Item _ ls =>
        (fix left_ (ls : list item) : list item -> list item :=
           match ls with
           | [] => fun rs => rs
           | l :: ls' => fix right_ (rs : list item) : list item :=
               match rs with
               | [] => ls
               | r :: rs' =>
                   match Nat.compare (i_field l) (i_field r) with
                   | Lt => l :: left_ ls' rs
                   | Gt => r :: right_ rs'
                   | Eq => Item (i_field l) (match i_sub l with [] => i_sub r | _ => union_sub l (i_sub r) end) :: left_ ls' rs'
                   end
               end
           end) ls rs
    end.
  Definition union (ls rs : list item) : list item := union_sub (Item 0 ls) rs.

  (** selections.rs:94-104, 117-122. *)
  Definition order_key (p : nat * inj) : option nat * nat :=
    match snd p with ISelect f _ => (Some f, fst p) | _ => (None, fst p) end.
  Definition key_leb (a b : option nat * nat) : bool :=
    match fst a, fst b with
    | None, Some _ => true
    | Some _, None => false
    | None, None => Nat.leb (snd a) (snd b)
    | Some f, Some h => if Nat.eqb f h then Nat.leb (snd a) (snd b) else Nat.ltb f h
    end.
  Fixpoint insert_kv (p : nat * inj) (l : list (nat * inj)) : list (nat * inj) :=
    match l with
    | [] => [p]
    | q :: r => if key_leb (order_key p) (order_key q) then p :: l else q :: insert_kv p r
    end.
  Definition sort_kvs (l : list (nat * inj)) : list (nat * inj) := fold_right insert_kv [] l.

  (** explicit.rs:126-149, 151-177: the same of [next]; a path is never empty. *)
  Definition create_path (p : list nat) (next : list item * inj) : list item * inj :=
    fold_right (fun f '(s, i) => ([Item (sid f) s], ISelect (sid f) i)) next p.

  (** explicit.rs:76-124, 179-222 *)
  Fixpoint create_selected (v : bvalue) : option (list item * inj) :=
    match v with BValue [e] => create_entry e | _ => None end
  with create_entry (e : bentry) : option (list item * inj) :=
    match e with
    | BIdentity => Some ([], IIdentity)
    | BPath p => Some (create_path p ([], IIdentity))
    | BObject p fields =>
        bind ((fix go fields s kvs :=
                 match fields with
                 | [] => Some (s, IObject (sort_kvs kvs))
                 | f :: fields => bind (create_ofield f) (fun '(k, (r, i)) => go fields (union s r) (kvs ++ [(k, i)]))
                 end) fields [] []) (fun next =>
        Some (match p with Some p => create_path p next | None => next end))
    | BList p v =>
        bind (create_selected v) (fun next =>
        Some (match p with Some p => create_path p next | None => next end))
    end
  with create_ofield (f : bofield) : option (nat * (list item * inj)) :=
    match f with BOField id v => bind (create_field v) (fun r => Some (key id, r)) end
  with create_field (v : bfield) : option (list item * inj) :=
    match v with
    | BFValue v => create_selected v
    | BFField f => Some ([Item (sid f) []], ISelect (sid f) IIdentity)
    | BFDefault x => Some ([], IDefault x)
    end.

  (** ArgumentValueInjection; explicit.rs:25-74. *)
  Inductive ainj := AInject (i : inj) | AInput (l : list (nat * ainj)).
  Fixpoint create_argument (f : aofield) : option (nat * (list item * ainj)) :=
    match f with
    | AOField id (AFValue v) => bind (create_field v) (fun '(s, i) => Some (id, (s, AInject i)))
    | AOField id (AFObject fields) =>
        (fix go fields s l :=
           match fields with
           | [] => Some (id, (s, AInput l))
           | f :: fields => bind (create_argument f) (fun '(k, (r, i)) => go fields (union s r) (l ++ [(k, i)]))
           end) fields [] []
    end.
  Definition create_value (id : nat) (v : avalue) : option (nat * (list item * ainj)) :=
    create_argument (AOField id (match v with AObject l => AFObject l | AValue v => AFValue (BFValue v) end)).
  (** explicit.rs:10-23 *)
  Definition create_all (l : list (nat * avalue)) : option (list item * list (nat * ainj)) :=
    fold_left (fun o '(id, v) => bind o (fun '(s, args) => bind (create_value id v) (fun '(k, (r, i)) => Some (union s r, args ++ [(k, i)]))))
      l (Some ([], [])).
End Create.

(** require.rs:49-113: the arguments of a field with maps, for a single parent or for many. *)
Section Require.
  Variable g : graph.
  Variable strings : nat -> name.
  Variable T : targets.
  Definition single_source (parent : def) : tyref := TyRef parent (Named true).
  Definition batch_source (parent : def) : tyref := TyRef parent (ListOf (Named true) true).
  Definition has_bracket (t : text) : bool := existsb (N.eqb 91) t.
  Definition bind_text (src : tyref) (id : nat) (t : text) : option avalue := bind (parse t) (bind_value g strings T src id).
  Definition infer (parent : def) (id : nat) (t : text) : option (tyref * avalue) :=
    let first := if has_bracket t then batch_source parent else single_source parent in
    let second := if has_bracket t then single_source parent else batch_source parent in
    match bind_text first id t with
    | Some v => Some (first, v)
    | None => match bind_text second id t with Some v => Some (second, v) | None => None end
    end.
  Definition require (sid : nat -> nat) (parent : def) (args : list (nat * text)) : option (tyref * (list item * list (nat * ainj))) :=
    match args with
    | [] => None
    | (id, t) :: rest =>
        bind (infer parent id t) (fun '(src, v) =>
        bind (fold_right (fun '(id, t) o => bind (bind_text src id t) (fun v => bind o (fun l => Some ((id, v) :: l)))) (Some []) rest) (fun l =>
        bind (create_all sid (a_key T) ((id, v) :: l)) (fun r => Some (src, r))))
    end.
End Require.

(** What is written for the argument:
    crates/engine/src/prepare/cached/query_plan/field/arguments.rs:212-236, 271-288 and 300-330.
    [view] is the view of the parent object (or of the list of them) for an injection.  A
    default is written without it at the top: there are none there ([create_value]). *)
Section Written.
  Variable key : nat -> nat.
  Variable view : inj -> vres out.
  Fixpoint view_argument (a : ainj) : vres out :=
    match a with
    | AInject i => view i
    | AInput l =>
        vbind ((fix go l := match l with
                            | [] => VOk []
                            | (id, a) :: l => vbind (view_argument a) (fun x => vbind (go l) (fun es => VOk ((key id, x) :: es)))
                            end) l) (fun es => VOk (OObj es))
    end.
End Written.
