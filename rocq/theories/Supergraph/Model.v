(** * Where a field can be resolved: composition, written supergraph, engine schema

    The composer records, for every field of an object or interface, one
    [@join__field] per subgraph that defines it.  The supergraph writer drops
    those it takes for redundant.  The engine reads the text back and computes
    the subgraphs the field exists in.  This file follows one field through
    the three steps:

    - [crates/graphql-composition/src/compose/object.rs], lines 258-318
    - [crates/graphql-composition/src/compose/validate.rs], lines 4-88
    - [crates/graphql-composition/src/validate/composite_schemas/source_schema.rs],
      lines 51-73
    - [crates/graphql-composition/src/emit_federated_graph/directive.rs],
      lines 302-330, and [emit_federated_graph.rs], lines 355-402
    - [crates/graphql-composition/src/federated_graph/directives/override.rs]
    - [.../federated_graph/render_sdl/render_federated_sdl.rs], lines 321-383,
      and [render_sdl/directive.rs], lines 163-230
    - [crates/engine/schema/src/builder/graph/directives/federation.rs],
      lines 237-400, and [builder/subgraphs.rs], lines 30-118

    Types and field sets are abstract, with the functions that print and parse
    them.  Text is made of 8-bit characters and [to_uppercase] is its ASCII
    part.  The arguments of a written directive are kept apart instead of being
    joined in one text. *)

From Coq Require Import NArith Ascii String List Bool Arith.
Import ListNotations.
Local Open Scope string_scope.
Local Open Scope nat_scope.
Local Open Scope list_scope.

(** ** Names of the values of [join__Graph] *)

(** [char::to_uppercase] on ASCII. *)
Definition upper (c : ascii) : ascii :=
  let n := N_of_ascii c in
  if (97 <=? n)%N && (n <=? 122)%N then ascii_of_N (n - 32) else c.

(** One character of [join_graph_enum_variant_name],
    emit_federated_graph.rs:389-402. *)
Definition variant_char (c : ascii) : ascii :=
  if Ascii.eqb c "-" || Ascii.eqb c "_" || Ascii.eqb c " " then "_"%char else upper c.

Fixpoint variant (s : string) : string :=
  match s with
  | EmptyString => EmptyString
  | String c r => String (variant_char c) (variant r)
  end.

(** ** Labels of overrides, override.rs:1-36 *)

Inductive label :=
| Percent (n : N)
| Unknown (s : string).

Fixpoint strip_prefix (p s : string) : option string :=
  match p, s with
  | EmptyString, _ => Some s
  | String a p', String b s' => if Ascii.eqb a b then strip_prefix p' s' else None
  | String _ _, EmptyString => None
  end.

(** [strip_suffix(')')]. *)
Fixpoint strip_paren (s : string) : option string :=
  match s with
  | EmptyString => None
  | String c EmptyString => if Ascii.eqb c ")" then Some EmptyString else None
  | String c r => option_map (String c) (strip_paren r)
  end.

(** The digits of [u8::from_str], with its overflow checks. *)
Fixpoint u8_digits (s : string) (acc : N) : option N :=
  match s with
  | EmptyString => Some acc
  | String c r =>
      let n := N_of_ascii c in
      if (48 <=? n)%N && (n <=? 57)%N then
        let v := (acc * 10 + (n - 48))%N in
        if (v <=? 255)%N then u8_digits r v else None
      else None
  end.

(** [u8::from_str]: one optional [+], then at least one digit. *)
Definition u8_from_str (s : string) : option N :=
  match s with
  | EmptyString => None
  | String c r =>
      if Ascii.eqb c "+" then
        match r with EmptyString => None | _ => u8_digits r 0 end
      else u8_digits s 0
  end.

(** [OverrideLabel::from_str], override.rs:22-36; it never fails. *)
Definition parse_label (s : string) : label :=
  match strip_prefix "percent(" s with
  | Some r =>
      match strip_paren r with
      | Some d =>
          match u8_from_str d with
          | Some n => Percent n
          | None => Unknown s
          end
      | None => Unknown s
      end
  | None => Unknown s
  end.

(** [None | Some(OverrideLabel::Percent(100))], render_federated_sdl.rs:337. *)
Definition replaces_all (l : option label) : bool :=
  match l with
  | None => true
  | Some (Percent n) => (n =? 100)%N
  | Some (Unknown _) => false
  end.

(** ** Sorting, for the comparison of the writer *)

Fixpoint insert (x : nat) (l : list nat) : list nat :=
  match l with
  | [] => [x]
  | y :: r => if x <=? y then x :: l else y :: insert x r
  end.

Fixpoint sort (l : list nat) : list nat :=
  match l with
  | [] => []
  | x :: r => insert x (sort r)
  end.

(** [Itertools::dedup]: equal neighbours are merged. *)
Fixpoint dedup (l : list nat) : list nat :=
  match l with
  | [] => []
  | x :: r =>
      match r with
      | y :: _ => if x =? y then dedup r else x :: dedup r
      | [] => [x]
      end
  end.

Fixpoint same_list (a b : list nat) : bool :=
  match a, b with
  | [], [] => true
  | x :: a', y :: b' => (x =? y) && same_list a' b'
  | _, _ => false
  end.

Definition mem (x : nat) (l : list nat) : bool := existsb (Nat.eqb x) l.

(** [BTreeSet::insert] and [remove] on sets of names. *)
Fixpoint set_insert (x : string) (l : list string) : list string :=
  match l with
  | [] => [x]
  | y :: r =>
      match String.compare x y with
      | Lt => x :: l
      | Eq => l
      | Gt => y :: set_insert x r
      end
  end.

Definition set_remove (x : string) (l : list string) : list string :=
  filter (fun y => negb (String.eqb x y)) l.

Section Field.
Variable ty : Type.
Variable ty_eqb : ty -> ty -> bool.
Variable render_ty : ty -> string.
Variable parse_ty : string -> option ty.
Variable fs : Type.
Variable fs_empty : fs -> bool.
Variable render_fs : fs -> string.
Variable parse_fs : string -> option fs.

(** ** The composer *)

(** A field of one subgraph: its subgraph, its type, whether it or its parent
    is [@external], whether a key of the parent uses it, and its [@requires],
    [@provides] and [@override(from:, label:)]. *)
Record source := Source {
  s_graph : nat;
  s_type : ty;
  s_external : bool;
  s_key : bool;
  s_requires : option fs;
  s_provides : option fs;
  s_override : option (string * option string) }.

(** [OverrideSource], override.rs:38-42. *)
Inductive override_source :=
| OSubgraph (g : nat)
| OMissing (name : string).

(** [federated::JoinFieldDirective]. *)
Record join_field := JoinField {
  jf_graph : option nat;
  jf_requires : option fs;
  jf_provides : option fs;
  jf_type : option ty;
  jf_external : bool;
  jf_override : option override_source;
  jf_label : option label }.

(** [Iterator::position] on the names of the subgraphs. *)
Fixpoint position (n : string) (names : list string) : option nat :=
  match names with
  | [] => None
  | m :: r => if String.eqb m n then Some 0 else option_map S (position n r)
  end.

(** One turn of the loop of [ingest_join_field_directives], object.rs:266-317,
    followed by [transform_join_field_directive], directive.rs:302-330.
    [attach_selection] is taken to keep the field set. *)
Definition compose_one (names : list string) (composed : ty) (s : source) : join_field :=
  JoinField
    (Some (s_graph s))
    (s_requires s)
    (s_provides s)
    (if ty_eqb (s_type s) composed then None else Some (s_type s))
    (s_external s && negb (s_key s))
    (match s_override s with
     | Some (from, _) =>
         Some (match position from names with
               | Some g => OSubgraph g
               | None => OMissing from
               end)
     | None => None
     end)
    (match s_override s with
     | Some (_, Some l) => Some (parse_label l)
     | _ => None
     end).

Definition compose (names : list string) (composed : ty) (sources : list source) : list join_field :=
  map (compose_one names composed) sources.

(** [ir::Directive::JoinEntityInterfaceField], entity_interface.rs:154: the only
    directive of a field an entity interface adds to its implementers. *)
Definition entity_interface_field : join_field := JoinField None None None None false None None.

(** The diagnostics about this field.  [override_source_has_override] refuses two
    overrides from one name, [override_from_self] an override from the own
    subgraph, object.rs:296-314 an external field with requirements. *)
Definition froms (sources : list source) : list string :=
  flat_map (fun s => match s_override s with Some (from, _) => [from] | None => [] end) sources.

Fixpoint distinct (l : list string) : bool :=
  match l with
  | [] => true
  | x :: r => negb (existsb (String.eqb x) r) && distinct r
  end.

Definition accepted (names : list string) (sources : list source) : bool :=
  distinct (froms sources)
  && forallb (fun s =>
       (match s_override s with
        | Some (from, _) => negb (String.eqb from (nth (s_graph s) names ""%string))
        | None => true
        end)
       && negb (s_external s
                && (match s_requires s with Some _ => true | None => false end
                    || match s_provides s with Some _ => true | None => false end)))
       sources.

(** ** The writer *)

(** The arguments of a written [@join__field]. *)
Record written := Written {
  w_graph : option string;
  w_requires : option string;
  w_provides : option string;
  w_type : option string;
  w_external : bool;
  w_override : option string }.

Definition is_some {A} (o : option A) : bool :=
  match o with Some _ => true | None => false end.

(** The subgraphs the writer takes for replaced, render_federated_sdl.rs:337-341. *)
Definition fully_overridden (d : join_field) : list nat :=
  match jf_override d with
  | Some (OSubgraph g) => if replaces_all (jf_label d) then [g] else []
  | _ => []
  end.

(** render_federated_sdl.rs:343-347. *)
Definition special (d : join_field) : bool :=
  is_some (jf_override d) || is_some (jf_requires d) || is_some (jf_provides d)
  || is_some (jf_type d) || jf_external d.

Definition graph_of (d : join_field) : list nat :=
  match jf_graph d with Some g => [g] | None => [] end.

(** [join_field_must_be_present], render_federated_sdl.rs:329-366; [parents] are
    the subgraphs of the parent's [@join__type] directives, one for each key. *)
Definition must_be_present (parents : list nat) (ds : list join_field) : bool :=
  if existsb special ds then true
  else negb (same_list (dedup (sort parents)) (sort (flat_map graph_of ds))).

(** [render_join_field_directive], render_sdl/directive.rs:163-205.  The label is
    written too, but no reader uses it. *)
Definition render (names : list string) (d : join_field) : written :=
  Written
    (option_map (fun g => variant (nth g names ""%string)) (jf_graph d))
    (match jf_requires d with
     | Some f => if fs_empty f then None else Some (render_fs f)
     | None => None
     end)
    (match jf_provides d with
     | Some f => if fs_empty f then None else Some (render_fs f)
     | None => None
     end)
    (option_map render_ty (jf_type d))
    (jf_external d)
    (match jf_override d with
     | Some (OSubgraph g) => Some (nth g names ""%string)
     | Some (OMissing n) => Some n
     | None => None
     end).

(** [write_field_directives], render_federated_sdl.rs:368-382. *)
Definition write (names : list string) (parents : list nat) (ds : list join_field) : list written :=
  let must := must_be_present parents ds in
  let gone := flat_map fully_overridden ds in
  map (render names)
    (filter (fun d =>
       match jf_graph d with
       | Some g => negb (negb must || mem g gone)
       | None => true
       end) ds).

(** ** The reader *)

(** What the engine keeps.  A subgraph is identified by its value of
    [join__Graph], the key of [SubgraphsBuilder::mapping]. *)
Record read_field := ReadField {
  r_exists : list string;
  r_types : list (string * ty);
  r_requires : list (string * fs);
  r_provides : list (string * fs) }.

Record state := State {
  st_has : bool;
  st_in : list string;
  st_types : list (string * ty);
  st_requires : list (string * fs);
  st_provides : list (string * fs);
  st_overrides : list string }.

Definition known (graphs : list string) (n : string) : bool := existsb (String.eqb n) graphs.

Definition non_empty (o : option string) : option string :=
  match o with
  | Some EmptyString | None => None
  | Some s => Some s
  end.

(** The records of one directive with a graph, federation.rs:285-354; [None] is
    an error. *)
Definition read_records (composed : ty) (composite : bool) (v : string) (d : written) (st : state)
  : option state :=
  match
    match w_type d with
    | Some t =>
        match parse_ty t with
        | Some t' => Some (if ty_eqb t' composed then st_types st else st_types st ++ [(v, t')])
        | None => None
        end
    | None => Some (st_types st)
    end
  with
  | None => None
  | Some types =>
      if w_external d then
        Some (State true (st_in st) types (st_requires st) (st_provides st) (st_overrides st))
      else
        match
          match non_empty (w_provides d) with
          | Some p =>
              if composite then
                match parse_fs p with
                | Some f => Some (st_provides st ++ [(v, f)])
                | None => None
                end
              else None
          | None => Some (st_provides st)
          end
        with
        | None => None
        | Some provides =>
            match
              match non_empty (w_requires d) with
              | Some p =>
                  match parse_fs p with
                  | Some f => Some (st_requires st ++ [(v, f)])
                  | None => None
                  end
              | None => Some (st_requires st)
              end
            with
            | None => None
            | Some requires =>
                Some (State true (set_insert v (st_in st)) types requires provides (st_overrides st))
            end
        end
  end.

(** One turn of the loop, federation.rs:262-361.  The label of the override is not
    looked at, and an override from an unknown graph is ignored. *)
Definition read_one (graphs : list string) (composed : ty) (composite : bool) (st : state) (d : written)
  : option state :=
  match
    match w_graph d with
    | Some v => if known graphs v then read_records composed composite v d st else None
    | None =>
        Some (State true (st_in st) (st_types st) (st_requires st) (st_provides st) (st_overrides st))
    end
  with
  | None => None
  | Some st' =>
      match w_override d with
      | Some o =>
          if known graphs o then
            Some (State (st_has st') (st_in st') (st_types st') (st_requires st') (st_provides st')
                    (st_overrides st' ++ [o]))
          else Some st'
      | None => Some st'
      end
  end.

Fixpoint read_all (graphs : list string) (composed : ty) (composite : bool) (st : state) (ds : list written)
  : option state :=
  match ds with
  | [] => Some st
  | d :: r =>
      match read_one graphs composed composite st d with
      | Some st' => read_all graphs composed composite st' r
      | None => None
      end
  end.

(** [ingest_field_federation_directives], federation.rs:237-400.  [join_types] are
    the graphs of the parent's [@join__type] directives, of [graphs]. *)
Definition read (graphs : list string) (join_types : list string) (composed : ty) (composite : bool)
    (ds : list written) : option read_field :=
  match read_all graphs composed composite (State false [] [] [] [] []) ds with
  | None => None
  | Some st =>
      let resolvable :=
        if st_has st then st_in st else fold_left (fun l v => set_insert v l) join_types (st_in st) in
      let resolvable := fold_left (fun l v => set_remove v l) (st_overrides st) resolvable in
      let is_in :=
        if negb (st_has st) && match join_types with [] => true | _ => false end then graphs
        else resolvable in
      Some (ReadField is_in (st_types st) (st_requires st) (st_provides st))
  end.

(** The three steps in a row: the values of [join__Graph] are those of
    [emit_subgraphs], emit_federated_graph.rs:365-384. *)
Definition supergraph_field (names : list string) (parents : list nat) (composed : ty)
    (composite : bool) (ds : list join_field) : option read_field :=
  read (map variant names) (map (fun g => variant (nth g names ""%string)) parents) composed composite
    (write names parents ds).

End Field.

Arguments Source {ty fs}.
Arguments s_graph {ty fs}.
Arguments s_type {ty fs}.
Arguments s_external {ty fs}.
Arguments s_key {ty fs}.
Arguments s_requires {ty fs}.
Arguments s_provides {ty fs}.
Arguments s_override {ty fs}.
Arguments JoinField {ty fs}.
Arguments jf_graph {ty fs}.
Arguments jf_requires {ty fs}.
Arguments jf_provides {ty fs}.
Arguments jf_type {ty fs}.
Arguments jf_external {ty fs}.
Arguments jf_override {ty fs}.
Arguments jf_label {ty fs}.
Arguments entity_interface_field {ty fs}.
Arguments accepted {ty fs}.
Arguments ReadField {ty fs}.
Arguments r_exists {ty fs}.
Arguments r_types {ty fs}.
Arguments r_requires {ty fs}.
Arguments r_provides {ty fs}.
Arguments State {ty fs}.
Arguments st_has {ty fs}.
Arguments st_in {ty fs}.
Arguments st_types {ty fs}.
Arguments st_requires {ty fs}.
Arguments st_provides {ty fs}.
Arguments st_overrides {ty fs}.
Arguments compose_one {ty} ty_eqb {fs}.
Arguments compose {ty} ty_eqb {fs}.
Arguments fully_overridden {ty fs}.
Arguments special {ty fs}.
Arguments graph_of {ty fs}.
Arguments must_be_present {ty fs}.
Arguments render {ty} render_ty {fs}.
Arguments write {ty} render_ty {fs}.
Arguments read_records {ty} ty_eqb parse_ty {fs}.
Arguments read_one {ty} ty_eqb parse_ty {fs}.
Arguments read_all {ty} ty_eqb parse_ty {fs}.
Arguments read {ty} ty_eqb parse_ty {fs}.
Arguments supergraph_field {ty} ty_eqb render_ty parse_ty {fs}.
