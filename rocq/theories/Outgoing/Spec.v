(** What a GraphQL server makes of the text it receives: its own lexer and parser, the fields
    it collects for an object, and the variables.  Nothing here refers to how the text was
    written; from the model only the data (views, planned fields, values) are used. *)
From Coq Require Import String Ascii List Arith Bool.
From Verif.Outgoing Require Import Model.
Import ListNotations.
Local Open Scope string_scope.
Local Open Scope nat_scope.
Local Open Scope list_scope.

(** ** Lexical grammar (GraphQL, section 2.1) *)
Inductive punct := LBrace | RBrace | LParen | RParen | LBracket | RBracket | Colon | Dollar | Bang | At.
Inductive tok := TkName (s : string) | TkP (p : punct) | TkSpread.

Definition code (c : ascii) : nat := nat_of_ascii c.
Definition between (a b c : ascii) : bool := Nat.leb (code a) (code c) && Nat.leb (code c) (code b).
Definition digit (c : ascii) : bool := between "0" "9" c.
Definition letter (c : ascii) : bool := between "a" "z" c || between "A" "Z" c || Ascii.eqb c "_".
Definition name_char (c : ascii) : bool := letter c || digit c.
Definition ignored (c : ascii) : bool := Ascii.eqb c " " || Ascii.eqb c "," || Ascii.eqb c "009" || Ascii.eqb c "010" || Ascii.eqb c "013".

Definition punct_of (c : ascii) : option punct :=
  if Ascii.eqb c "{" then Some LBrace else if Ascii.eqb c "}" then Some RBrace
  else if Ascii.eqb c "(" then Some LParen else if Ascii.eqb c ")" then Some RParen
  else if Ascii.eqb c "[" then Some LBracket else if Ascii.eqb c "]" then Some RBracket
  else if Ascii.eqb c ":" then Some Colon else if Ascii.eqb c "$" then Some Dollar
  else if Ascii.eqb c "!" then Some Bang else if Ascii.eqb c "@" then Some At
  else None.

Definition flush (cur : string) (r : option (list tok)) : option (list tok) :=
  match r with
  | None => None
  | Some ts => Some (match cur with EmptyString => ts | _ => TkName cur :: ts end)
  end.

Definition push (t : tok) (r : option (list tok)) : option (list tok) :=
  match r with None => None | Some ts => Some (t :: ts) end.

(** [cur] is the name being read. *)
Fixpoint lex (cur : string) (s : string) : option (list tok) :=
  match s with
  | EmptyString => flush cur (Some [])
  | String c r =>
      if name_char c then
        if (match cur with EmptyString => digit c | _ => false end) then None
        else lex (cur ++ String c EmptyString)%string r
      else if ignored c then flush cur (lex "" r)
      else if Ascii.eqb c "." then
        match r with
        | String d (String e r') =>
            if Ascii.eqb d "." && Ascii.eqb e "." then flush cur (push TkSpread (lex "" r')) else None
        | _ => None
        end
      else match punct_of c with
           | Some p => flush cur (push (TkP p) (lex "" r))
           | None => None
           end
  end.

(** ** Syntax (sections 2.2 to 2.12), the part needed: operations without a name, fields,
    inline fragments, arguments that are variables or names, directives. *)
Inductive aval := AVar (x : string) | AName (s : string).
Inductive asel :=
| AField (alias : option string) (name : string) (args : list (string * aval))
         (dirs : list (string * list (string * aval))) (sub : list asel)
| AInline (cond : string) (sub : list asel).

Record aop := AOp { akind : string; avars : list (string * ty); asels : list asel }.

Fixpoint p_arglist (ts : list tok) : option (list (string * aval) * list tok) :=
  match ts with
  | TkP RParen :: r => Some ([], r)
  | TkName a :: TkP Colon :: TkP Dollar :: TkName x :: r =>
      match p_arglist r with Some (l, r') => Some ((a, AVar x) :: l, r') | None => None end
  | TkName a :: TkP Colon :: TkName s :: r =>
      match p_arglist r with Some (l, r') => Some ((a, AName s) :: l, r') | None => None end
  | _ => None
  end.

Definition p_args (ts : list tok) : option (list (string * aval) * list tok) :=
  match ts with
  | TkP LParen :: r =>
      match p_arglist r with Some ([], _) => None | x => x end
  | _ => Some ([], ts)
  end.

Fixpoint p_dirs (fuel : nat) (ts : list tok) : option (list (string * list (string * aval)) * list tok) :=
  match fuel with
  | 0 => None
  | S fuel =>
      match ts with
      | TkP At :: TkName d :: r =>
          match p_args r with
          | Some (l, r') =>
              match p_dirs fuel r' with Some (ds, r'') => Some ((d, l) :: ds, r'') | None => None end
          | None => None
          end
      | _ => Some ([], ts)
      end
  end.

(** Selections up to the closing brace. *)
Fixpoint p_sels (fuel : nat) (ts : list tok) : option (list asel * list tok) :=
  match fuel with
  | 0 => None
  | S fuel =>
      match ts with
      | TkP RBrace :: r => Some ([], r)
      | TkSpread :: TkName on :: TkName c :: TkP LBrace :: r =>
          if String.eqb on "on" then
            match p_sels fuel r with
            | Some ([], _) | None => None
            | Some (sub, r1) =>
                match p_sels fuel r1 with
                | Some (l, r2) => Some (AInline c sub :: l, r2)
                | None => None
                end
            end
          else None
      | TkName a :: r =>
          let '(alias, name, r) :=
            match r with
            | TkP Colon :: TkName n :: r' => (Some a, n, r')
            | _ => (None, a, r)
            end in
          match p_args r with
          | None => None
          | Some (args, r) =>
              match p_dirs fuel r with
              | None => None
              | Some (dirs, r) =>
                  match r with
                  | TkP LBrace :: r =>
                      match p_sels fuel r with
                      | Some ([], _) | None => None
                      | Some (sub, r1) =>
                          match p_sels fuel r1 with
                          | Some (l, r2) => Some (AField alias name args dirs sub :: l, r2)
                          | None => None
                          end
                      end
                  | _ =>
                      match p_sels fuel r with
                      | Some (l, r2) => Some (AField alias name args dirs [] :: l, r2)
                      | None => None
                      end
                  end
              end
          end
      | _ => None
      end
  end.

Definition p_bang (ts : list tok) : bool * list tok :=
  match ts with TkP Bang :: r => (true, r) | _ => (false, ts) end.

Fixpoint p_ty (fuel : nat) (ts : list tok) : option (ty * list tok) :=
  match fuel with
  | 0 => None
  | S fuel =>
      match ts with
      | TkName n :: r => let (b, r) := p_bang r in Some (TName n b, r)
      | TkP LBracket :: r =>
          match p_ty fuel r with
          | Some (t, TkP RBracket :: r') => let (b, r') := p_bang r' in Some (TList t b, r')
          | _ => None
          end
      | _ => None
      end
  end.

(** Variable definitions up to the closing parenthesis. *)
Fixpoint p_vars (fuel : nat) (ts : list tok) : option (list (string * ty) * list tok) :=
  match fuel with
  | 0 => None
  | S fuel =>
      match ts with
      | TkP RParen :: r => Some ([], r)
      | TkP Dollar :: TkName x :: TkP Colon :: r =>
          match p_ty fuel r with
          | Some (t, r) =>
              match p_vars fuel r with Some (l, r) => Some ((x, t) :: l, r) | None => None end
          | None => None
          end
      | _ => None
      end
  end.

Definition p_op (ts : list tok) : option aop :=
  let fuel := S (length ts) in
  match ts with
  | TkName k :: r =>
      if String.eqb k "query" || String.eqb k "mutation" || String.eqb k "subscription" then
        match (match r with
               | TkP LParen :: r' => match p_vars fuel r' with Some ([], _) => None | x => x end
               | _ => Some ([], r)
               end) with
        | Some (vars, TkP LBrace :: r) =>
            match p_sels fuel r with
            | Some ([], _) | None => None
            | Some (sels, []) => Some (AOp k vars sels)
            | Some _ => None
            end
        | _ => None
        end
      else None
  | _ => None
  end.

(** Reading a text as an operation. *)
Definition parse (s : string) : option aop :=
  match lex "" s with Some ts => p_op ts | None => None end.

(** ** Names *)
Fixpoint forall_chars (p : ascii -> bool) (s : string) : bool :=
  match s with EmptyString => true | String c r => p c && forall_chars p r end.

Definition is_name (s : string) : bool :=
  match s with EmptyString => false | String c r => letter c && forall_chars name_char r end.

(** ** The fields a server of the subgraph executes on an object *)

(** An object [o] of the subgraph satisfies a type condition: it is the object of that name,
    or implements an interface of that name. *)
Definition satisfies (w : view) (o : nat) (cond : string) : Prop :=
  oname w o = cond \/ exists i, iname w i = cond /\ impl w o i = true.

Definition skipped (dirs : list (string * list (string * aval))) : Prop :=
  In ("skip", [("if", AName "true")]) dirs.

Inductive collects (w : view) (o : nat) : list asel -> list asel -> Prop :=
| collects_nil : collects w o [] []
| collects_skip a n args dirs sub l r :
    skipped dirs -> collects w o l r -> collects w o (AField a n args dirs sub :: l) r
| collects_field a n args sub l r :
    collects w o l r -> collects w o (AField a n args [] sub :: l) (AField a n args [] sub :: r)
| collects_in c sub l r1 r2 :
    satisfies w o c -> collects w o sub r1 -> collects w o l r2 -> collects w o (AInline c sub :: l) (r1 ++ r2)
| collects_out c sub l r :
    ~ satisfies w o c -> collects w o l r -> collects w o (AInline c sub :: l) r.

(** ** The view is one of a composed schema *)

(** Names of types are names, and distinct; the subgraph's objects implement only interfaces
    the supergraph's do, and exist in the subgraph, as the interfaces do; no object is listed
    twice. *)
Record view_ok (w : view) : Prop := {
  names_o : forall o, is_name (oname w o) = true;
  names_i : forall i, is_name (iname w i) = true;
  inj_o : forall a b, oname w a = oname w b -> a = b;
  inj_i : forall a b, iname w a = iname w b -> a = b;
  disj : forall o i, oname w o <> iname w i;
  impl_super : forall o i, impl w o i = true -> In o (ipossible w i);
  impl_exists : forall o i, impl w o i = true -> oexists w o = true /\ iexists w i = true;
  member_super : forall u o, member w u o = true -> In o (upossible w u);
  possible_nodup : forall i, NoDup (ipossible w i)
}.

(** Objects an answer of the subgraph may have at a position of a type. *)
Definition possible (w : view) (p : ptype) (o : nat) : Prop :=
  match p with
  | PAny => oexists w o = true
  | PComp (CObj o') => o = o'
  | PComp (CItf i) => impl w o i = true /\ oexists w o = true
  | PComp (CUni u) => member w u o = true /\ oexists w o = true
  end.

(** Objects a planned field is for, in the supergraph. *)
Definition applies (w : view) (e : entity) (o : nat) : Prop :=
  match e with EObj o' => o = o' | EItf i => In o (ipossible w i) end.

(** The planned fields for an object, in order. *)
Inductive wanted (w : view) (o : nat) : list pfield -> list pfield -> Prop :=
| wanted_nil : wanted w o [] []
| wanted_in f l r : applies w (pparent f) o -> wanted w o l r -> wanted w o (f :: l) (f :: r)
| wanted_out f l r : ~ applies w (pparent f) o -> wanted w o l r -> wanted w o (f :: l) r.

(** The type of a planned field in the subgraph. *)
Definition field_type (f : pfield) : option ctype :=
  match psgtype f with Some c => Some c | None => psuptype f end.

(** What the planner guarantees of the fields planned at a position:
    - an interface whose fields are planned exists in the subgraph;
    - under an object, all fields are the object's, lookup fields too;
    - for entities ([PAny]), interfaces have all their objects in the subgraph. *)
Definition placed (w : view) (p : ptype) (f : pfield) : Prop :=
  match p, pparent f with
  | PComp (CObj o), e => applies w e o
  | PComp _, EItf i => iexists w i = true
  | PAny, EItf i => iexists w i = true /\ forall o, In o (ipossible w i) -> oexists w o = true -> impl w o i = true
  | _, EObj _ => True
  end.

Fixpoint ty_names (t : ty) : bool :=
  match t with TName n _ => is_name n | TList t _ => ty_names t end.

Definition arg_ok (client : list (string * ty)) (a : string * ty * value) : Prop :=
  is_name (fst (fst a)) = true /\ ty_names (snd (fst a)) = true /\
  match snd a with
  | VConst s => is_name s = true
  | VVariable x => x < length client
  | _ => True
  end.

Inductive planned (w : view) (client : list (string * ty)) : ptype -> list pfield -> list pfield -> Prop :=
| Planned p data lookup :
    (forall f, In f data -> placed w p f) ->
    (forall f, In f lookup -> placed w p f) ->
    (lookup = [] \/ exists o, p = PComp (CObj o)) ->
    (forall f, In f (data ++ lookup) ->
       is_name (pkey f) = true /\ is_name (pname f) = true /\ Forall (arg_ok client) (pargs f)) ->
    (forall f c, In f (data ++ lookup) -> field_type f = Some c ->
       planned w client (PComp c) (pdata f) (plookup f)) ->
    planned w client p data lookup.

(** The client's variables have distinct names. *)
Definition client_ok (client : list (string * ty)) : Prop :=
  NoDup (map fst client) /\ Forall (fun d => is_name (fst d) = true /\ ty_names (snd d) = true) client.

(** ** What the query asks for *)

(** The key of a field in the answer. *)
Definition answer_key (alias : option string) (name : string) : string :=
  match alias with Some a => a | None => name end.

Section Asked.
  Variable w : view.
  Variable client : list (string * ty).
  (** The value of a planned value once the client's variables are known. *)
  Variable J : Type.
  Variable sem : value -> option J.
  Variable vars : list qvar.

  (** The type a variable for a value has to be declared with: the client's for the client's
      variables, otherwise the argument's. *)
  Definition declared_type (t : ty) (v : value) : ty :=
    match v with
    | VVariable x => snd (nth x client ("", TName "" false))
    | _ => t
    end.

  Definition asks_arg (a : string * ty * value) (b : string * aval) : Prop :=
    fst b = fst (fst a) /\
    match snd a with
    | VConst s => snd b = AName s
    | v => exists q, snd b = AVar (qname q) /\ In q vars /\ sem (qvalue q) = sem v
                     /\ qty q = declared_type (snd (fst a)) v
    end.

  (** [asks p typename data lookup sels]: for every object an answer may have at this
      position, the selections collected are [__typename] if required, then the fields
      planned for that object, each with its key, name and arguments, and this again for
      their selections. *)
  Inductive asks : ptype -> bool -> list pfield -> list pfield -> list asel -> Prop :=
  | Asks p (typename : bool) data lookup sels :
      (forall o, possible w p o ->
         exists fs l,
           wanted w o (data ++ lookup) fs
           /\ collects w o sels ((if typename then [AField None "__typename" [] [] []] else []) ++ l)
           /\ Forall2 asks_field fs l) ->
      asks p typename data lookup sels
  with asks_field : pfield -> asel -> Prop :=
  | Asks_leaf f alias args :
      answer_key alias (pname f) = pkey f ->
      Forall2 asks_arg (pargs f) args ->
      field_type f = None ->
      asks_field f (AField alias (pname f) args [] [])
  | Asks_set f alias args c sub :
      answer_key alias (pname f) = pkey f ->
      Forall2 asks_arg (pargs f) args ->
      field_type f = Some c ->
      asks (PComp c) (ptypename f) (pdata f) (plookup f) sub ->
      asks_field f (AField alias (pname f) args [] sub).
End Asked.

(** ** Variables *)

(** Variables a selection mentions. *)
Definition arg_vars (l : list (string * aval)) : list string :=
  flat_map (fun a => match snd a with AVar x => [x] | AName _ => [] end) l.

Fixpoint sel_vars (a : asel) : list string :=
  match a with
  | AField _ _ args dirs sub =>
      arg_vars args ++ flat_map (fun d => arg_vars (snd d)) dirs ++ flat_map sel_vars sub
  | AInline _ sub => flat_map sel_vars sub
  end.

(** "All variable uses defined", "All variables used", "Variable uniqueness". *)
Definition well_scoped (o : aop) : Prop :=
  NoDup (map fst (avars o))
  /\ (forall x, In x (map fst (avars o)) <-> In x (flat_map sel_vars (asels o))).

(** "All variable usages are allowed", without default values: the type of the variable at the
    type of the argument (section 5.8.5). *)
Definition strict (t : ty) : bool := match t with TName _ r | TList _ r => r end.
Fixpoint compatible (v l : ty) : bool :=
  match v, l with
  | TName n r, TName m s => String.eqb n m && (r || negb s)
  | TList t r, TList u s => compatible t u && (r || negb s)
  | _, _ => false
  end.

(** "Fragment spread is possible": some object of the subgraph is at the position and satisfies
    the condition. *)
Definition spread_possible (w : view) (p : ptype) (cond : string) : Prop :=
  exists o, possible w p o /\ satisfies w o cond.

(** Injected values have no value of the query to send. *)
Inductive no_injection : list pfield -> list pfield -> Prop :=
| No_injection data lookup :
    (forall (f : pfield) a, In f (data ++ lookup) -> In a (pargs f) -> forall i, snd a <> VInjection i) ->
    (forall f, In f (data ++ lookup) -> no_injection (pdata f) (plookup f)) ->
    no_injection data lookup.

(** ** Possible spreads *)

(** A plan under which all spreads are possible: every planned field is for some object the
    subgraph can answer with at its position, and the interfaces (other than that of the
    position) are implemented in the subgraph by all their objects. *)
Inductive clean (w : view) : ptype -> list pfield -> Prop :=
| Clean p fs :
    (forall f, In f fs -> exists o, possible w p o /\ applies w (pparent f) o) ->
    (forall f i, In f fs -> pparent f = EItf i -> p <> PComp (CItf i) ->
       forall o, In o (ipossible w i) -> impl w o i = true) ->
    (forall f c, In f fs -> field_type f = Some c -> clean w (PComp c) (pdata f ++ plookup f)) ->
    clean w p fs.

(** Only the first requirement: every planned field is for some object at its position. *)
Inductive overlapping (w : view) : ptype -> list pfield -> Prop :=
| Overlapping p fs :
    (forall f, In f fs -> exists o, possible w p o /\ applies w (pparent f) o) ->
    (forall f c, In f fs -> field_type f = Some c -> overlapping w (PComp c) (pdata f ++ plookup f)) ->
    overlapping w p fs.

(** All spreads of a selection at a position are possible, recursively. *)
Inductive spread (w : view) : ptype -> list pfield -> asel -> Prop :=
| Spread_typename p fs dirs : spread w p fs (AField None "__typename" [] dirs [])
| Spread_leaf p fs f alias args :
    In f fs -> field_type f = None -> spread w p fs (AField alias (pname f) args [] [])
| Spread_set p fs f alias args c sub :
    In f fs -> field_type f = Some c ->
    Forall (spread w (PComp c) (pdata f ++ plookup f)) sub ->
    spread w p fs (AField alias (pname f) args [] sub)
| Spread_fragment p fs c sub :
    spread_possible w p c ->
    (forall a, In a sub -> exists al n args dirs sub', a = AField al n args dirs sub') ->
    Forall (spread w p fs) sub ->
    spread w p fs (AInline c sub).
