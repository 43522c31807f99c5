(** Specification: GraphQL type references (GraphQL spec, section 2.11 "Type References"):
    a named type or a list, each possibly non-null.  Nothing here depends on the packed model. *)
From Coq Require Import List Bool String Ascii Arith.
Import ListNotations.

Inductive ty :=
| Named (required : bool)
| ListOf (elem : ty) (required : bool).

Fixpoint depth (t : ty) : nat := match t with Named _ => 0 | ListOf e _ => S (depth e) end.
Definition required (t : ty) : bool := match t with Named r | ListOf _ r => r end.
Definition listp (t : ty) : bool := match t with Named _ => false | ListOf _ _ => true end.
Fixpoint inner_required (t : ty) : bool := match t with Named r => r | ListOf e _ => inner_required e end.
Definition make_required (t : ty) : ty :=
  match t with Named _ => Named true | ListOf e _ => ListOf e true end.
Definition make_nullable (t : ty) : ty :=
  match t with Named _ => Named false | ListOf e _ => ListOf e false end.
Definition element (t : ty) : option ty := match t with Named _ => None | ListOf e _ => Some e end.

(** Levels as seen from the inside: true = non-null list. *)
Fixpoint levels (t : ty) : list bool :=
  match t with Named _ => [] | ListOf e r => levels e ++ [r] end.

(** What the builder operations mean on type references. *)
Inductive sop := SList | SListNonNull | SNonNull | SWithoutList | SWithoutNonNull.
Definition sstep (t : ty) (o : sop) : ty :=
  match o with
  | SList => ListOf t false
  | SListNonNull => ListOf t true
  | SNonNull => make_required t
  | SWithoutList => match element t with Some e => e | None => t end
  | SWithoutNonNull => make_nullable t
  end.
(** [None] as soon as an intermediate type has more than ten list levels. *)
Fixpoint srun (t : ty) (ops : list sop) : option ty :=
  match ops with
  | [] => Some t
  | o :: ops' => let t' := sstep t o in if depth t' <=? 10 then srun t' ops' else None
  end.

(** GraphQL "AreTypesCompatible"-style lenience: same nesting, requirements of [s] implied by [o]. *)
Fixpoint lenient (s o : ty) : Prop :=
  match s, o with
  | Named rs, Named ro => rs = true -> ro = true
  | ListOf es rs, ListOf eo ro => (rs = true -> ro = true) /\ lenient es eo
  | _, _ => False
  end.

(** Textual form and an independent parser for it.
    [tail_parse d t s] consumes the closing part ("!", "]", ...) with [d] brackets left open. *)
Fixpoint print (t : ty) (name : string) : string :=
  match t with
  | Named r => name ++ (if r then "!" else "")
  | ListOf e r => "[" ++ print e name ++ "]" ++ (if r then "!" else "")
  end%string.

Definition name_char (c : ascii) : bool :=
  let n := nat_of_ascii c in
  ((48 <=? n) && (n <=? 57)) || ((65 <=? n) && (n <=? 90)) || (n =? 95) || ((97 <=? n) && (n <=? 122)).
Fixpoint valid_name (s : string) : bool :=
  match s with EmptyString => true | String c s' => name_char c && valid_name s' end.

Fixpoint span_name (s : string) : string * string :=
  match s with
  | String c s' => if name_char c then let (a, b) := span_name s' in (String c a, b) else (""%string, s)
  | EmptyString => (""%string, ""%string)
  end.
(** Recursive descent over "[" Type "]" "!"? | Name "!"?. *)
Definition opt_bang (s : string) : bool * string :=
  match s with String "!"%char s' => (true, s') | _ => (false, s) end.
Fixpoint parse_ty (fuel : nat) (s : string) : option (ty * string * string) :=
  match fuel with
  | O => None
  | S fuel =>
    match s with
    | String "["%char s1 =>
        match parse_ty fuel s1 with
        | Some (t, name, String "]"%char s2) =>
            let (b, s3) := opt_bang s2 in Some (ListOf t b, name, s3)
        | _ => None
        end
    | _ => let (name, s1) := span_name s in
           let (b, s2) := opt_bang s1 in Some (Named b, name, s2)
    end
  end.
Definition parse (s : string) : option (ty * string) :=
  match parse_ty (S (String.length s)) s with
  | Some (t, name, EmptyString) => Some (t, name)
  | _ => None
  end.
