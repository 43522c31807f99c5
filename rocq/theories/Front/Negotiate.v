(** Model of the choice of formats by the headers Accept and Content-Type.
    Source: crates/engine/src/graphql_over_http/format.rs (38-75: ContentType, 117-170: ResponseFormat::extract_from).
    Simplifications: crate mediatype is an oracle: a value of the header is a list of media types, or not text, and an
    element of the list may be invalid.  Of a media type the model has what equality with the supported ones decides
    (the crate ignores case), and its parameters as names (lower case) and qualities that were read from the values.
    f32: thousandths, the infinities and NaN, ordered by total_cmp; negative zero and negative NaN are left out. *)
From Coq Require Import String Ascii List Bool Arith ZArith.
From Verif.Front Require Import Status.
Import ListNotations.
Local Open Scope nat_scope.
Local Open Scope list_scope.

Inductive essence := StarStar | AppStar | AppJson | AppGraphqlJson | EventStream | Multipart | OtherType (n : nat).
Inductive quality := NegInf | Fin (thousandths : Z) | PosInf | NaN.
(** total_cmp, as the order of these keys *)
Definition qkey (q : quality) : Z * Z := match q with NegInf => (0, 0)%Z | Fin z => (1, z)%Z | PosInf => (2, 0)%Z | NaN => (3, 0)%Z end.
Definition qltb (a b : quality) : bool :=
  let '(a1, a2) := qkey a in let '(b1, b2) := qkey b in (Z.ltb a1 b1 || (Z.eqb a1 b1 && Z.ltb a2 b2))%bool.
(** The value of a parameter, as parse::<f32> reads it. *)
Record media := { m_essence : essence; m_params : list (string * option quality) }.
(** A header: its values in order; None: not text.  Within a value, None: not a media type. *)
Definition accept_header := list (option (list (option media))).

Definition supported (e : essence) : bool := match e with OtherType _ => false | _ => true end.
(** 138-147 *)
Definition quality_of (m : media) : quality :=
  match find (fun p => String.eqb (fst p) "q") (m_params m) with
  | Some (_, Some q) => q
  | _ => Fin 1000
  end.
(** Iterator::max_by: the last of the greatest *)
Fixpoint max_by {A} (lt : A -> A -> bool) (l : list A) : option A :=
  match l with
  | [] => None
  | x :: l => match max_by lt l with None => Some x | Some y => if lt y x then Some x else Some y end
  end.
Definition somes {A} (l : list (option A)) : list A := flat_map (fun x => match x with Some x => [x] | None => [] end) l.
Definition candidates (h : accept_header) : list (media * quality) :=
  map (fun m => (m, quality_of m)) (filter (fun m => supported (m_essence m)) (somes (concat (somes h)))).
(** 153-169 *)
Definition format_of (e : essence) : option format :=
  match e with
  | StarStar | AppStar => Some (Complete Json)
  | AppJson => Some (Complete Json)
  | AppGraphqlJson => Some (Complete GraphqlJson)
  | Multipart => Some (Streaming Incremental)
  | EventStream => Some (Streaming Sse)
  | OtherType _ => None
  end.
(** extract_from, 125-170.  An empty list: the header is missing. *)
Definition extract_format (h : accept_header) : option format :=
  match h with
  | [] => Some (Complete Json)
  | _ => match max_by (fun a b => qltb (snd a) (snd b)) (candidates h) with
         | None => None
         | Some (m, _) => format_of (m_essence m)
         end
  end.

Inductive content := BodyJson | BodyCbor.
(** position of the first ';', 57-61 *)
Fixpoint before_semicolon (s : string) : string :=
  match s with
  | EmptyString => EmptyString
  | String c s => if Ascii.eqb c ";" then EmptyString else String c (before_semicolon s)
  end.
(** ContentType::extract, 54-70; None: no header.  Of several headers the first counts. *)
Definition extract_content (h : list string) : option content :=
  match h with
  | [] => None
  | v :: _ =>
      let e := before_semicolon v in
      if String.eqb e "application/json" then Some BodyJson
      else if String.eqb e "application/cbor" then Some BodyCbor
      else None
  end.
