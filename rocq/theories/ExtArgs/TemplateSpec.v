(** What the text of a rendered template should be: which values stand in it, and how they are read back. *)
From Coq Require Import String Ascii List NArith Bool.
From Verif Require Import ExtArgs.Template.
Import ListNotations.
Local Open Scope string_scope.
Local Open Scope list_scope.

Definition chars (s : string) : list ascii := list_ascii_of_string s.

(** *** URLs (RFC 3986) *)

(** Section 2.3: the characters without a special meaning anywhere in a URL. *)
Definition unreserved : list ascii :=
  chars "ABCDEFGHIJKLMNOPQRSTUVWXYZabcdefghijklmnopqrstuvwxyz0123456789-._~".

(** A text that cannot end the part of the URL it stands in. *)
Definition url_inert (s : string) : Prop := forall c, In c (chars s) -> In c unreserved \/ c = "%"%char.

Definition digit_value (c : ascii) : option N :=
  match String.index 0 (one c) "0123456789abcdef", String.index 0 (one c) "0123456789ABCDEF" with
  | Some n, _ | None, Some n => Some (N.of_nat n)
  | None, None => None
  end.

(** Percent-decoding, section 2.1. *)
Fixpoint url_decode (s : string) : option string :=
  match s with
  | "" => Some ""
  | String "%" (String h (String l s)) =>
    match digit_value h, digit_value l, url_decode s with
    | Some h, Some l, Some s => Some (String (ascii_of_N (16 * h + l)) s)
    | _, _, _ => None
    end
  | String "%" _ => None
  | String c s => option_map (String c) (url_decode s)
  end.

(** *** JSON (RFC 8259), without white space between the tokens *)

(** The rest of a string after its opening quote: its content and what follows the closing quote. *)
Fixpoint read_body (s : string) : option (string * string) :=
  match s with
  | "" => None
  | String c s =>
    if Ascii.eqb c """"%char then Some ("", s)
    else if Ascii.eqb c "\"%char then
      match s with
      | String """" s => option_map (fun r => (String """"%char (fst r), snd r)) (read_body s)
      | String "\" s => option_map (fun r => (String "\"%char (fst r), snd r)) (read_body s)
      | String "/" s => option_map (fun r => (String "/"%char (fst r), snd r)) (read_body s)
      | String "b" s => option_map (fun r => (String "008"%char (fst r), snd r)) (read_body s)
      | String "t" s => option_map (fun r => (String "009"%char (fst r), snd r)) (read_body s)
      | String "n" s => option_map (fun r => (String "010"%char (fst r), snd r)) (read_body s)
      | String "f" s => option_map (fun r => (String "012"%char (fst r), snd r)) (read_body s)
      | String "r" s => option_map (fun r => (String "013"%char (fst r), snd r)) (read_body s)
      | String "u" (String "0" (String "0" (String h (String l s)))) =>
        (* code points below 128 only *)
        match digit_value h, digit_value l with
        | Some h, Some l =>
          if (h <? 8)%N then option_map (fun r => (String (ascii_of_N (16 * h + l)) (fst r), snd r)) (read_body s)
          else None
        | _, _ => None
        end
      | _ => None
      end
    else if (N_of_ascii c <? 32)%N then None
    else option_map (fun r => (String c (fst r), snd r)) (read_body s)
  end.

Fixpoint strip (p s : string) : option string :=
  match p, s with
  | "", s => Some s
  | String a p, String b s => if Ascii.eqb a b then strip p s else None
  | String _ _, "" => None
  end.

Definition number_chars : list ascii := chars "0123456789-.e".
Definition is_number_char (c : ascii) : bool := existsb (Ascii.eqb c) number_chars.

Fixpoint number_run (s : string) : string * string :=
  match s with
  | "" => ("", "")
  | String c s =>
    if is_number_char c then (String c (fst (number_run s)), snd (number_run s)) else ("", String c s)
  end.

(** One value at the beginning of the text, and the text after it. *)
Fixpoint read_value (fuel : nat) (s : string) : option (json * string) :=
  match fuel with
  | O => None
  | S fuel =>
    match s with
    | "" => None
    | String c t =>
      if Ascii.eqb c "n"%char then option_map (fun r => (JNull, r)) (strip "null" s)
      else if Ascii.eqb c "t"%char then option_map (fun r => (JBool true, r)) (strip "true" s)
      else if Ascii.eqb c "f"%char then option_map (fun r => (JBool false, r)) (strip "false" s)
      else if Ascii.eqb c """"%char then option_map (fun r => (JStr (fst r), snd r)) (read_body t)
      else if Ascii.eqb c "["%char then
        match strip "]" t with
        | Some r => Some (JArr [], r)
        | None => option_map (fun r => (JArr (fst r), snd r)) (read_elements fuel t)
        end
      else if Ascii.eqb c "{"%char then
        match strip "}" t with
        | Some r => Some (JObj [], r)
        | None => option_map (fun r => (JObj (fst r), snd r)) (read_members fuel t)
        end
      else if is_number_char c then Some (JNum (fst (number_run s)), snd (number_run s))
      else None
    end
  end
with read_elements (fuel : nat) (s : string) : option (list json * string) :=
  match fuel with
  | O => None
  | S fuel =>
    match read_value fuel s with
    | None => None
    | Some (j, s) =>
      match strip "]" s, strip "," s with
      | Some r, _ => Some ([j], r)
      | None, Some s => option_map (fun r => (j :: fst r, snd r)) (read_elements fuel s)
      | None, None => None
      end
    end
  end
with read_members (fuel : nat) (s : string) : option (list (string * json) * string) :=
  match fuel with
  | O => None
  | S fuel =>
    match strip """" s with
    | None => None
    | Some s =>
      match read_body s with
      | None => None
      | Some (k, s) =>
        match strip ":" s with
        | None => None
        | Some s =>
          match read_value fuel s with
          | None => None
          | Some (j, s) =>
            match strip "}" s, strip "," s with
            | Some r, _ => Some ([(k, j)], r)
            | None, Some s => option_map (fun r => ((k, j) :: fst r, snd r)) (read_members fuel s)
            | None, None => None
            end
          end
        end
      end
    end
  end.

(** [text] in front of [rest] reads as [j], whatever fuel is given as long as there is enough. *)
Definition reads (j : json) (text rest : string) : Prop :=
  exists enough, forall fuel, enough <= fuel -> read_value fuel (text ++ rest) = Some (j, rest).

(** What comes next is not the continuation of a number. *)
Definition delimited (rest : string) : Prop :=
  match rest with "" => True | String c _ => ~ In c number_chars end.

(** The texts of the numbers of [serde_json]: digits, a minus sign, a dot and an exponent without plus. *)
Definition number_text (t : string) : Prop := t <> "" /\ forall c, In c (chars t) -> In c number_chars.

Inductive json_ok : json -> Prop :=
| OkNull : json_ok JNull
| OkBool : forall b, json_ok (JBool b)
| OkNum : forall t, number_text t -> json_ok (JNum t)
| OkStr : forall s, json_ok (JStr s)
| OkArr : forall l, Forall json_ok l -> json_ok (JArr l)
| OkObj : forall fs, Forall (fun f => json_ok (snd f)) fs -> json_ok (JObj fs).

(** *** Names *)

(** [reach j keys v]: following the keys from [j] leads to [v]. *)
Inductive reach : json -> list string -> json -> Prop :=
| Here : forall j, reach j [] j
| Into : forall pre k v post ks w,
    ~ In k (map fst pre) -> reach v ks w -> reach (JObj (pre ++ (k, v) :: post)) (k :: ks) w.

(** [refers j name v]: seen from the content [j], the name written in the template stands for [v].  The
    name is a lone dot, or keys separated by dots. *)
Inductive refers : json -> string -> json -> Prop :=
| Dot : forall j, refers j "." j
| Keys : forall j ks v,
    ks <> [] -> (forall k, In k ks -> ~ In "."%char (chars k)) -> String.concat "." ks <> "." ->
    reach j ks v -> refers j (String.concat "." ks) v.

(** From the innermost content outwards. *)
Definition denotes (stack : list json) (name : string) (v : json) : Prop :=
  exists inner j outer, stack = (inner ++ j :: outer)%list /\ refers j name v /\
    forall i, In i inner -> forall w, ~ refers i name w.

Definition unknown (stack : list json) (name : string) : Prop :=
  forall j, In j stack -> forall w, ~ refers j name w.

(** *** What a template stands for: a sequence of its own texts and of values *)

Inductive piece := Lit (s : string) | Hole (j : json) | Raw (j : json).

Inductive stands : list json -> block -> list piece -> Prop :=
| StText : forall st s, stands st (Text s) [Lit s]
| StHole : forall st n v, denotes st n v -> stands st (Escaped n) [Hole v]
| StNoHole : forall st n, unknown st n -> stands st (Escaped n) []
| StRaw : forall st n v, denotes st n v -> stands st (Unescaped n) [Raw v]
| StNoRaw : forall st n, unknown st n -> stands st (Unescaped n) []
| StList : forall st n b l pss,
    denotes st n (JArr l) -> repeated st b l pss -> stands st (Section n b) (List.concat pss)
| StObject : forall st n b fs ps,
    denotes st n (JObj fs) -> stand (JObj fs :: st) b ps -> stands st (Section n b) ps
| StScalar : forall st n b v ps,
    denotes st n v -> (forall l, v <> JArr l) -> (forall fs, v <> JObj fs) ->
    stand st b ps -> stands st (Section n b) ps
| StNoSection : forall st n b, unknown st n -> stands st (Section n b) []
| StInverse : forall st n b, stands st (Inverse n b) []
with stand : list json -> list block -> list piece -> Prop :=
| StNil : forall st, stand st [] []
| StCons : forall st b bs ps qs, stands st b ps -> stand st bs qs -> stand st (b :: bs) (ps ++ qs)
with repeated : list json -> list block -> list json -> list (list piece) -> Prop :=
| RNil : forall st b, repeated st b [] []
| RCons : forall st b v l ps pss,
    stand (v :: st) b ps -> repeated st b l pss -> repeated st b (v :: l) (ps :: pss).

(** [w] is [j] or stands somewhere inside it. *)
Inductive part_of : json -> json -> Prop :=
| PartHere : forall j, part_of j j
| PartElement : forall w v l, In v l -> part_of w v -> part_of w (JArr l)
| PartField : forall w k v fs, In (k, v) fs -> part_of w v -> part_of w (JObj fs).

(** The texts written in the template. *)
Inductive written_in : string -> list block -> Prop :=
| WText : forall s bs, In (Text s) bs -> written_in s bs
| WSection : forall s n b bs, In (Section n b) bs -> written_in s b -> written_in s bs.

(** No [{{&name}}] anywhere. *)
Inductive escapes_all : list block -> Prop :=
| EaNil : escapes_all []
| EaText : forall s bs, escapes_all bs -> escapes_all (Text s :: bs)
| EaHole : forall n bs, escapes_all bs -> escapes_all (Escaped n :: bs)
| EaSection : forall n b bs, escapes_all b -> escapes_all bs -> escapes_all (Section n b :: bs)
| EaInverse : forall n b bs, escapes_all bs -> escapes_all (Inverse n b :: bs).

(** The values a text may carry through a URL: a string stands for itself, everything else for its JSON. *)
Definition carried (j : json) (s : string) : Prop :=
  match j with JStr x => s = x | _ => forall rest, delimited rest -> reads j s rest end.

(** How a piece is written.  A text of the template is copied.  A value in a URL cannot be mistaken for
    anything but itself and decodes to what it carries; in JSON it reads back as itself whatever follows it
    in the template. *)
Definition written (e : escaping) (p : piece) (text : string) : Prop :=
  match p, e with
  | Lit s, _ => text = s
  | Hole j, Url => url_inert text /\ exists d, url_decode text = Some d /\ carried j d
  | Hole j, Json => forall rest, delimited rest -> reads j text rest
  | Raw j, _ => carried j text
  end.

(** Where a piece comes from. *)
Definition from (bs : list block) (content : json) (p : piece) : Prop :=
  match p with
  | Lit s => written_in s bs
  | Hole j | Raw j => part_of j content
  end.
