(** JSON values as seen by serde_json, shared by several models. *)
From Coq Require Import ZArith QArith List String Bool.
Import ListNotations.
Local Open Scope Z_scope.

(** serde_json's [Number] (no [arbitrary_precision]: Cargo.toml:213):
    a u64, a negative i64, or a finite f64.  A finite f64 is the dyadic rational [m * 2^e]. *)
Inductive number :=
| PosInt (n : Z)
| NegInt (z : Z)
| Flt (m e : Z).

Inductive json :=
| JNull
| JBool (b : bool)
| JNum (n : number)
| JStr (s : string)
| JArr (l : list json)
| JObj (fields : list (string * json)).

Section json_ind.
  Variable P : json -> Prop.
  Hypothesis Hnull : P JNull.
  Hypothesis Hbool : forall b, P (JBool b).
  Hypothesis Hnum : forall n, P (JNum n).
  Hypothesis Hstr : forall s, P (JStr s).
  Hypothesis Harr : forall l, Forall P l -> P (JArr l).
  Hypothesis Hobj : forall fs, Forall (fun kv => P (snd kv)) fs -> P (JObj fs).
  Fixpoint json_ind' (j : json) : P j :=
    match j with
    | JNull => Hnull
    | JBool b => Hbool b
    | JNum n => Hnum n
    | JStr s => Hstr s
    | JArr l => Harr l ((fix go l : Forall P l :=
        match l with [] => Forall_nil _ | x :: l' => Forall_cons _ (json_ind' x) (go l') end) l)
    | JObj fs => Hobj fs ((fix go l : Forall (fun kv => P (snd kv)) l :=
        match l with [] => Forall_nil _ | x :: l' => Forall_cons _ (json_ind' (snd x)) (go l') end) fs)
    end.
End json_ind.

(** Exact rational value of a number. *)
Definition two_power (e : Z) : Q := Qpower (inject_Z 2) e.
Definition num_value (n : number) : Q :=
  match n with
  | PosInt n => inject_Z n
  | NegInt z => inject_Z z
  | Flt m e => (inject_Z m * two_power e)%Q
  end.
