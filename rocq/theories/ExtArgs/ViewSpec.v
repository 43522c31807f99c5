(** What an extension is given for the arguments of a directive. *)
From Coq Require Import String List ZArith Bool Permutation.
From Verif.ExtArgs Require Import Model.
Import ListNotations.
Local Open Scope string_scope.
Local Open Scope list_scope.

Section Spec.
  Context {VS FS TPL : Type}.
  Notation ev := (ev VS FS TPL).
  Variable set_view : VS -> data.
  Variable template_view : TPL -> string.
  Variable fields_view : FS -> data.

  (** What a value stands for, when everything is known. *)
  Inductive shows : ev -> data -> Prop :=
  | ShNull : shows ENull NNull
  | ShStr : forall s, shows (EStr s) (NStr s)
  | ShEnum : forall s, shows (EEnum s) (NStr s)
  | ShInt : forall z, shows (EInt z) (NInt z)
  | ShI64 : forall z, shows (EI64 z) (NInt z)
  | ShFloat : forall m e, shows (EFloat m e) (NFloat m e)
  | ShBool : forall b, shows (EBool b) (NBool b)
  | ShList : forall l ds, Forall2 shows l ds -> shows (EList l) (NList ds)
  | ShMap : forall fs ds, Forall2 (fun f d => fst f = fst d /\ shows (snd f) (snd d)) fs ds -> shows (EMap fs) (NMap ds)
  | ShFieldSet : forall f, shows (EFieldSet f) (fields_view f)
  | ShSet : forall v, shows (EValueSet v) (set_view v)
  | ShTemplate : forall t, shows (ETemplate t) (NStr (template_view t)).

  (** Exactly the arguments of some stages are delivered, in their order, under their names. *)
  Inductive delivered (of : stage -> Prop) : list (argument VS FS TPL) -> list (string * data) -> Prop :=
  | DvNil : delivered of [] []
  | DvKeep : forall a args d ds, of (astage a) -> shows (avalue a) d -> delivered of args ds -> delivered of (a :: args) ((aname a, d) :: ds)
  | DvSkip : forall a args ds, ~ of (astage a) -> delivered of args ds -> delivered of (a :: args) ds.

  (** Every argument is delivered once in all. *)
  Definition everything (args : list (argument VS FS TPL)) (given : list (list (string * data))) : Prop :=
    exists l, Permutation (concat given) l /\
      Forall2 (fun a d => fst d = aname a /\ shows (avalue a) (snd d)) args l.
End Spec.
