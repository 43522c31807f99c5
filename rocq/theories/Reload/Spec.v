(** What should be served, in terms of what the reloader was told. *)
From Coq Require Import List Bool PeanoNat.
From Verif.Reload Require Import Model.
Import ListNotations.

Section Spec.
  Variable G C : Type.
  Variable c0 : C.

  (** The last graph and the last configuration of a log. *)
  Definition latest_graph (l : list (entry G C)) : option G :=
    fold_left (fun a e => match e with Told _ _ (Graph _ _ g) => Some g | _ => a end) l None.
  Definition latest_conf (l : list (entry G C)) : C :=
    fold_left (fun a e => match e with Told _ _ (Conf _ _ c) => c | _ => a end) l c0.

  (** The file isn't written between the first look at its content and the first look at its modification time. *)
  Definition undisturbed (es : list (event G C)) : Prop :=
    forall e1 e2 g, es = e1 ++ Write G C g :: e2 -> In (InitRead G C) e1 -> In (Finger G C) e1.

  (** The configuration never changed, or it did after a change was noticed. *)
  Definition noticed (es : list (event G C)) : Prop :=
    (forall c, ~ In (Config G C c) es) \/ exists e1 e2 c, es = e1 ++ Changed G C :: e2 /\ In (Config G C c) e2.

  (** All that was written has been looked at, all updates have been received, and nothing is built. *)
  Record calm (s : state G C) : Prop := {
    calm_file : poll _ _ s = PIdle G (option_map fst (file _ _ s));
    calm_conf : seen _ _ s = version _ _ s /\ forall c, pass _ _ s <> BSend C c;
    calm_queue : queue _ _ s = [];
    calm_tasks : forall t, In t (tasks _ _ s) -> t_stage _ _ t = Over;
    calm_up : exists g c, reload _ _ s = RLoop G C g c
  }.
End Spec.
