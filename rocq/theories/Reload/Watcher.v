(** Limits of rates that follow the file of the configuration (crates/federated-server/src/hot_reload.rs).

    Every engine that is built has a channel of its own for them (hot_reload.rs:33-41, engine/runtime.rs:53).  The watcher of
    the file is a static of the process that the first engine sets (hot_reload.rs:52-67).  Simplification: an edit is one
    whose text can be parsed, and the watcher sees it at once. *)
From Coq Require Import List PeanoNat Lia.
Import ListNotations.

Section Watcher.
  Variable C : Type.

  Inductive wevent := WBuild (c : C) | WEdit (c : C).

  (** What the channel of every engine has, and the engine the watcher sends to. *)
  Record wstate := { channels : list C; watching : option nat }.

  Definition wstart : wstate := {| channels := []; watching := None |}.

  Fixpoint write (i : nat) (c : C) (l : list C) : list C :=
    match l, i with
    | [], _ => []
    | _ :: l, O => c :: l
    | x :: l, S i => x :: write i c l
    end.

  Definition wstep (s : wstate) (e : wevent) : wstate :=
    match e with
    | WBuild c =>
      {| channels := channels s ++ [c];
         watching := match watching s with Some i => Some i | None => Some (List.length (channels s)) end |}
    | WEdit c =>
      match watching s with
      | Some i => {| channels := write i c (channels s); watching := Some i |}
      | None => s
      end
    end.

  Definition wrun (es : list wevent) : wstate := fold_left wstep es wstart.

  (** ** Specification *)

  Definition builds (es : list wevent) : list C := flat_map (fun e => match e with WBuild c => [c] | WEdit _ => [] end) es.
  Definition edits (es : list wevent) : list C := flat_map (fun e => match e with WEdit c => [c] | WBuild _ => [] end) es.

  Definition winv (c : C) (es : list wevent) : Prop :=
    watching (wrun (WBuild c :: es)) = Some 0 /\ channels (wrun (WBuild c :: es)) = last (edits es) c :: builds es.

  Lemma last_snoc : forall (l : list C) x d, last (l ++ [x]) d = x.
  Proof. induction l as [|y l IH]; intros x d; [reflexivity|]. cbn [app last]. destruct (l ++ [x]) eqn:E; [destruct l; discriminate|]. rewrite <- E. apply IH. Qed.

  Lemma wrun_inv : forall c es, winv c es.
  Proof.
    intros c es. induction es as [|e es [I1 I2]] using rev_ind; [split; reflexivity|]. unfold winv, wrun in *.
    change (WBuild c :: es ++ [e]) with ((WBuild c :: es) ++ [e]). rewrite fold_left_app. cbn [fold_left] in *.
    set (s := fold_left wstep es (wstep wstart (WBuild c))) in *. unfold edits, builds in *. rewrite !flat_map_app. destruct e as [c'|c']; cbn [wstep flat_map app].
    - cbn [watching channels]. rewrite I1, I2. rewrite app_nil_r. auto.
    - rewrite I1. cbn [watching channels]. rewrite I2, !app_nil_r, last_snoc. auto.
  Qed.

  (** The first engine has the limits of the last edit.  Engines built after it keep the limits they were built with,
      whatever is edited. *)
  Theorem C115_limits : forall c es, channels (wrun (WBuild c :: es)) = last (edits es) c :: builds es.
  Proof. intros c es. apply wrun_inv. Qed.
End Watcher.

(** The limits of the engine that is served needn't be those of the file: a schema was reloaded before the edit. *)
Theorem C115_limits_refuted : exists es c, edits nat es = [c] /\ last (channels nat (wrun nat es)) c <> c.
Proof. exists [WBuild nat 1; WBuild nat 1; WEdit nat 2], 2. split; [reflexivity|]. vm_compute. discriminate. Qed.

Example limits_of_first : channels nat (wrun nat [WBuild nat 1; WEdit nat 2; WEdit nat 3]) = [3].
Proof. reflexivity. Qed.
