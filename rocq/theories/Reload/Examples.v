(** Runs of the reload of a gateway, and what doesn't hold. *)
From Coq Require Import List Bool PeanoNat Lia.
From Verif.Reload Require Import Model Spec Properties.
Import ListNotations.

Notation go prompt es := (run nat nat 16 prompt es (start nat nat 0)).

Arguments Write {G C}. Arguments Delete {G C}. Arguments InitRead {G C}. Arguments Finger {G C}. Arguments Tick {G C}. Arguments Read {G C}. Arguments Push {G C}.
Arguments Config {G C}. Arguments Changed {G C}. Arguments Pass {G C}. Arguments Recv {G C}. Arguments InitBuilt {G C}. Arguments Built {G C}. Arguments Publish {G C}. Arguments Drop {G C}.
Arguments Told {G C}. Arguments Serves {G C}. Arguments Fails {G C}. Arguments Graph {G C}. Arguments Conf {G C}.

Ltac notin := let K := fresh in cbn; intros K; repeat (destruct K as [K|K]; [discriminate|]); exact K.

Definition boot : list (event nat nat) := [Write (Some 1); InitRead; Push; Finger; Recv; InitBuilt true].
Definition reread : list (event nat nat) := [Tick; Read true; Push; Recv].

(** The schema and the configuration change, and the last of each is served. *)
Definition changes : list (event nat nat) :=
  boot ++ [Config 5; Changed; Config 6; Changed; Pass; Recv] ++ [Write (Some 2)] ++ reread ++ [Drop 0; Built 1 true; Publish 1].

Example changes_log : option_map snd (go true changes) = Some [Told (Graph 1); Serves 1 0; Told (Conf 6); Told (Graph 2); Serves 2 6].
Proof. vm_compute. reflexivity. Qed.

Example changes_calm : exists s log, go true changes = Some (s, log) /\ calm nat nat s /\ ~ In Fails log /\ ~ In (Read false) changes
  /\ noticed nat nat changes /\ served nat nat s = Some (2, 6).
Proof.
  eexists. eexists. split; [vm_compute; reflexivity|]. split.
  { constructor; cbn.
    - reflexivity.
    - split; [reflexivity|]. discriminate.
    - reflexivity.
    - intros t [<-|[<-|[]]]; reflexivity.
    - eauto. }
  split; [notin|]. split; [notin|]. split; [|reflexivity].
  right. exists (boot ++ [Config 5]), ([Config 6; Changed; Pass; Recv] ++ [Write (Some 2)] ++ reread ++ [Drop 0; Built 1 true; Publish 1]), 6.
  split; [reflexivity|left; reflexivity].
Qed.

Lemma undisturbed_check : forall es (b : bool),
  (fix ok (seen : bool) (es : list (event nat nat)) := match es with
   | [] => true
   | InitRead :: es => ok true es
   | Finger :: es => true
   | Write _ :: es => negb seen && ok seen es
   | _ :: es => ok seen es
   end) b es = true ->
  forall e1 e2 g, es = e1 ++ Write g :: e2 -> (b = true \/ In InitRead e1) -> In Finger e1.
Proof.
  induction es as [|e es IH]; intros b H e1 e2 g E K; [destruct e1; discriminate|].
  destruct e1 as [|x e1]; injection E as -> ->.
  - destruct K as [->|[]]. discriminate.
  - destruct x as [w| | | | |ok| |c| | | |ok|i ok|i|i]; try (left; reflexivity); right; revert H; cbn -[In]; intros H;
      try (apply (IH b H _ _ _ eq_refl); destruct K as [K|[K|K]]; [auto|discriminate|auto]).
    + apply andb_true_iff in H. destruct H as [_ H]. apply (IH b H _ _ _ eq_refl). destruct K as [K|[K|K]]; [auto|discriminate|auto].
    + apply (IH true H _ _ _ eq_refl). auto.
Qed.

Example changes_undisturbed : undisturbed nat nat changes.
Proof. intros e1 e2 g E H. exact (undisturbed_check changes false eq_refl e1 e2 g E (or_intror H)). Qed.

(** ** What doesn't hold *)

(** The first change of the configuration is never served: [changed] is called once to skip the first value, which the
    receiver has already seen (serve/mod.rs:142-143). *)
Theorem C115_config_refuted : exists es s log, go true es = Some (s, log) /\ ~ In Fails log /\ calm nat nat s /\ In (Config 5) es
  /\ conf nat nat s = 5 /\ served nat nat s = Some (1, 0).
Proof.
  exists (boot ++ [Config 5; Changed]). eexists. eexists. split; [vm_compute; reflexivity|]. split; [notin|]. split; [|split; [do 6 right; left; reflexivity|split; reflexivity]].
  constructor; cbn; [reflexivity|split; [reflexivity|discriminate]|reflexivity|intros t []|eauto].
Qed.

(** If an aborted task goes on until its next await, an older engine is served last. *)
Theorem C115_stale_refuted : exists es s log, go false es = Some (s, log) /\ ~ In Fails log /\ calm nat nat s
  /\ latest_graph nat nat log = Some 3 /\ served nat nat s = Some (2, 0).
Proof.
  exists (boot ++ [Write (Some 2)] ++ reread ++ [Built 0 true; Write (Some 3)] ++ reread ++ [Built 1 true; Publish 1; Publish 0]).
  eexists. eexists. split; [vm_compute; reflexivity|]. split; [notin|]. split; [|split; reflexivity].
  constructor; cbn; [reflexivity|split; [reflexivity|discriminate]|reflexivity|intros t [<-|[<-|[]]]; reflexivity|eauto].
Qed.

(** A schema an engine can be built of is never served when one that isn't comes while it is built: the engine before both stays. *)
Theorem C115_lost_refuted : exists es s log, go true es = Some (s, log) /\ calm nat nat s
  /\ In (Told (Graph 2)) log /\ served nat nat s = Some (1, 0)
  /\ log = [Told (Graph 1); Serves 1 0; Told (Graph 2); Told (Graph 3); Fails].
Proof.
  exists (boot ++ [Write (Some 2)] ++ reread ++ [Write (Some 3)] ++ reread ++ [Drop 0; Built 1 false]).
  eexists. eexists. split; [vm_compute; reflexivity|]. split; [|split; [do 2 right; left; reflexivity|split; reflexivity]].
  constructor; cbn; [reflexivity|split; [reflexivity|discriminate]|reflexivity|intros t [<-|[<-|[]]]; reflexivity|eauto].
Qed.

(** A write between the first reading of the file and the first look at its time is never seen. *)
Theorem C115_missed_refuted : exists es s log, go true es = Some (s, log) /\ ~ In Fails log /\ calm nat nat s /\ ~ In (Read false) es
  /\ file nat nat s = Some (1, Some 2) /\ served nat nat s = Some (1, 0)
  /\ exists s', go true (es ++ [Tick]) = Some (s', log) /\ s' = s.
Proof.
  exists [Write (Some 1); InitRead; Write (Some 2); Push; Finger; Recv; InitBuilt true].
  eexists. eexists. split; [vm_compute; reflexivity|]. split; [notin|]. split; [|split; [notin|]; split; [reflexivity|]; split; [reflexivity|]; eexists; split; [vm_compute; reflexivity|reflexivity]].
  constructor; cbn; [reflexivity|split; [reflexivity|discriminate]|reflexivity|intros t []|eauto].
Qed.

(** A schema that once couldn't be read isn't read again: its time is stored before (schema_file.rs:53-62). *)
Theorem C115_unread_refuted : exists es s log, go true es = Some (s, log) /\ ~ In Fails log /\ calm nat nat s /\ undisturbed nat nat es
  /\ file nat nat s = Some (1, Some 2) /\ served nat nat s = Some (1, 0)
  /\ exists s', go true (es ++ [Tick]) = Some (s', log) /\ s' = s.
Proof.
  exists (boot ++ [Write (Some 2); Tick; Read false]).
  eexists. eexists. split; [vm_compute; reflexivity|]. split; [notin|]. split; [|split; [|split; [reflexivity|]; split; [reflexivity|]; eexists; split; [vm_compute; reflexivity|reflexivity]]].
  - constructor; cbn; [reflexivity|split; [reflexivity|discriminate]|reflexivity|intros t []|eauto].
  - intros e1 e2 g E H. exact (undisturbed_check (boot ++ [Write (Some 2); Tick; Read false]) false eq_refl e1 e2 g E (or_intror H)).
Qed.

(** ** Operations that are warmed *)

(** Below a hundred percent no operation is warmed at all, from a hundred on all of them are. *)
Theorem C115_warm : forall O enabled percent (ops : list O),
  warmed enabled percent ops = (if enabled then if Nat.leb 100 percent then ops else [] else []).
Proof.
  intros O enabled percent ops. unfold warmed. destruct enabled; [cbn [negb]|reflexivity]. destruct (Nat.leb_spec 100 percent) as [H|H]; [reflexivity|].
  rewrite Nat.div_small by exact H. rewrite Nat.mul_0_r. reflexivity.
Qed.

(** Half of two operations isn't one. *)
Theorem C115_warm_refuted : exists percent (ops : list nat), percent = 50 /\ length ops = 2 /\ length (warmed true percent ops) <> 1.
Proof. exists 50, [7; 8]. split; [reflexivity|]. split; [reflexivity|]. vm_compute. discriminate. Qed.
