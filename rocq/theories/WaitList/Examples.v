(** Runs: callers that wait for the one that computes, and what waiting doesn't give. *)
From Coq Require Import List Bool PeanoNat Lia.
From Verif.WaitList Require Import Model Spec Invariant Properties.
Import ListNotations.

Notation Call := (Call nat).
Notation Look := (Look nat).
Notation Reserve := (Reserve nat).
Notation Enqueue := (Enqueue nat).
Notation Fail := (Fail nat).
Notation Timeout := (Timeout nat).
Notation Clean := (Clean nat).
Notation Cancel := (Cancel nat).
Notation Insert := (Insert nat).
Notation Take := (Take nat).
Notation Drain := (Drain nat).
Notation Close := (Close nat).
Notation Remove := (Remove nat).
Notation Invalidate := (Invalidate nat).
Notation Expire := (Expire nat).
Notation Got := (Got nat).
Notation Leads := (Leads nat).
Notation Empty := (Empty nat).
Notation Gone := (Gone nat).
Notation Waiting := (Waiting nat).
Notation Storing := (Storing nat).
Notation Done := (Done nat).
Notation callers := (callers nat).
Notation writers := (writers nat).
Notation cached := (cached nat).
Notation current := (current nat).
Notation start := (start nat).
Notation run := (run nat 2).
Notation event := (event nat).

(** The call [w] up to where it waits, or leads. *)
Definition comes (w : nat) : list event := [Call; Look w; Reserve w].
Definition waits (w : nat) : list event := comes w ++ [Enqueue w].

(** The first caller leads, the next three wait (the list has two places, so the fourth once one has left), and the third is dropped.  The value 7 is
    inserted, the fifth caller finds it. *)
Definition ex_run : list event :=
  comes 0 ++ waits 1 ++ waits 2 ++ comes 3 ++ [Cancel 2; Insert 7; Call; Take 0; Drain 0; Enqueue 3; Look 4; Drain 0; Drain 0; Drain 0; Close 0].

Example C113_ex :
  option_map (fun s => (callers s, cached s, current s)) (run ex_run start) = Some ([Leads; Got 7; Gone; Got 7; Got 7], Some 7, None)
  /\ leaders nat (callers match run ex_run start with Some s => s | None => start end) = 1 /\ count nat (renews nat) ex_run = 1
  /\ run (comes 0 ++ waits 1 ++ waits 2 ++ waits 3) start = None.
Proof. vm_compute. repeat split. Qed.

(** The hypotheses of [C113_served]: the caller 1 waits when the insert takes the list. *)
Example C113_served_ex : exists s s',
  run (comes 0 ++ waits 1 ++ [Insert 7]) start = Some s /\ run [Take 0; Drain 0; Timeout 1; Drain 0; Close 0] s = None
  /\ run [Take 0; Drain 0; Drain 0; Close 0] s = Some s' /\ nth_error (callers s) 1 = Some (Waiting 0) /\ current s = Some 0
  /\ nth_error (writers s) 0 = Some (Storing 7) /\ nth_error (writers s') 0 = Some Done /\ nth_error (callers s') 1 = Some (Got 7).
Proof.
  eexists. eexists. split; [vm_compute; reflexivity|]. split; [vm_compute; reflexivity|]. split; [vm_compute; reflexivity|].
  repeat (split; [reflexivity|]). reflexivity.
Qed.

(** Nobody times out and nothing is removed, and a caller that came after no insert is told to compute a value that is in the cache: it was inserted between
    its look at the cache and its look at the wait list. *)
Theorem C113_cached_refuted : exists es s,
  run es start = Some s /\ (forall w, ~ In (Timeout w) es) /\ ~ In Remove es /\ ~ In Expire es
  /\ nth_error (callers s) 1 = Some Leads /\ cached s = Some 7 /\ count nat (renews nat) es = 1 /\ leaders nat (callers s) = 2.
Proof.
  exists (comes 0 ++ [Call; Look 1; Insert 7; Take 0; Reserve 1]). eexists. split; [vm_compute; reflexivity|].
  split; [intros w Q; repeat (destruct Q as [Q|Q]; [discriminate Q|]); exact Q|].
  split; [intros Q; repeat (destruct Q as [Q|Q]; [discriminate Q|]); exact Q|].
  split; [intros Q; repeat (destruct Q as [Q|Q]; [discriminate Q|]); exact Q|].
  repeat (split; [reflexivity|]). reflexivity.
Qed.

(** Nobody times out and nothing is removed, and a caller that waited gets nothing though the value is in the cache: it was put on the list after [insert] has
    looked at it for the last time. *)
Theorem C113_late_refuted : exists es s,
  run es start = Some s /\ (forall w, ~ In (Timeout w) es) /\ ~ In Remove es /\ ~ In Expire es
  /\ nth_error (callers s) 1 = Some Empty /\ cached s = Some 7.
Proof.
  exists (comes 0 ++ comes 1 ++ [Insert 7; Take 0; Drain 0; Enqueue 1; Close 0; Fail 1; Clean 1]). eexists. split; [vm_compute; reflexivity|].
  split; [intros w Q; repeat (destruct Q as [Q|Q]; [discriminate Q|]); exact Q|].
  split; [intros Q; repeat (destruct Q as [Q|Q]; [discriminate Q|]); exact Q|].
  split; [intros Q; repeat (destruct Q as [Q|Q]; [discriminate Q|]); exact Q|].
  split; reflexivity.
Qed.

(** Two callers wait, one of them times out: the other one gets nothing before its time is up and before anything was inserted, and a third is told to compute
    the value that the first computes; what the first inserts goes to the third's list. *)
Theorem C113_timeout_refuted : exists es s,
  run es start = Some s /\ ~ In (Timeout 2) es /\ (forall v, ~ In (Insert v) es) /\ ~ In Remove es /\ ~ In Expire es
  /\ nth_error (callers s) 2 = Some Empty /\ nth_error (callers s) 0 = Some Leads /\ nth_error (callers s) 3 = Some Leads.
Proof.
  exists (comes 0 ++ waits 1 ++ waits 2 ++ [Timeout 1; Clean 1; Fail 2; Clean 2] ++ comes 3). eexists. split; [vm_compute; reflexivity|].
  split; [intros Q; repeat (destruct Q as [Q|Q]; [discriminate Q|]); exact Q|].
  split; [intros w Q; repeat (destruct Q as [Q|Q]; [discriminate Q|]); exact Q|].
  split; [intros Q; repeat (destruct Q as [Q|Q]; [discriminate Q|]); exact Q|].
  split; [intros Q; repeat (destruct Q as [Q|Q]; [discriminate Q|]); exact Q|].
  split; [reflexivity|]. split; reflexivity.
Qed.

(** One time out makes all that wait compute: each of them returns nothing, as the one that leads. *)
Theorem C113_herd_refuted : exists es s,
  run es start = Some s /\ count nat (renews nat) es = 1 /\ nth_error (callers s) 1 = Some Empty /\ nth_error (callers s) 2 = Some Empty
  /\ nth_error (callers s) 3 = Some Empty /\ leaders nat (callers s) = 1.
Proof.
  exists (comes 0 ++ waits 1 ++ waits 2 ++ comes 3 ++ [Timeout 1; Clean 1; Fail 2; Clean 2; Fail 3; Clean 3]). eexists.
  split; [vm_compute; reflexivity|]. repeat (split; [reflexivity|]). reflexivity.
Qed.

(** A caller that comes after the value was removed is given the removed value, if the [insert] of it is still to look at the wait list. *)
Theorem C113_stale_refuted : exists before later s0 s,
  run before start = Some s0 /\ cached s0 = None /\ writers s0 = [Storing 7; Done] /\ callers s0 = [Leads]
  /\ run later s0 = Some s /\ (forall v, ~ In (Insert v) later) /\ nth_error later 3 = Some Call /\ nth_error (callers s) 2 = Some (Got 7).
Proof.
  exists (comes 0 ++ [Insert 7; Remove; Invalidate 1]), (comes 1 ++ waits 2 ++ [Take 0; Drain 0]). eexists. eexists.
  split; [vm_compute; reflexivity|]. split; [reflexivity|]. split; [reflexivity|]. split; [reflexivity|]. split; [vm_compute; reflexivity|].
  split; [intros w Q; repeat (destruct Q as [Q|Q]; [discriminate Q|]); exact Q|]. split; reflexivity.
Qed.
