(** C16: plans and response modifiers run at most once, only after everything they depend on, and their
    turn comes as soon as everything they depend on is finished. *)
From Coq Require Import List Arith NArith Bool Lia Wf_nat.
From Verif.Scheduler Require Import Model Spec Proofs.
Import ListNotations.

(** A query or mutation, whatever is answered and in whatever order: the scheduler never decrements a
    counter below zero nor runs out of work unfinished; every executable has its turn at most once, only
    after all it depends on is finished, and as soon as this is so; answers follow requests, one each. *)
Theorem C16_scheduling : forall d inputs ops, well_formed d ->
  exists s, run d inputs ops = Some s /\
    at_most_once (s_log s) /\ after_dependencies d (s_log s) /\ after_start (s_log s) /\ answered_once (s_log s) /\
    (forall x, valid d x -> (forall y, depends d y x -> happened (finishes y) (s_log s)) -> happened (turn x) (s_log s)) /\
    (forall p, In (Started p) (s_log s) -> In p (s_running s) \/ In p (s_queue s) \/ In (Succeeded p) (s_log s) \/ In (Failed p) (s_log s)).
Proof.
  intros d inputs ops Wf. destruct (run_good d inputs ops Wf) as (s & R & G). exists s. split; [exact R|].
  split; [apply nodup_once; apply (i_once _ _ _ _ _ (proj1 G))|]. split; [apply (i_deps _ _ _ _ _ (proj1 G))|].
  split.
  { intros p b e a H K. destruct (f_log _ _ _ _ (proj2 G) p b e a H K) as [J|J]; [exact J|discriminate J]. }
  split; [apply ended_once; eapply good_answered_once; exact G|].
  split; [|intros p; eapply good_answered; exact G].
  intros x V H. eapply good_turn; [exact G| |exact V|exact H]. intros (p & K & _). discriminate K.
Qed.

(** When nothing is in flight any more and no plan failed or was without parent objects, everything ran. *)
Theorem C16_complete : forall d inputs ops, well_formed d -> acyclic d ->
  exists s, run d inputs ops = Some s /\
    (s_running s = [] -> s_queue s = [] -> (forall p, ~ In (Failed p) (s_log s) /\ ~ In (Skipped p) (s_log s)) ->
     forall x, valid d x -> happened (finishes x) (s_log s)).
Proof.
  intros d inputs ops Wf (rank & Hr). destruct (C16_scheduling d inputs ops Wf) as (s & R & _ & _ & _ & _ & T & A). exists s. split; [exact R|].
  intros Er Eq Nf x. induction x as [x IH] using (induction_ltof1 exec rank). unfold ltof in IH. intros V.
  destruct (T x V) as (e & I & Te).
  { intros y D. apply IH; [apply Hr; exact D|]. apply (depends_valid d y x Wf D). }
  destruct e as [p|p|p|p|m], x as [q|n]; cbn [turn] in Te; try contradiction; rewrite Te in I; clear Te.
  - destruct (A q I) as [J|[J|[J|J]]]; [rewrite Er in J; destruct J|rewrite Eq in J; destruct J| |exfalso; apply (proj1 (Nf q)); exact J].
    exists (Succeeded q). split; [exact J|reflexivity].
  - exfalso. apply (proj2 (Nf q)). exact I.
  - exists (Modified n). split; [exact I|reflexivity].
Qed.

(** One event of a subscription: the same, from the result of the subscription plan, the only plan that
    depends on nothing; it is not run again. *)
Theorem C16_subscription_event : forall d p inputs ops, well_formed d -> p < d_plans d ->
  (forall q, q < d_plans d -> (forall y, ~ depends d y (P q)) <-> q = p) ->
  exists s, run_event d inputs ops = Some s /\
    at_most_once (s_log s) /\ after_dependencies d (s_log s) /\ answered_once (s_log s) /\
    ~ happened (turn (P p)) (s_log s) /\
    (forall x, x <> P p -> valid d x -> (forall y, depends d y x -> happened (finishes y) (s_log s)) -> happened (turn x) (s_log s)) /\
    (forall q, q <> p -> In (Succeeded q) (s_log s) \/ In (Failed q) (s_log s) -> In (Started q) (s_log s)).
Proof.
  intros d p inputs ops Wf L U. destruct (event_good d p inputs ops Wf U L) as (s & R & G). exists s. split; [exact R|].
  split; [apply nodup_once; apply (i_once _ _ _ _ _ (proj1 G))|]. split; [apply (i_deps _ _ _ _ _ (proj1 G))|].
  split; [apply ended_once; eapply good_answered_once; exact G|].
  split; [eapply good_sub_never; [exact G|reflexivity]|].
  split.
  - intros x N V H. eapply good_turn; [exact G| |exact V|exact H]. intros (q & K & ->). congruence.
  - intros q N H. destruct (f_turn _ _ _ _ (proj2 G) q) as [J|J]; [|exact J|congruence].
    unfold ended. apply in_flat_map. destruct H as [H|H]; eexists; (split; [exact H|left; reflexivity]).
Qed.

(** A plan that finds parent objects need not run although no plan failed: a plan it depends on had no
    parent object itself, so it is never finished.  (0 gives the entities, 1 a field of their parts, if any,
    required by the field of 2.) *)
Theorem C16_skipped_dependency_refuted : exists d inputs ops s, well_formed d /\ acyclic d /\
  run d inputs ops = Some s /\ s_running s = [] /\ s_queue s = [] /\ (forall p, ~ In (Failed p) (s_log s)) /\
  (forall p, p <> 1 -> inputs p = true) /\ (forall ok i, In (Ingest ok i) ops -> i = inputs) /\
  ~ happened (turn (P 2)) (s_log s).
Proof.
  exists {| d_plans := 3; d_modifiers := 0; d_partition_modifiers := []; d_dependencies := [(P 1, 0); (P 2, 0); (P 2, 1)]; d_mutation_order := [] |}.
  exists (fun p => negb (p =? 1)), [Finish 0; Ingest true (fun p => negb (p =? 1))]. eexists.
  split.
  { split; [intros p m []|]. split; [|split; [intros p []|intros m H; inversion H]].
    intros x p [E|[E|[E|[]]]]; injection E as <- <-; cbn; lia. }
  split.
  { exists (fun x => match x with P p => p | M m => m end). intros y x D. destruct D as [p m []|p x I|p m q []|u a b v E].
    - destruct I as [E|[E|[E|[]]]]; injection E as <- <-; lia.
    - destruct u; discriminate E. }
  split; [vm_compute; reflexivity|]. split; [reflexivity|]. split; [reflexivity|].
  split; [intros p [E|[E|[E|[]]]]; discriminate E|].
  split; [intros p N; apply Nat.eqb_neq in N; rewrite N; reflexivity|].
  split; [intros ok i [E|[E|[]]]; [discriminate E|congruence]|].
  intros (e & [<-|[<-|[<-|[]]]] & T); cbn in T; try discriminate T; exact T.
Qed.

(** Plan 0 provides a field that modifier 0 hides afterwards; plans 1 and 2 need plan 0, plan 2 also plan 1. *)
Definition example : description :=
  {| d_plans := 3; d_modifiers := 1; d_partition_modifiers := [(0, 0)]; d_dependencies := [(P 1, 0); (P 2, 0); (P 2, 1)]; d_mutation_order := [] |}.
Example C16_example : well_formed example /\ acyclic example /\
  (exists s, run example (fun _ => true) [Finish 0; Ingest true (fun _ => true); Finish 1; Ingest true (fun _ => true); Finish 2; Ingest false (fun _ => true)] = Some s /\
   s_log s = [Started 0; Succeeded 0; Modified 0; Started 1; Succeeded 1; Started 2; Failed 2]) /\
  (exists s, run_event example (fun _ => true) [Ingest true (fun _ => true); Finish 1; Ingest false (fun _ => true)] = Some s /\
   s_log s = [Succeeded 0; Modified 0; Started 1; Failed 1]).
Proof.
  split.
  { split; [intros p m [E|[]]; injection E as <- <-; cbn; lia|]. split.
    - intros x p [E|[E|[E|[]]]]; injection E as <- <-; cbn; lia.
    - split; [intros p []|]. intros m H. exists 0. cbn in H. assert (m = 0) as -> by lia. left; reflexivity. }
  split.
  { exists (fun x => match x with P p => 2 * p | M m => 2 * m + 1 end). intros y x D. destruct D as [p m I|p x I|p m q I J|u a b v E].
    - destruct I as [E|[]]. injection E as <- <-. lia.
    - destruct I as [E|[E|[E|[]]]]; injection E as <- <-; lia.
    - destruct I as [E|[]]. injection E as <- <-. destruct J as [E|[E|[E|[]]]]; injection E as <-; try discriminate; lia.
    - destruct u; discriminate E. }
  split; eexists; (split; [vm_compute; reflexivity|reflexivity]).
Qed.
