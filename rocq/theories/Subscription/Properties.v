(** C18: subscription events are answered in order, none lost or duplicated, at most three at a time. *)
From Coq Require Import List Arith Bool Lia.
From Verif.Subscription Require Import Model Spec Proofs.
Import ListNotations.

Section Properties.
Variable R : Type.
Variable total : nat.

(** Whatever the schedule: the responses sent are those of the first events, in order; each is what the
    execution of its event, which started before and ended once, returned; at most three are executing. *)
Theorem C18_in_order : forall ops, let s := run R total ops in
  sent (s_log R s) = seq 0 (length (sent (s_log R s))) /\ length (sent (s_log R s)) <= total /\
  genuine (s_log R s) /\ executed (s_log R s) /\
  (forall l, NoDup l -> (forall k, In k l -> executing (s_log R s) k) -> length l <= 3).
Proof.
  intros ops s. pose proof (run_inv R total ops) as I. fold s in I. destruct (i_prefix _ _ _ I) as (more & E & _).
  assert (L : length (sent (s_log R s)) <= s_next R s) by (apply (f_equal (@length nat)) in E; rewrite app_length, seq_length in E; lia).
  split.
  { replace (s_next R s) with (length (sent (s_log R s)) + (s_next R s - length (sent (s_log R s)))) in E by lia. rewrite seq_app in E.
    apply (f_equal (firstn (length (sent (s_log R s))))) in E. rewrite firstn_app, Nat.sub_diag, firstn_all, app_nil_r in E.
    rewrite firstn_app, seq_length, Nat.sub_diag, firstn_all2, app_nil_r in E by (rewrite seq_length; lia). exact E. }
  split; [pose proof (i_total _ _ _ I); lia|]. split; [apply I|]. split; [apply I|].
  intros l N H. eapply Nat.le_trans; [|apply (i_bound _ _ _ I)]. rewrite <- (map_length fst). apply NoDup_incl_length; [exact N|].
  intros k J. destruct (H k J) as [T Ne]. apply (in_map fst _ (k, None)). apply (i_open _ _ _ I); [apply (i_taken _ _ _ I); exact T|exact Ne].
Qed.
(** Once the loop is over and the client is still there, every event was answered. *)
Theorem C18_all_delivered : forall ops, let s := run R total ops in s_phase R s = Done -> sent (s_log R s) = seq 0 total.
Proof.
  intros ops s H. pose proof (run_inv R total ops) as I. fold s in I. pose proof (i_gone _ _ _ I) as G. rewrite (i_done _ _ _ I H), app_nil_r in G.
  rewrite (i_drain _ _ _ I (or_intror H)) in G. apply G. rewrite H. discriminate.
Qed.
(** The loop is never stuck: whatever happened, if executions end and the client stays, it finishes. *)
Theorem C18_can_finish : forall (r0 : R) ops, s_phase R (run R total ops) <> Gone -> exists ops', s_phase R (run R total (ops ++ ops')) = Done.
Proof.
  intros r0. assert (G : forall n ops, s_phase R (run R total ops) <> Gone -> 
    match s_phase R (run R total ops) with Loop => 1 | _ => 0 end + 2 * (total - s_next R (run R total ops)) + length (s_queue R (run R total ops)) <= n ->
    exists ops', s_phase R (run R total (ops ++ ops')) = Done).
  { intros n. induction n as [|n IH]; intros ops Ng Hn.
    - pose proof (run_inv R total ops) as I. destruct (s_phase R (run R total ops)) eqn:Hp; [lia| |exists []; rewrite app_nil_r; exact Hp|congruence].
      exists [Poll true true]. rewrite run_snoc. cbn [step]. rewrite Hp. assert (E : length (s_queue R (run R total ops)) =? 0 = true) by (apply Nat.eqb_eq; lia). rewrite E. reflexivity.
    - set (s := run R total ops) in *. pose proof (run_inv R total ops) as I. fold s in I.
      (* one step, then the induction hypothesis *)
      assert (Go : forall ops1, s_phase R (run R total (ops ++ ops1)) <> Gone ->
        match s_phase R (run R total (ops ++ ops1)) with Loop => 1 | _ => 0 end + 2 * (total - s_next R (run R total (ops ++ ops1))) + length (s_queue R (run R total (ops ++ ops1))) <= n ->
        exists ops', s_phase R (run R total (ops ++ ops')) = Done).
      { intros ops1 N1 H1. destruct (IH (ops ++ ops1) N1 H1) as (ops2 & E2). exists (ops1 ++ ops2). rewrite app_assoc. exact E2. }
      destruct (s_phase R s) eqn:Hp; [| |exists []; rewrite app_nil_r; exact Hp|congruence].
      + destruct (s_queue R s) as [|[k v] q] eqn:Eq.
        * apply (Go [Poll true true]); rewrite run_snoc; fold s; cbn [step]; rewrite Hp, Eq; cbn [length Nat.eqb]; cbv beta iota; unfold take; rewrite Eq; destruct (s_next R s <? total) eqn:E; cbn [s_phase s_next s_queue app length]; try rewrite Hp; try discriminate.
          -- apply Nat.ltb_lt in E. cbn [length] in Hn. lia.
          -- apply Nat.ltb_ge in E. cbn [length] in Hn. lia.
        * cbn [length] in Hn. assert (D : forall s', s_phase R s' = Loop -> s_next R s' = s_next R s -> (exists r, s_queue R s' = (k, Some r) :: q) ->
            let s'' := step R total s' (Poll true true) in s_phase R s'' = Loop /\ s_next R s'' = s_next R s /\ s_queue R s'' = q).
          { intros s' P' N' (r & Q'). cbn [step]. rewrite P', Q'. assert (De : deliver R true s' = Some {| s_phase := s_phase R s'; s_next := s_next R s'; s_queue := q; s_log := s_log R s' ++ [Sent k r] |}) by (unfold deliver; rewrite Q'; reflexivity).
            rewrite De. cbn [length]. destruct (Datatypes.S (length q) =? 0) eqn:Z; [discriminate Z|]. destruct (Datatypes.S (length q) <? 3); cbn [s_phase s_next s_queue]; auto. }
          destruct v as [r|].
          -- destruct (D s Hp eq_refl (ex_intro _ r Eq)) as (P2 & N2 & Q2). apply (Go [Poll true true]); rewrite run_snoc; fold s; rewrite P2; [discriminate|]. rewrite N2, Q2. lia.
          -- set (s1 := step R total s (Finish k r0)). assert (F : s1 = {| s_phase := s_phase R s; s_next := s_next R s; s_queue := (k, Some r0) :: q; s_log := s_log R s ++ [Ended k r0] |}).
             { unfold s1. cbn [step]. rewrite Eq. cbn [finish]. rewrite Nat.eqb_refl. reflexivity. }
             destruct (D s1) as (P2 & N2 & Q2); [rewrite F; exact Hp|rewrite F; reflexivity|rewrite F; eexists; reflexivity|].
             apply (Go [Finish k r0; Poll true true]); replace (ops ++ [Finish k r0; Poll true true]) with ((ops ++ [Finish k r0]) ++ [Poll true true]) by (rewrite <- app_assoc; reflexivity);
               rewrite !run_snoc; fold s; fold s1; rewrite P2; [discriminate|]. rewrite N2, Q2. lia.
      + destruct (s_queue R s) as [|[k v] q] eqn:Eq.
        * exists [Poll true true]. rewrite run_snoc. fold s. cbn [step]. rewrite Hp, Eq. reflexivity.
        * cbn [length] in Hn. assert (D : forall s', s_phase R s' = Drain -> s_next R s' = s_next R s -> (exists r, s_queue R s' = (k, Some r) :: q) ->
            let s'' := step R total s' (Poll true true) in s_phase R s'' = Drain /\ s_next R s'' = s_next R s /\ s_queue R s'' = q).
          { intros s' P' N' (r & Q'). cbn [step]. rewrite P', Q'. assert (De : deliver R true s' = Some {| s_phase := s_phase R s'; s_next := s_next R s'; s_queue := q; s_log := s_log R s' ++ [Sent k r] |}) by (unfold deliver; rewrite Q'; reflexivity).
            rewrite De. cbn [length]. destruct (Datatypes.S (length q) =? 0) eqn:Z; [discriminate Z|]. cbn [s_phase s_next s_queue]; auto. }
          destruct v as [r|].
          -- destruct (D s Hp eq_refl (ex_intro _ r Eq)) as (P2 & N2 & Q2). apply (Go [Poll true true]); rewrite run_snoc; fold s; rewrite P2; [discriminate|]. rewrite N2, Q2. lia.
          -- set (s1 := step R total s (Finish k r0)). assert (F : s1 = {| s_phase := s_phase R s; s_next := s_next R s; s_queue := (k, Some r0) :: q; s_log := s_log R s ++ [Ended k r0] |}).
             { unfold s1. cbn [step]. rewrite Eq. cbn [finish]. rewrite Nat.eqb_refl. reflexivity. }
             destruct (D s1) as (P2 & N2 & Q2); [rewrite F; exact Hp|rewrite F; reflexivity|rewrite F; eexists; reflexivity|].
             apply (Go [Finish k r0; Poll true true]); replace (ops ++ [Finish k r0; Poll true true]) with ((ops ++ [Finish k r0]) ++ [Poll true true]) by (rewrite <- app_assoc; reflexivity);
               rewrite !run_snoc; fold s; fold s1; rewrite P2; [discriminate|]. rewrite N2, Q2. lia. }
  intros ops Ng. eapply G; [exact Ng|apply Nat.le_refl].
Qed.
End Properties.

(** The second event finishes first; a fourth one is not taken while three are unanswered. *)
Example C18_example :
  s_log nat (run nat 4 [Poll true true; Poll true true; Poll true true; Finish 1 21; Poll true true; Poll true true; Finish 0 20; Poll true true; Poll true true;
    Poll true true; Finish 2 22; Finish 3 23; Poll true true; Poll true true; Poll true true; Poll true true; Poll true true]) =
    [Taken 0; Taken 1; Taken 2; Ended 1 21; Ended 0 20; Sent 0 20; Sent 1 21; Taken 3; Ended 2 22; Ended 3 23; Sent 2 22; Sent 3 23] /\
  s_phase nat (run nat 4 [Poll true true; Finish 0 20; Poll true false]) = Gone.
Proof. split; reflexivity. Qed.
