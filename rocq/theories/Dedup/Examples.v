(** Runs: clients that share a subscription, and what sharing doesn't give. *)
From Coq Require Import List Bool PeanoNat Lia.
From Verif.Dedup Require Import Model Spec Invariant Properties.
Import ListNotations.

Notation event := (event nat nat nat).
Notation state := (state nat nat nat).
Notation Subscribe := (Subscribe nat nat nat).
Notation Started := (Started nat nat nat).
Notation Next := (Next nat nat nat).
Notation Send := (Send nat nat nat).
Notation Remove := (Remove nat nat nat).
Notation GuestEnds := (GuestEnds nat nat nat).
Notation GuestFails := (GuestFails nat nat nat).
Notation SendError := (SendError nat nat nat).
Notation Finish := (Finish nat nat nat).
Notation Receive := (Receive nat nat nat).
Notation Leave := (Leave nat nat nat).
Notation step := (step nat nat nat Nat.eqb 2).
Notation step_old := (step_old nat nat nat Nat.eqb 2).
Notation run := (run nat nat nat).
Notation start := (start nat nat nat).
Notation receivers := (receivers nat nat nat).
Notation channels := (channels nat nat nat).

Definition seen (s : state) : list (nat * list (option nat) * status) :=
  map (fun r => (r_chan nat r, r_got nat r, r_status nat r)) (receivers s).

(** Two clients of the key 5 share a subscription; the second comes while the first batch is passed on.  The first is too slow once.
    The guest fails with 99, both are told, and both end. *)
Definition ex_run : list event :=
  [Subscribe 1 5; Next 0 [10; 11]; Send 0; Subscribe 1 5; Subscribe 1 6; Send 0; Receive 1; Next 0 []; Next 0 [12]; Send 0;
   Receive 0; Receive 0; GuestFails 0 99; Receive 1; SendError 0; Finish 0; Receive 1; Receive 1; Receive 0; Receive 0; Receive 0].

Example C112_ex :
  option_map seen (run step ex_run start)
  = Some [(0, [None; Some 11; Some 12; Some 99], Over); (0, [Some 11; Some 12; Some 99], Over); (1, [], Open)].
Proof. vm_compute. reflexivity. Qed.

(** The map is shared by all extensions: who asks the extension 2 is given what the extension 1 gives, if both chose the same key. *)
Theorem C112_extension_refuted : exists es s r c,
  run step es start = Some s /\ nth_error (receivers s) 1 = Some r /\ client _ _ _ 1 [Subscribe 1 5] 2 5 es
  /\ nth_error (channels s) (r_chan _ r) = Some c /\ c_ext _ _ _ c = 1 /\ r_got _ r = [Some 10].
Proof.
  exists [Subscribe 1 5; Subscribe 2 5; Next 0 [10]; Send 0; Receive 1].
  eexists. eexists. eexists. split; [vm_compute; reflexivity|]. split; [reflexivity|].
  split; [exists [Next 0 [10]; Send 0; Receive 1]; split; reflexivity|]. split; [reflexivity|]. split; reflexivity.
Qed.

(** Who comes after the error was passed on and before the entry is removed isn't told of it: its stream ends without anything. *)
Theorem C112_error_refuted : exists es s r,
  run step es start = Some s /\ nth_error (receivers s) 1 = Some r /\ gave _ _ _ 0 es = [99] /\ r_chan _ r = 0
  /\ r_status _ r = Over /\ r_got _ r = [].
Proof.
  exists [Subscribe 1 5; GuestFails 0 99; SendError 0; Subscribe 1 5; Finish 0; Receive 1].
  eexists. eexists. split; [vm_compute; reflexivity|]. split; [reflexivity|]. split; [reflexivity|]. split; [reflexivity|]. split; reflexivity.
Qed.

(** Who comes after a send has failed and before the entry is removed doesn't share its subscription with those that come later. *)
Theorem C112_shared_refuted : exists es s r r',
  run step es start = Some s /\ nth_error (receivers s) 1 = Some r /\ nth_error (receivers s) 2 = Some r'
  /\ client _ _ _ 2 (firstn 6 es) 1 5 es /\ client _ _ _ 1 (firstn 4 es) 1 5 es
  /\ r_status _ r = Open /\ r_status _ r' = Open /\ r_chan _ r <> r_chan _ r' /\ ~ In (Finish 0) es.
Proof.
  exists [Subscribe 1 5; Leave 0; Next 0 [10; 11]; Send 0; Subscribe 1 5; Remove 0; Subscribe 1 5].
  eexists. eexists. eexists. split; [vm_compute; reflexivity|]. split; [reflexivity|]. split; [reflexivity|].
  split; [exists []; split; reflexivity|]. split; [eexists; split; reflexivity|]. split; [reflexivity|]. split; [reflexivity|].
  split; [discriminate|]. cbn. intuition discriminate.
Qed.

(** ** Older extensions *)

Definition dead (s : state) : Prop :=
  (exists es, entries _ _ _ s = es ++ [(5, 0)])
  /\ (exists c cs, channels s = c :: cs /\ c_phase _ _ _ c = Finished _ /\ c_sent _ _ _ c = [] /\ Forall (fun c => c_key _ _ _ c <> 5) cs)
  /\ exists r, nth_error (receivers s) 1 = Some r /\ r_chan _ r = 0 /\ r_next _ r = 0 /\ r_got _ r = [] /\ r_status _ r <> Over.

Lemma find_last : forall es k, exists i, option_map snd (find (fun e => Nat.eqb (fst e) k) (es ++ [(k, 0)])) = Some i.
Proof.
  intros es k. induction es as [|[k' i] es IH]; cbn [app find fst].
  - rewrite Nat.eqb_refl. exists 0. reflexivity.
  - destruct (Nat.eqb k' k); [exists i; reflexivity|exact IH].
Qed.

Lemma without_last : forall es k, k <> 5 -> exists es', without nat Nat.eqb k (es ++ [(5, 0)]) = es' ++ [(5, 0)].
Proof.
  intros es k NK. unfold without. rewrite filter_app. cbn [filter fst]. rewrite (proj2 (Nat.eqb_neq 5 k)) by congruence. eexists. reflexivity.
Qed.

Lemma forall_update : forall {B} (P : B -> Prop) f, (forall x, P x -> P (f x)) -> forall l i, Forall P l -> Forall P (update i f l).
Proof. intros B P f F. induction l; intros [|i] H; cbn; inversion H; subst; auto. Qed.

Lemma dead_step : forall s e s', dead s -> step_old s e = Some s' -> dead s'.
Proof.
  intros s e s' [[es He] [[c [cs [Hc [Hp [Hs Hk]]]]] [r [N1 [R1 [R2 [R3 R4]]]]]]] E.
  assert (TR : forall i f entries', (i = 0 -> False) -> (forall c, c_key _ _ _ (f c) = c_key _ _ _ c) -> (exists es, entries' = es ++ [(5, 0)]) ->
    dead {| Model.entries := entries'; Model.channels := update i f (channels s); Model.receivers := receivers s |}).
  { intros i f entries' NI F HE. split; [exact HE|]. split; [|exists r; auto]. rewrite Hc. destruct i as [|i]; [elim (NI eq_refl)|].
    cbn [update Model.channels]. exists c, (update i f cs). split; [reflexivity|]. split; [exact Hp|]. split; [exact Hs|].
    apply forall_update; [|exact Hk]. intros c0 Q. rewrite F. exact Q. }
  assert (RR : forall j f, (forall r, r_chan _ (f r) = r_chan _ r) -> (j = 1 -> r_next _ (f r) = 0 /\ r_got _ (f r) = [] /\ r_status _ (f r) <> Over) ->
    dead (set_receiver _ _ _ j f s)).
  { intros j f F F1. split; [exists es; exact He|]. split; [exists c, cs; auto|]. cbn [set_receiver Model.receivers].
    destruct (Nat.eq_dec j 1) as [->|NJ].
    - destruct (F1 eq_refl) as [Q1 [Q2 Q3]]. exists (f r). split; [apply nth_update_same; exact N1|]. rewrite F. auto.
    - exists r. split; [rewrite nth_update_other by exact NJ; exact N1|auto]. }
  destruct e as [x k|i ok|i items|i|i|i|i a|i|i|j|j]; cbn [Model.step_old] in E; try discriminate;
    try (unfold on_channel in E; destruct (nth_error (channels s) i) as [c0|] eqn:N0; [|discriminate];
         destruct (c_phase _ _ _ c0) as [| |[|a0 items0]|items0|a0| |] eqn:P; try discriminate;
         assert (NI : i = 0 -> False) by (intros ->; rewrite Hc in N0; cbn in N0; congruence);
         assert (NK : c_key _ _ _ c0 <> 5) by (destruct i as [|i0]; [elim (NI eq_refl)|]; rewrite Hc in N0; cbn in N0; apply nth_error_In in N0;
           exact (proj1 (Forall_forall _ _) Hk c0 N0))).
  - unfold subscribe in E. destruct (entry _ _ _ Nat.eqb k s) as [i|] eqn:En.
    + destruct (nth_error (channels s) i) as [c0|]; [|discriminate]. cbn [option_map] in E. injection E as <-. split; [exists es; exact He|].
      split; [exists c, cs; auto|]. exists r. split; [|auto]. cbn [Model.receivers]. rewrite nth_error_app1; [exact N1|]. apply nth_error_Some. congruence.
    + injection E as <-. split; [exists ((k, length (channels s)) :: es); cbn; rewrite He; reflexivity|].
      split; [|exists r; split; [|auto]; cbn [Model.receivers]; rewrite nth_error_app1; [exact N1|]; apply nth_error_Some; congruence].
      cbn [Model.channels]. rewrite Hc. eexists c, (cs ++ [_]). split; [reflexivity|]. split; [exact Hp|]. split; [exact Hs|].
      apply Forall_app. split; [exact Hk|]. constructor; [|constructor]. cbn. intros ->. unfold entry in En. rewrite He in En.
      destruct (find_last es 5) as [i Q]. rewrite Q in En. discriminate.
  - injection E as <-. apply TR; auto. exists es. exact He.
  - destruct (_ && _); injection E as <-; (apply TR; auto; exists es; exact He).
  - injection E as <-. apply TR; auto. exists es. exact He.
  - injection E as <-. apply TR; auto. cbn [remove_key set_channel Model.entries]. rewrite He. apply without_last. exact NK.
  - injection E as <-. apply TR; auto. exists es. exact He.
  - injection E as <-. apply TR; auto. exists es. exact He.
  - injection E as <-. apply TR; auto. cbn [remove_key set_channel Model.entries]. rewrite He. apply without_last. exact NK.
  - unfold receive in E. destruct (nth_error (receivers s) j) as [r0|] eqn:N0; [|discriminate].
    destruct (r_status _ r0) eqn:St; try discriminate. destruct (nth_error (channels s) (r_chan _ r0)) as [c0|] eqn:N2; [|discriminate].
    assert (J : j = 1 -> False).
    { intros ->. rewrite N1 in N0. injection N0 as <-. rewrite R1, Hc in N2. cbn in N2. injection N2 as <-. rewrite Hs, R2 in E. cbn in E.
      unfold disconnected in E. rewrite He, existsb_app in E. cbn in E. rewrite R1 in E. cbn in E. rewrite orb_true_r, andb_false_r in E. discriminate. }
    destruct (Nat.ltb _ _); [|destruct (nth_error (c_sent _ _ _ c0) _); [|destruct (disconnected _ _ _ _ _ _); [|discriminate]]];
      injection E as <-; (apply RR; [reflexivity|]; intros Q; elim (J Q)).
  - destruct (nth_error (receivers s) j) as [r0|] eqn:N0; [|discriminate].
    destruct (r_status _ r0) eqn:St; try discriminate. injection E as <-. apply RR; [reflexivity|]. intros ->. cbn. split; [exact R2|]. split; [exact R3|discriminate].
Qed.

(** If [resolve_subscription] fails the entry stays: the client that came meanwhile (and any that comes later) never gets anything and its
    stream never ends, whatever happens. *)
Theorem C112_old_dead_refuted : exists es s, run step_old es start = Some s
  /\ forall es' s', run step_old es' s = Some s' ->
     exists r, nth_error (receivers s') 1 = Some r /\ r_got _ r = [] /\ r_status _ r <> Over.
Proof.
  exists [Subscribe 1 5; Subscribe 1 5; Started 0 false; Leave 0]. eexists. split; [vm_compute; reflexivity|].
  assert (G : forall es' s0 s', dead s0 -> run step_old es' s0 = Some s' -> dead s').
  { induction es' as [|e es' IH]; cbn [Model.run]; intros s0 s' D E; [injection E as <-; exact D|].
    destruct (step_old s0 e) as [s1|] eqn:E1; [|discriminate]. eapply IH; [eapply dead_step; eauto|exact E]. }
  intros es' s' E. assert (D : dead s').
  { eapply G; [|exact E]. split; [exists []; reflexivity|]. split.
    - eexists. exists []. split; [reflexivity|]. split; [reflexivity|]. split; [reflexivity|constructor].
    - eexists. split; [reflexivity|]. split; [reflexivity|]. split; [reflexivity|]. split; [reflexivity|discriminate]. }
  destruct D as [_ [_ [r [N1 [_ [_ [R3 R4]]]]]]]. exists r. auto.
Qed.

(** A task removes the entry of another one, so a subscription that is open to clients isn't shared. *)
Theorem C112_old_shared_refuted : exists es s r r',
  run step_old es start = Some s /\ nth_error (receivers s) 2 = Some r /\ nth_error (receivers s) 3 = Some r'
  /\ client _ _ _ 2 (firstn 7 es) 1 5 es /\ client _ _ _ 3 (firstn 11 es) 1 5 es
  /\ r_chan _ r <> r_chan _ r' /\ ~ In (Remove (r_chan _ r)) es /\ ~ In (Finish (r_chan _ r)) es.
Proof.
  exists [Subscribe 1 5; Started 0 true; Leave 0; Next 0 [10]; Send 0; Subscribe 1 5; Remove 0; Subscribe 1 5; Started 1 true; GuestEnds 0; Finish 0;
          Subscribe 1 5].
  eexists. eexists. eexists. split; [vm_compute; reflexivity|]. split; [reflexivity|]. split; [reflexivity|].
  split; [eexists; split; reflexivity|]. split; [eexists; split; reflexivity|].
  split; [discriminate|]. split; cbn; intuition discriminate.
Qed.

(** Clients aren't told of an error of the guest. *)
Theorem C112_old_error_refuted : exists es s r,
  run step_old es start = Some s /\ nth_error (receivers s) 0 = Some r /\ gave _ _ _ 0 es = [99] /\ r_status _ r = Over /\ r_got _ r = [].
Proof.
  exists [Subscribe 1 5; Started 0 true; GuestFails 0 99; Finish 0; Receive 0].
  eexists. eexists. split; [vm_compute; reflexivity|]. split; [reflexivity|]. split; [reflexivity|]. split; reflexivity.
Qed.

(** The rest of a batch is lost for who comes after a send of it has failed. *)
Theorem C112_old_lost_refuted : exists es s r,
  run step_old es start = Some s /\ nth_error (receivers s) 1 = Some r /\ client _ _ _ 1 (firstn 5 es) 1 5 es
  /\ gave _ _ _ 0 es = [10; 11; 12] /\ sends _ _ _ 0 (firstn 5 es) = 1 /\ r_chan _ r = 0 /\ r_got _ r = [Some 12].
Proof.
  exists [Subscribe 1 5; Started 0 true; Leave 0; Next 0 [10; 11]; Send 0; Subscribe 1 5; Remove 0; Next 0 [12]; Send 0; Receive 1].
  eexists. eexists. split; [vm_compute; reflexivity|]. split; [reflexivity|]. split; [eexists; split; reflexivity|].
  split; [reflexivity|]. split; [reflexivity|]. split; reflexivity.
Qed.
