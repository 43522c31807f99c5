(** Runs of the pool, and what its users don't get. *)
From Coq Require Import List Bool PeanoNat Lia.
From Verif.Pool Require Import Model Spec Invariant Properties.
Import ListNotations.

(** Two requests use an instance each, one of them traps; the next gets the other one.  A subscription ends as it should, and its instance is used again. *)
Definition ex_run : list event :=
  [Get Simple; Get Sub; Call 0 Trapped; Call 1 (Returned true); Call 1 (Returned true); Get Simple; Call 1 (Returned false); Call 1 (Returned true);
   Call 2 Cancelled; Get Simple; Call 3 (Returned true)].

Example C114_ex :
  option_map snd (run 2 ex_run start)
  = Some [Created 0; Handed 0 0 Simple; Created 1; Handed 1 1 Sub; Called 0 0 CSimple Trapped; Released 0 0;
          Called 1 1 CCreate (Returned true); Called 1 1 CNext (Returned true); Destroyed 0; Created 2; Handed 2 2 Simple;
          Called 1 1 CNext (Returned false); Called 1 1 CDrop (Returned true); Released 1 1; Called 2 2 CSimple Cancelled; Released 2 2;
          Handed 3 1 Simple; Called 3 1 CSimple (Returned true); Released 3 1].
Proof. vm_compute. reflexivity. Qed.

Ltac not_in := let Q := fresh in intros Q; repeat (destruct Q as [Q|Q]; [discriminate Q|]); exact Q.

(** The log of [C114_ex] is one that wasmtime allows. *)
Lemma credible_nil : credible [].
Proof. intros [|] l2 h i c b E; discriminate. Qed.

Lemma credible_snoc : forall l e, credible l -> (forall h i c b, e = Called h i c (Returned b) -> ~ failed i l) -> credible (l ++ [e]).
Proof.
  intros l e H He l1 l2 h i c b E. destruct (split_app _ _ _ _ _ E) as [[m [-> _]]|[m [-> Q]]]; [eapply H; reflexivity|].
  destruct m as [|z m]; [|destruct m; discriminate]. injection Q as -> _. rewrite app_nil_r. eapply He. reflexivity.
Qed.

Fixpoint failed_b (i : nat) (l : list entry) : bool :=
  match l with
  | [] => false
  | Called _ j _ (Trapped | Cancelled) :: l => Nat.eqb i j || failed_b i l
  | _ :: l => failed_b i l
  end.

Lemma failed_b_spec : forall i l, failed i l -> failed_b i l = true.
Proof.
  intros i l [h [c [o [R HO]]]]. induction l as [|e l IH]; [destruct R|]. destruct R as [->|R].
  - destruct HO as [->| ->]; cbn; rewrite Nat.eqb_refl; reflexivity.
  - specialize (IH R). destruct e as [| | |h' j c' o'|]; cbn; auto. destruct o'; auto; rewrite IH; apply orb_true_r.
Qed.

Fixpoint credible_b (seen l : list entry) : bool :=
  match l with
  | [] => true
  | e :: l => match e with Called _ i _ (Returned _) => negb (failed_b i seen) | _ => true end && credible_b (seen ++ [e]) l
  end.

Lemma credible_b_spec : forall l seen, credible seen -> credible_b seen l = true -> credible (seen ++ l).
Proof.
  induction l as [|e l IH]; intros seen C Q; [rewrite app_nil_r; exact C|]. cbn in Q. apply andb_true_iff in Q. destruct Q as [Q1 Q2].
  change (e :: l) with ([e] ++ l). rewrite app_assoc. apply IH; [|exact Q2]. apply credible_snoc; [exact C|].
  intros h i c b -> F. apply failed_b_spec in F. rewrite F in Q1. discriminate.
Qed.

Lemma credible_of : forall l, credible_b [] l = true -> credible l.
Proof. intros l H. exact (credible_b_spec l [] credible_nil H). Qed.

Example C114_ex_credible : exists s log, run 2 ex_run start = Some (s, log) /\ credible log /\ failed 0 log /\ created log = 3 /\ destroyed log = 1.
Proof.
  eexists. eexists. split; [vm_compute; reflexivity|]. split; [apply credible_of; vm_compute; reflexivity|]. split; [|split; reflexivity].
  exists 0, CSimple, Trapped. split; [|auto]. cbn. tauto.
Qed.

(** Would a trapped guest answer again, the pool hands out the instance: [drop_subscription] is called on the poisoned instance, and its success clears the mark. *)
Theorem C114_revived_refuted : exists es s l1 l2,
  run 2 es start = Some (s, l1 ++ Handed 1 0 Simple :: l2) /\ failed 0 l1.
Proof.
  exists [Get Sub; Call 0 (Returned true); Call 0 Trapped; Call 0 (Returned true); Get Simple]. eexists.
  exists [Created 0; Handed 0 0 Sub; Called 0 0 CCreate (Returned true); Called 0 0 CNext Trapped; Called 0 0 CDrop (Returned true); Released 0 0], [].
  split; [vm_compute; reflexivity|]. exists 0, CNext, Trapped. split; [|auto]. cbn. tauto.
Qed.

(** Who joins a shared subscription costs an instance: nothing has failed, and it is destroyed. *)
Theorem C114_joined_refuted : exists es s log,
  run 2 es start = Some (s, log) /\ In (Destroyed 0) log /\ (forall i, ~ failed i log).
Proof.
  exists [Get Sub; Call 0 (Returned false); Get Simple]. eexists. eexists. split; [vm_compute; reflexivity|]. split; [cbn; tauto|].
  intros i F. apply failed_b_spec in F. discriminate.
Qed.

(** So does every subscription of an older extension that has ended. *)
Theorem C114_old_refuted : exists es s log,
  run 2 es start = Some (s, log) /\ In (Destroyed 0) log /\ (forall i, ~ failed i log) /\ In (Called 0 0 CNext (Returned false)) log.
Proof.
  exists [Get Old; Call 0 (Returned true); Call 0 (Returned true); Call 0 (Returned false); Get Simple]. eexists. eexists.
  split; [vm_compute; reflexivity|]. split; [cbn; tauto|]. split; [|cbn; tauto]. intros i F. apply failed_b_spec in F. discriminate.
Qed.

(** A subscription of an older extension whose guest has trapped gives errors as long as it is read. *)
Theorem C114_old_endless_refuted : forall n, exists es s log,
  run 2 es start = Some (s, log) /\ credible log /\ In (Handed 0 0 Old) log /\ trapped_next 0 log = S n.
Proof.
  set (s1 := {| instances := [{| poisoned := true; recyclable := false |}]; idle := []; sessions := [{| s_phase := POldStream; s_inst := 0 |}] |}).
  set (l0 := [Created 0; Handed 0 0 Old; Called 0 0 CKey (Returned true); Called 0 0 CResolve (Returned true); Called 0 0 CNext Trapped]).
  assert (S1 : forall n, run 2 (repeat (Call 0 Trapped) n) s1 = Some (s1, repeat (Called 0 0 CNext Trapped) n)).
  { induction n as [|n IH]; [reflexivity|]. cbn [repeat run]. replace (step 2 s1 (Call 0 Trapped)) with (Some (s1, [Called 0 0 CNext Trapped])) by reflexivity.
    rewrite IH. reflexivity. }
  intros n. exists ([Get Old; Call 0 (Returned true); Call 0 (Returned true); Call 0 Trapped] ++ repeat (Call 0 Trapped) n). exists s1, (l0 ++ repeat (Called 0 0 CNext Trapped) n).
  split; [rewrite run_app; replace (run 2 [Get Old; Call 0 (Returned true); Call 0 (Returned true); Call 0 Trapped] start) with (Some (s1, l0)) by reflexivity; rewrite S1; reflexivity|].
  split; [|split; [cbn; tauto|]].
  - assert (G : forall m l, credible l -> credible (l ++ repeat (Called 0 0 CNext Trapped) m)).
    { induction m as [|m IH]; intros l C; [rewrite app_nil_r; exact C|]. cbn [repeat]. change (Called 0 0 CNext Trapped :: repeat (Called 0 0 CNext Trapped) m) with ([Called 0 0 CNext Trapped] ++ repeat (Called 0 0 CNext Trapped) m).
      rewrite app_assoc. apply IH. apply credible_snoc; [exact C|]. intros h i c b Q. discriminate. }
    apply G. apply credible_of. reflexivity.
  - rewrite trapped_app. assert (G : forall m, trapped_next 0 (repeat (Called 0 0 CNext Trapped) m) = m) by (induction m as [|m IH]; cbn; [reflexivity|rewrite IH; reflexivity]).
    rewrite G. reflexivity.
Qed.

(** As many subscriptions as the pool has instances are open, none of them calls the guest and nothing has failed: nobody else gets an instance of the extension. *)
Theorem C114_starved_refuted : forall max, exists es s log,
  run max es start = Some (s, log) /\ (forall i, ~ failed i log)
  /\ length (sessions s) = max /\ (forall h x, nth_error (sessions s) h = Some x -> s_phase x = PStream) /\ forall k, step max s (Get k) = None.
Proof.
  intros max.
  assert (G : forall n, n <= max -> exists es log,
    run max es start = Some ({| instances := repeat {| poisoned := false; recyclable := false |} n; idle := []; sessions := map (fun i => {| s_phase := PStream; s_inst := i |}) (seq 0 n) |}, log)
    /\ forall i, ~ failed i log).
  { induction n as [|n IH]; intros L.
    - exists [], []. split; [reflexivity|]. intros i [h [c [o [[] _]]]].
    - destruct (IH ltac:(lia)) as [es [log [E F]]]. exists (es ++ [Get Sub; Call n (Returned true)]). eexists. rewrite run_app, E. cbn [run].
      assert (HL : length (held (map (fun i => {| s_phase := PStream; s_inst := i |}) (seq 0 n))) = n).
      { assert (Z : forall l, length (held (map (fun i => {| s_phase := PStream; s_inst := i |}) l)) = length l) by (induction l as [|a l IHl]; [reflexivity|cbn; f_equal; exact IHl]).
        rewrite Z. apply seq_length. }
      assert (U : forall B (l : list B) x y, update (length l) y (l ++ [x]) = l ++ [y]) by (induction l as [|a l IHl]; intros; [reflexivity|cbn; f_equal; apply IHl]).
      set (xs := repeat {| poisoned := false; recyclable := false |} n) in *. set (ss := map (fun i => {| s_phase := PStream; s_inst := i |}) (seq 0 n)) in *.
      assert (LX : length xs = n) by apply repeat_length. assert (LS : length ss = n) by (unfold ss; rewrite map_length; apply seq_length).
      assert (E1 : step max {| instances := xs; idle := []; sessions := ss |} (Get Sub)
        = Some ({| instances := xs ++ [fresh]; idle := []; sessions := ss ++ [{| s_phase := PCreate; s_inst := n |}] |}, [Created n; Handed n n Sub])).
      { cbn [step sessions idle instances take]. rewrite HL. destruct (Nat.ltb_spec n max) as [_|]; [|lia]. rewrite LX, LS. reflexivity. }
      assert (E2 : step max {| instances := xs ++ [fresh]; idle := []; sessions := ss ++ [{| s_phase := PCreate; s_inst := n |}] |} (Call n (Returned true))
        = Some ({| instances := xs ++ [{| poisoned := false; recyclable := false |}]; idle := []; sessions := ss ++ [{| s_phase := PStream; s_inst := n |}] |}, [Called n n CCreate (Returned true)])).
      { cbn [step sessions idle instances]. rewrite nth_error_app2 by lia. rewrite LS, Nat.sub_diag. cbn [nth_error].
        rewrite nth_error_app2 by lia. rewrite LX, Nat.sub_diag. cbn [nth_error continue release].
        pose proof (U _ xs fresh (finish PCreate (Returned true) (wasmsafe (prepare PCreate fresh) (Returned true)))) as U1. rewrite LX in U1. rewrite U1.
        pose proof (U _ ss {| s_phase := PCreate; s_inst := n |} {| s_phase := PStream; s_inst := n |}) as U2. rewrite LS in U2. rewrite U2. reflexivity. }
      rewrite E1, E2. cbn [app].
      split.
      + f_equal. f_equal. f_equal.
        * unfold xs. cbn [repeat]. rewrite (repeat_cons n). reflexivity.
        * unfold ss. rewrite seq_S, map_app. reflexivity.
      + intros i [h [c [o [R HO]]]]. apply in_app_or in R. destruct R as [R|R]; [apply (F i); exists h, c, o; auto|].
        cbn in R. destruct R as [R|[R|[R|[]]]]; try discriminate. injection R as _ _ _ <-. destruct HO; discriminate. }
  destruct (G max (le_n _)) as [es [log [E F]]]. exists es. eexists. exists log. split; [exact E|]. split; [exact F|]. cbn [sessions].
  split; [rewrite map_length; apply seq_length|]. split.
  - intros h x N0. rewrite nth_error_map in N0. destruct (nth_error (seq 0 max) h); [|discriminate]. injection N0 as <-. reflexivity.
  - intros k. cbn [step sessions]. assert (Z : forall l, length (held (map (fun i => {| s_phase := PStream; s_inst := i |}) l)) = length l) by (induction l as [|a l IHl]; [reflexivity|cbn; f_equal; exact IHl]).
    rewrite Z, seq_length, Nat.ltb_irrefl. reflexivity.
Qed.
