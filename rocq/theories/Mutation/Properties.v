(** C17: mutation root fields run one after the other in document order.  C41: each is sent once. *)
From Coq Require Import List Arith Bool Lia Sorting.Permutation.
From Verif.Scheduler Require Import Model Spec Proofs Properties.
From Verif.Mutation Require Import Model Spec Proofs.
Import ListNotations.

(** The root partitions: those of the fields, and those made by [ensure_order]. *)
Definition root_partitions (fields : list field) (next : nat) (roots : list nat) : Prop :=
  NoDup roots /\ forall p, In p roots <-> (exists f, In f fields /\ f_partition f = p) \/ next <= p < p_next (ensure_order fields next).

Lemma order_found : forall fields next roots, consistent fields next -> fields <> [] -> root_partitions fields next roots ->
  partition_order (executed_after (ensure_order fields next)) roots = Some (map fst (p_partitions (ensure_order fields next))).
Proof.
  intros fields next roots C Ne [N R]. pose proof (ensure_inv fields next C) as V. pose proof (ensure_complete fields next C) as [_ K].
  apply partition_order_spec; [apply V| |].
  - destruct fields as [|f l]; [congruence|]. intros E. assert (I : In (f_partition f) (map fst (p_partitions (ensure_order (f :: l) next)))).
    { apply K. left. exists f. split; [left; reflexivity|reflexivity]. }
    rewrite E in I. destruct I.
  - apply NoDup_Permutation; [exact N|apply V|]. intros p. rewrite R, K. reflexivity.
Qed.

(** Whatever the mutation, the neighbour order of the graph and the order of completions: an order of the
    partitions is found; every root field is sent, only to its resolver; and when two fields are sent by
    different requests, the request of the later field starts only after the one of the earlier field
    succeeded, so they are never in flight together. *)
Theorem C17_serial : forall fields next roots, consistent fields next -> fields <> [] -> root_partitions fields next roots ->
  let m := ensure_order fields next in
  exists order, partition_order (executed_after m) roots = Some order /\
    (forall f, In f fields -> exists p, sends m p f) /\
    (forall f p, In f fields -> sends m p f -> In p order /\ In (p, f_resolver f) (p_partitions m)) /\
    forall d plan_of inputs ops, well_formed d -> d_mutation_order d = map plan_of order ->
      exists s, run d inputs ops = Some s /\
        forall f g p q, precedes fields f g -> sends m p f -> sends m q g -> p <> q ->
          (forall pre e post, s_log s = pre ++ e :: post -> turn (P (plan_of q)) e -> In (Succeeded (plan_of p)) pre) /\
          (forall pre post, s_log s = pre ++ post -> ~ (in_flight (plan_of p) pre /\ in_flight (plan_of q) pre)).
Proof.
  intros fields next roots C Ne R m. pose proof (ensure_inv fields next C) as V. fold m in V.
  exists (map fst (p_partitions m)). split; [apply order_found; assumption|]. split.
  { intros f I. pose proof (v_sent _ _ _ V f I) as Hs. destruct (edges_of m f) as [|e l] eqn:E; [congruence|].
    assert (J : In e (edges_of m f)) by (rewrite E; left; reflexivity). exists (fst e). apply sends_edges_of. rewrite <- (edges_of_snd _ _ _ J). destruct e. exact J. }
  split.
  { intros f p I Sp. pose proof (v_known _ _ _ V f p I Sp) as K. split; [apply (in_map fst) in K; exact K|exact K]. }
  intros d plan_of inputs ops Wf Eo. destruct (C16_scheduling d inputs ops Wf) as (s & Rn & _). exists s. split; [exact Rn|].
  intros f g p q Pr Sf Sg Npq. destruct (precedes_in _ _ _ Pr) as [If Ig].
  assert (Ip : In p (map fst (p_partitions m))) by (pose proof (v_known _ _ _ V f p If Sf) as K; apply (in_map fst) in K; exact K).
  assert (Iq : In q (map fst (p_partitions m))) by (pose proof (v_known _ _ _ V g q Ig Sg) as K; apply (in_map fst) in K; exact K).
  apply In_nth_error in Ip. destruct Ip as (i & Hi). apply In_nth_error in Iq. destruct Iq as (j & Hj).
  pose proof (v_order _ _ _ V f g p q i j Pr Sf Sg Hi Hj) as Lij. assert (Nij : i <> j) by (intros ->; congruence).
  assert (Lt : i < j) by lia. destruct (nth_split2 _ _ _ _ _ _ Lt Hi Hj) as (u & v & w & El).
  assert (T : forall pre e post, s_log s = pre ++ e :: post -> turn (P (plan_of q)) e -> In (Succeeded (plan_of p)) pre).
  { eapply (chain_succeeded d inputs ops s (map plan_of u) (plan_of p) (map plan_of v) (plan_of q) (map plan_of w)); [exact Wf| |exact Rn].
    rewrite Eo, El, map_app. cbn [map]. rewrite map_app. reflexivity. }
  split; [exact T|]. intros pre post Ep [(_ & Ns & _) (St & _)]. apply in_split in St. destruct St as (x & y & ->). apply Ns.
  apply in_or_app. left. apply (T x (Started (plan_of q)) (y ++ post)); [rewrite Ep, <- app_assoc; reflexivity|reflexivity].
Qed.

(** If the request of a field fails, the later fields that are sent by other requests are never run. *)
Theorem C17_failed_request_skips_rest : forall fields next roots order d plan_of inputs ops s f g p q, consistent fields next -> fields <> [] ->
  root_partitions fields next roots -> partition_order (executed_after (ensure_order fields next)) roots = Some order ->
  well_formed d -> d_mutation_order d = map plan_of order -> run d inputs ops = Some s ->
  precedes fields f g -> sends (ensure_order fields next) p f -> sends (ensure_order fields next) q g -> p <> q ->
  In (Failed (plan_of p)) (s_log s) -> ~ happened (turn (P (plan_of q))) (s_log s).
Proof.
  intros fields next roots order d plan_of inputs ops s f g p q C Ne R Po Wf Eo Rn Pr Sf Sg Npq Hf (e & I & T).
  destruct (C17_serial fields next roots C Ne R) as (order' & Po' & _ & _ & H). rewrite Po in Po'. injection Po' as <-.
  destruct (H d plan_of inputs ops Wf Eo) as (s' & Rn' & H'). rewrite Rn in Rn'. injection Rn' as <-. destruct (H' f g p q Pr Sf Sg Npq) as [K _].
  apply in_split in I. destruct I as (x & y & El). specialize (K x e y El T).
  destruct (C16_scheduling d inputs ops Wf) as (s' & Rn' & _ & _ & _ & Once & _). rewrite Rn in Rn'. injection Rn' as <-.
  assert (Ks : In (Succeeded (plan_of p)) (s_log s)) by (rewrite El; apply in_or_app; auto).
  assert (Ne' : Succeeded (plan_of p) <> Failed (plan_of p)) by discriminate.
  apply in_split in Ks. destruct Ks as (a & b & Ea). rewrite Ea in Hf. apply in_app_or in Hf. destruct Hf as [Hf|[Hf|Hf]]; [| |].
  - apply in_split in Hf. destruct Hf as (c & c' & ->). eapply (Once (plan_of p) c (Failed (plan_of p)) c' (Succeeded (plan_of p)) b); [rewrite Ea, <- app_assoc; reflexivity|auto|auto].
  - congruence.
  - apply in_split in Hf. destruct Hf as (c & c' & ->). eapply (Once (plan_of p) a (Succeeded (plan_of p)) c (Failed (plan_of p)) c'); [exact Ea|auto|auto].
Qed.

(** Subgraphs 0, 1, 0 in turn. *)
Definition fields_aba : list field :=
  [ {| f_id := 0; f_partition := 10; f_resolver := 0 |}; {| f_id := 1; f_partition := 11; f_resolver := 1 |};
    {| f_id := 2; f_partition := 10; f_resolver := 0 |} ].
Example C17_example : consistent fields_aba 12 /\ root_partitions fields_aba 12 [12; 11; 10] /\
  p_edges (ensure_order fields_aba 12) = [(10, 0); (11, 1); (12, 2)] /\
  partition_order (executed_after (ensure_order fields_aba 12)) [12; 11; 10] = Some [10; 11; 12].
Proof.
  split.
  { split; [repeat constructor; cbn; intuition discriminate|]. split.
    - intros f g [<-|[<-|[<-|[]]]] [<-|[<-|[<-|[]]]]; cbn; congruence.
    - intros f [<-|[<-|[<-|[]]]]; cbn; lia. }
  split; [|split; reflexivity]. split; [repeat constructor; cbn; intuition discriminate|]. intros p. cbn [ensure_order]. change (p_next (ensure_order fields_aba 12)) with 13. split.
  - intros [<-|[<-|[<-|[]]]]; [right; lia| |].
    + left. eexists. split; [right; left; reflexivity|reflexivity].
    + left. eexists. split; [left; reflexivity|reflexivity].
  - intros [(f & [<-|[<-|[<-|[]]]] & <-)|L]; cbn; [auto|auto|auto|]. assert (p = 12) as -> by lia. auto.
Qed.

(** * C41 *)
(** A field is sent in one request, except, exactly, a field that directly follows another field of the
    same resolver in a run which is not the first run of this resolver: it is sent in two. *)
Theorem C41_times_sent : forall fields next a f b, consistent fields next -> one_partition_per_resolver fields -> fields = a ++ f :: b ->
  (resent a f -> times_sent (ensure_order fields next) f = 2) /\ (~ resent a f -> times_sent (ensure_order fields next) f = 1).
Proof. intros fields next a f b C O E. apply (h_count _ _ _ (ensure_shape fields next C O) a f b E). Qed.
Theorem C41_sent_once_partial : forall fields next, consistent fields next -> one_partition_per_resolver fields ->
  (forall a e f b, fields = a ++ e :: f :: b -> f_resolver e = f_resolver f -> ~ interrupted (f_resolver f) (a ++ [e])) ->
  forall f, In f fields -> times_sent (ensure_order fields next) f = 1.
Proof.
  intros fields next C O H f I. apply in_split in I. destruct I as (a & b & E). apply (C41_times_sent fields next a f b C O E).
  intros (d & e & -> & Er & Hi). rewrite <- app_assoc in E. exact (H d e f b E Er Hi).
Qed.
(** Subgraphs 0, 1, 0, 0: the last field is executed twice. *)
Definition fields_abaa : list field := fields_aba ++ [ {| f_id := 3; f_partition := 10; f_resolver := 0 |} ].
Theorem C41_sent_once_refuted : exists fields next f p q, consistent fields next /\ one_partition_per_resolver fields /\ In f fields /\
  p <> q /\ sends (ensure_order fields next) p f /\ sends (ensure_order fields next) q f /\
  (forall roots, root_partitions fields next roots -> exists order, partition_order (executed_after (ensure_order fields next)) roots = Some order /\ In p order /\ In q order).
Proof.
  exists fields_abaa, 12, {| f_id := 3; f_partition := 10; f_resolver := 0 |}, 12, 13.
  assert (C : consistent fields_abaa 12).
  { split; [repeat constructor; cbn; intuition discriminate|]. split.
    - intros f g [<-|[<-|[<-|[<-|[]]]]] [<-|[<-|[<-|[<-|[]]]]]; cbn; congruence.
    - intros f [<-|[<-|[<-|[<-|[]]]]]; cbn; lia. }
  split; [exact C|]. split.
  { intros f g [<-|[<-|[<-|[<-|[]]]]] [<-|[<-|[<-|[<-|[]]]]]; cbn; congruence. }
  split; [right; right; right; left; reflexivity|]. split; [discriminate|]. split; [cbn; auto|]. split; [cbn; auto 10|].
  intros roots R. eexists. split; [apply order_found; [exact C|discriminate|exact R]|]. cbn. auto 10.
Qed.
(** The hypotheses of the partial theorem hold for 0, 0, 1, 0. *)
Definition fields_aaba : list field :=
  [ {| f_id := 0; f_partition := 10; f_resolver := 0 |}; {| f_id := 1; f_partition := 10; f_resolver := 0 |};
    {| f_id := 2; f_partition := 11; f_resolver := 1 |}; {| f_id := 3; f_partition := 10; f_resolver := 0 |} ].
Example C41_example : consistent fields_aaba 12 /\ one_partition_per_resolver fields_aaba /\
  (forall a e f b, fields_aaba = a ++ e :: f :: b -> f_resolver e = f_resolver f -> ~ interrupted (f_resolver f) (a ++ [e])) /\
  p_edges (ensure_order fields_aaba 12) = [(10, 0); (10, 1); (11, 2); (12, 3)].
Proof.
  split.
  { split; [repeat constructor; cbn; intuition discriminate|]. split.
    - intros f g [<-|[<-|[<-|[<-|[]]]]] [<-|[<-|[<-|[<-|[]]]]]; cbn; congruence.
    - intros f [<-|[<-|[<-|[<-|[]]]]]; cbn; lia. }
  split.
  { intros f g [<-|[<-|[<-|[<-|[]]]]] [<-|[<-|[<-|[<-|[]]]]]; cbn; congruence. }
  split; [|reflexivity]. intros a e f b E Er Hi. destruct a as [|x [|y [|z a]]]; cbn [app fields_aaba] in E.
  - injection E as <- <- <-. destruct Hi as (u & v & Pr & _ & Hv). apply precedes_in in Pr. destruct Pr as [_ [<-|[]]]. apply Hv. reflexivity.
  - injection E as <- <- <- <-. discriminate Er.
  - injection E as <- <- <- <- <-. discriminate Er.
  - unfold fields_aaba in E. apply (f_equal (@length field)) in E. cbn [length] in E. rewrite app_length in E. cbn [length] in E. lia.
Qed.
