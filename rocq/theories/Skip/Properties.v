(** C13: @skip and @include. *)
From Coq Require Import List Arith NArith Bool Lia Sorting.Sorted Sorting.Permutation.
From Verif.Skip Require Import Model Spec Proofs.
Import ListNotations.

(** The query graph is always built (the loop needs no more turns than there are selections), and with
    at most 65536 distinct fields the response follows the first candidate of each key, in document
    order, and the selection sets of all the candidates. *)
Theorem C13_first_candidate_decides : forall possible env key_cmp sort rt sels,
  key_order key_cmp -> sorts (field_cmp key_cmp) sort ->
  exists ns, ingest possible rt sels = Some ns /\
  ((N.of_nat (List.length ns) <= 65536)%N -> forall path, typed possible [(rt, sels)] path ->
   emitted possible env sort ns [0] path = actual possible env sels path).
Proof.
  intros possible env key_cmp sort rt sels K So.
  destruct (ingest_spec possible rt sels) as (E & I & HE). cbv zeta in HE.
  eexists. split; [exact I|]. intros L path T. set (ns := mks [] (heads (log possible E))) in *.
  set (root := {| e_depth := 0; e_parent := 0; e_out := rt; e_sels := sels |}) in *.
  assert (U : filter (under [0]) E = [root]).
  { rewrite HE. cbn [filter]. change (under [0] root) with true. cbv iota. f_equal. apply filter_none. intros e Ie. apply in_flat_map in Ie. destruct Ie as (x & _ & Ie).
    unfold push in Ie. destruct (o_out (i_occ x)); [|destruct Ie]. destruct (find_ix _ _); [|destruct Ie]. destruct Ie as [<-|[]]. reflexivity. }
  pose proof (emitted_actual possible env key_cmp K sort So E root ns eq_refl HE eq_refl L path [0] 0) as H. rewrite U in H.
  cbn [flat_map map app e_sels e_out root] in H. rewrite app_nil_r in H. apply H; [|exact T].
  intros e Ie Ue. assert (J : In e (filter (under [0]) E)) by (apply filter_In; auto). rewrite U in J. destruct J as [<-|[]]. reflexivity.
Qed.

(** C13, partial: missing are selections where candidates for the same key disagree (one skipped, one
    not), see below, and more than 65536 distinct fields. *)
Theorem C13_skip_include_partial : forall possible env key_cmp sort rt sels,
  key_order key_cmp -> sorts (field_cmp key_cmp) sort ->
  exists ns, ingest possible rt sels = Some ns /\
  ((N.of_nat (List.length ns) <= 65536)%N -> forall path, typed possible [(rt, sels)] path -> agree possible env sels path ->
   emitted possible env sort ns [0] path = shown possible env sels path).
Proof.
  intros possible env key_cmp sort rt sels K So. destruct (C13_first_candidate_decides possible env key_cmp sort rt sels K So) as (ns & I & H).
  exists ns. split; [exact I|]. intros L path T A. rewrite (H L path T). apply agree_shown. exact A.
Qed.

(** A sort to run examples with. *)
Fixpoint insert_field (x : nat * node) (l : list (nat * node)) : list (nat * node) :=
  match l with
  | [] => [x]
  | y :: l' => match field_cmp Nat.compare x y with Gt => y :: insert_field x l' | _ => x :: l end
  end.
Definition sort_fields (l : list (nat * node)) : list (nat * node) := fold_right insert_field [] l.
Lemma nat_order : key_order Nat.compare.
Proof.
  constructor; intros.
  - apply Nat.compare_eq_iff.
  - apply Nat.compare_antisym.
  - apply Nat.compare_lt_iff in H, H0. apply Nat.compare_lt_iff. lia.
Qed.
Definition fle (a b : nat * node) : Prop :=
  n_key (snd a) < n_key (snd b) \/ (n_key (snd a) = n_key (snd b) /\ (n_pos (snd a) <= n_pos (snd b))%N).
Lemma fle_iff a b : field_cmp Nat.compare a b <> Gt <-> fle a b.
Proof.
  unfold field_cmp, fle. destruct (Nat.compare_spec (n_key (snd a)) (n_key (snd b))) as [E|E|E].
  - split; [intros H; right; split; [exact E|exact H]|intros [H|[_ H]]; [lia|exact H]].
  - split; [auto|discriminate].
  - split; [congruence|intros [H|[H _]]; lia].
Qed.
Lemma insert_field_sorted x l : StronglySorted fle l -> StronglySorted fle (insert_field x l).
Proof.
  induction l as [|y l IH]; intros S; cbn [insert_field]; [repeat constructor|]. inversion S as [|? ? S1 S2]; subst.
  destruct (field_cmp Nat.compare x y) eqn:E.
  3:{ constructor; [auto|]. assert (P : Permutation (x :: l) (insert_field x l)).
      { clear. induction l as [|z l IH]; cbn [insert_field]; [reflexivity|]. destruct (field_cmp Nat.compare x z); try reflexivity. rewrite perm_swap. apply perm_skip. exact IH. }
      apply Forall_forall. intros z I. apply (Permutation_in _ (Permutation_sym P)) in I. destruct I as [<-|I]; [|rewrite Forall_forall in S2; auto].
      unfold field_cmp in E. unfold fle. destruct (Nat.compare_spec (n_key (snd x)) (n_key (snd y))); [|discriminate|auto]. right. split; [congruence|]. apply N.compare_gt_iff in E. lia. }
  all: constructor; [exact S|]; assert (L : fle x y) by (apply fle_iff; congruence); constructor; [exact L|];
    eapply Forall_impl; [|exact S2]; intros z; unfold fle in *; lia.
Qed.
Lemma sort_fields_ok : sorts (field_cmp Nat.compare) sort_fields.
Proof.
  intros l. split.
  - induction l as [|x l IH]; [constructor|]. cbn [sort_fields fold_right]. fold (sort_fields l). rewrite IH at 1. generalize (sort_fields l). clear.
    induction l as [|z l IH]; cbn [insert_field]; [reflexivity|]. destruct (field_cmp Nat.compare x z); try reflexivity. rewrite perm_swap. apply perm_skip. exact IH.
  - assert (S : StronglySorted fle (sort_fields l)) by (induction l as [|x l IH]; [constructor|apply insert_field_sorted; exact IH]).
    eapply ss_weaken; [|exact S]. intros a b _ _ H. apply fle_iff. exact H.
Qed.

(** Types: 0 an interface with objects 1 and 2. *)
Definition demo_possible (t : nat) : list nat := match t with 0 => [1; 2] | 1 => [1] | 2 => [2] | _ => [] end.
Definition demo_env (v : nat) : bool := match v with 0 => false | _ => true end.
Definition leaf (k : nat) (ds : list dir) : selection := Field k 0 ds None [].

(** Refuted: `{ title @include(if: false) title }`, the second title is lost. *)
Theorem C13_included_field_lost_refuted : exists possible env key_cmp sort rt sels ns path,
  key_order key_cmp /\ sorts (field_cmp key_cmp) sort /\ typed possible [(rt, sels)] path /\
  ingest possible rt sels = Some ns /\ shown possible env sels path = true /\ emitted possible env sort ns [0] path = false.
Proof.
  exists demo_possible, demo_env, Nat.compare, sort_fields, 0, [leaf 7 [Include 0]; leaf 7 []]. eexists. exists [(1, 7)].
  split; [exact nat_order|]. split; [exact sort_fields_ok|]. split.
  - cbn [typed]. split; [intros out ss [E|[]]; injection E as <- <-; cbn; auto|]. split; [intros c [<-|[<-|[]]]; cbn; auto|]. exists []. auto.
  - split; [vm_compute; reflexivity|]. split; reflexivity.
Qed.
(** Refuted: `{ a { x } a @include(if: false) { y } }`, y is expected in the response: it will be null or
    an error for missing data. *)
Theorem C13_skipped_field_expected_refuted : exists possible env key_cmp sort rt sels ns path,
  key_order key_cmp /\ sorts (field_cmp key_cmp) sort /\ typed possible [(rt, sels)] path /\
  ingest possible rt sels = Some ns /\ shown possible env sels path = false /\ emitted possible env sort ns [0] path = true.
Proof.
  exists demo_possible, demo_env, Nat.compare, sort_fields, 0,
    [Field 5 0 [] (Some 0) [leaf 7 []]; Field 5 0 [Include 0] (Some 0) [leaf 8 []]]. eexists. exists [(1, 5); (2, 8)].
  split; [exact nat_order|]. split; [exact sort_fields_ok|]. split.
  - cbn [typed]. split; [intros out ss [E|[]]; injection E as <- <-; cbn; auto|]. split; [intros c [<-|[<-|[]]]; cbn; auto|]. exists [0; 0]. left. split; [reflexivity|].
    split; [intros out ss [E|[E|[]]]; injection E as <- <-; cbn; auto|]. split; [intros c [<-|[<-|[]]]; cbn; auto|]. exists []. auto.
  - split; [vm_compute; reflexivity|]. split; reflexivity.
Qed.

(** Non-trivial instance of the partial theorem: nested fragments, a field merged from two places, a
    skipped fragment around a nested selection.
    {  ...on T1 @include(if: $1) { a @skip(if: $0) { x }  b }   a { x  ...on T1 @skip(if: $1) { y } } } *)
Definition demo_sels : list selection :=
  [Fragment (Some 1) [Include 1] [Field 5 1 [Skip 0] (Some 0) [leaf 7 []]; Field 6 1 [] None []];
   Field 5 0 [] (Some 0) [leaf 7 []; Fragment (Some 1) [Skip 1] [Field 8 1 [] None []]]].
Example C13_example : exists ns, ingest demo_possible 0 demo_sels = Some ns /\ List.length ns = 6 /\
  emitted demo_possible demo_env sort_fields ns [0] [(1, 5); (1, 7)] = true /\
  emitted demo_possible demo_env sort_fields ns [0] [(1, 5); (1, 8)] = false /\
  emitted demo_possible demo_env sort_fields ns [0] [(1, 6)] = true /\
  emitted demo_possible demo_env sort_fields ns [0] [(2, 6)] = false /\
  agree demo_possible demo_env demo_sels [(1, 5); (1, 7)] /\ agree demo_possible demo_env demo_sels [(1, 5); (1, 8)] /\
  typed demo_possible [(0, demo_sels)] [(1, 5); (1, 7)].
Proof.
  eexists. split; [vm_compute; reflexivity|]. split; [reflexivity|]. split; [reflexivity|]. split; [reflexivity|]. split; [reflexivity|]. split; [reflexivity|].
  split; [|split].
  - cbn. split; [intros a b [<-|[<-|[]]] [<-|[<-|[]]]; reflexivity|]. split; [|exact I]. intros a b [<-|[<-|[]]] [<-|[<-|[]]]; reflexivity.
  - cbn. split; [intros a b [<-|[<-|[]]] [<-|[<-|[]]]; reflexivity|]. split; [|exact I]. intros a b [<-|[]] [<-|[]]; reflexivity.
  - cbn [typed]. split; [intros out ss [E|[]]; injection E as <- <-; cbn; auto|]. split; [intros c [<-|[<-|[<-|[]]]]; cbn; auto|]. exists [0; 0]. left. split; [reflexivity|].
    split; [intros out ss [E|[E|[]]]; injection E as <- <-; cbn; auto|]. split; [intros c [<-|[<-|[<-|[]]]]; cbn; auto|]. exists []. auto.
Qed.
