From Coq Require Import List Bool Arith NArith Lia.
From Verif.Front Require Import Prepare.
Import ListNotations.
Local Open Scope nat_scope.
Local Open Scope list_scope.

(** ** What is meant *)
(** Of every key the loaded and warmed document is the same. *)
Definition agrees (document : nat -> nat) (e : event) : Prop :=
  match e with
  | Ask (inr k) (inr d) _ _ _ => d = document k
  | Warm k d => d = document k
  | _ => True
  end.
(** All that a prepared operation has passed. *)
Record checked (g : engine) (key doc vars : nat) (can_mutate : bool) (ctx : nat) (c : nat * nat) (plan v cost : nat) : Prop := {
  chk_parse : g_parse g key doc = inr (fst c);
  chk_solve : g_solve g key doc (fst c) = inr (snd c);
  chk_mutation : g_mutation g (fst c) = true -> can_mutate = true;
  chk_bind : g_bind g (fst c) vars = inr v;
  chk_cost : g_cost g (fst c) v = inr cost;
  chk_plan : g_plan g ctx c v = inr plan
}.

(** ** Proofs *)
Definition valid (g : engine) (P : nat -> nat -> Prop) (e : nat * (nat * nat)) : Prop :=
  exists doc, P (fst e) doc /\ g_parse g (fst e) doc = inr (fst (snd e)) /\ g_solve g (fst e) doc (fst (snd e)) = inr (snd (snd e)).
Definition valid_state (g : engine) (P : nat -> nat -> Prop) (s : state) : Prop := Forall (valid g P) (s_cache s) /\ Forall (valid g P) (s_pending s).
Definition source (e : event) (k d : nat) : Prop := match e with Ask (inr k') (inr d') _ _ _ => k = k' /\ d = d' | Warm k' d' => k = k' /\ d = d' | _ => False end.
Lemma without_prepared : forall g key doc vars cm ctx c pl v cost, without_cache g key doc vars cm ctx = Prepared c pl v cost ->
  checked g key doc vars cm ctx c pl v cost /\ (g_size g doc < g_limit g)%N.
Proof.
  intros g key doc vars cm ctx c pl v cost H. unfold without_cache in H. destruct (N.leb (g_limit g) (g_size g doc)) eqn:L; [discriminate |]. apply N.leb_gt in L.
  destruct (g_parse g key doc) as [| op] eqn:E1; [discriminate |]. destruct (g_mutation g op && negb cm) eqn:E2; [discriminate |].
  destruct (g_bind g op vars) as [| v'] eqn:E3; [discriminate |]. destruct (g_cost g op v') as [| cost'] eqn:E4; [discriminate |]. destruct (g_solve g key doc op) as [| q] eqn:E5; [discriminate |].
  destruct (g_plan g ctx (op, q) v') as [| pl'] eqn:E6; [discriminate |]. injection H as <- <- <- <-. split; [| exact L]. constructor; cbn [fst snd]; try assumption. intro M. rewrite M in E2. destruct cm; [reflexivity | discriminate].
Qed.
Lemma with_prepared : forall g c vars cm ctx c' pl v cost, with_cache g c vars cm ctx = Prepared c' pl v cost ->
  c' = c /\ (g_mutation g (fst c) = true -> cm = true) /\ g_bind g (fst c) vars = inr v /\ g_cost g (fst c) v = inr cost /\ g_plan g ctx c v = inr pl.
Proof.
  intros g c vars cm ctx c' pl v cost H. unfold with_cache in H. destruct (g_mutation g (fst c) && negb cm) eqn:E2; [discriminate |].
  destruct (g_bind g (fst c) vars) as [| v'] eqn:E3; [discriminate |]. destruct (g_cost g (fst c) v') as [| cost'] eqn:E4; [discriminate |].
  destruct (g_plan g ctx c v') as [| pl'] eqn:E6; [discriminate |]. injection H as <- <- <- <-. split; [reflexivity |]. split; [| split; [reflexivity | split; assumption]]. intro M. rewrite M in E2. destruct cm; [reflexivity | discriminate].
Qed.
Lemma Forall_remove_nth : forall A (P : A -> Prop) l i, Forall P l -> Forall P (remove_nth i l).
Proof. intros A P. induction l as [| x l IH]; intros i H; [destruct i; exact H |]. inversion_clear H. destruct i; cbn [remove_nth]; [assumption | constructor; auto]. Qed.
Lemma Forall_filter' : forall A (P : A -> Prop) f l, Forall P l -> Forall P (filter f l).
Proof. intros A P f l H. apply Forall_forall. intros x Hx. apply filter_In in Hx as [Hx _]. rewrite Forall_forall in H. exact (H x Hx). Qed.
Lemma step_valid : forall g P s e, valid_state g P s -> (forall k d, source e k d -> P k d) -> valid_state g P (fst (step g s e)).
Proof.
  intros g P s e [V1 V2] Hp. destruct e as [[e | key] loaded vars cm ctx | key doc | i | i | key]; cbn [step].
  - split; assumption.
  - destruct (lookup s key); [split; assumption |]. destruct loaded as [e | doc]; [split; assumption |]. destruct (without_cache g key doc vars cm ctx) as [| | | | | | | | | c pl v cost] eqn:E; try (split; assumption).
    split; [exact V1 |]. cbn [fst s_pending]. apply Forall_app. split; [exact V2 |]. constructor; [| constructor]. destruct (without_prepared _ _ _ _ _ _ _ _ _ _ E) as [C _]. exists doc. cbn [fst snd]. split; [apply Hp; split; reflexivity |]. split; [exact (chk_parse _ _ _ _ _ _ _ _ _ _ C) | exact (chk_solve _ _ _ _ _ _ _ _ _ _ C)].
  - destruct (g_parse g key doc) as [| op] eqn:E1; [split; assumption |]. destruct (g_solve g key doc op) as [| q] eqn:E2; [split; assumption |]. split; [| exact V2]. constructor; [| exact V1]. exists doc. cbn [fst snd]. split; [apply Hp; split; reflexivity |]. split; assumption.
  - destruct (nth_error (s_pending s) i) as [[k c] |] eqn:E; [| split; assumption]. cbn [fst]. split; cbn [s_cache s_pending].
    + constructor; [| exact V1]. rewrite Forall_forall in V2. apply V2. exact (nth_error_In _ _ E).
    + apply Forall_remove_nth, V2.
  - split; [exact V1 | apply Forall_remove_nth, V2].
  - split; [apply Forall_filter', V1 | exact V2].
Qed.
Lemma run_valid : forall g P h s, valid_state g P s -> (forall e k d, In e h -> source e k d -> P k d) -> valid_state g P (run g s h).
Proof.
  intros g P. induction h as [| e h IH]; intros s V H; [exact V |]. apply (IH (fst (step g s e))); [apply step_valid; [exact V | intros k d; apply H; left; reflexivity] | intros e' k d He; apply H; right; exact He].
Qed.
Lemma init_valid : forall g P, valid_state g P init. Proof. intros. split; constructor. Qed.
Lemma lookup_in : forall s k c, lookup s k = Some c -> In (k, c) (s_cache s).
Proof.
  intros s k c H. unfold lookup in H. destruct (find _ (s_cache s)) as [[k' c'] |] eqn:E; [| discriminate]. injection H as <-. apply find_some in E as [E1 E2]. cbn [fst] in E2. apply Nat.eqb_eq in E2 as ->. exact E1.
Qed.

(** * C85: the cache of operations changes nothing but the time it takes *)

(** After any requests, warmed operations and evictions, a request has the result it would have on an empty cache, if the key
    stands for the same document everywhere, it can be loaded, and it is not too large. *)
Theorem C85_transparent : forall g document h key vars cm ctx,
  (forall e, In e h -> agrees document e) -> (g_size g (document key) < g_limit g)%N ->
  snd (step g (run g init h) (Ask (inr key) (inr (document key)) vars cm ctx)) = snd (step g init (Ask (inr key) (inr (document key)) vars cm ctx)).
Proof.
  intros g document h key vars cm ctx Ha Hs.
  assert (V : valid_state g (fun k d => d = document k) (run g init h)).
  { apply run_valid; [apply init_valid |]. intros e k d He Hsrc. specialize (Ha e He). destruct e as [[e | k'] [e' | d'] vars' cm' ctx' | k' d' | | |]; try destruct Hsrc as []; subst; exact Ha. }
  cbn [step]. destruct (lookup (run g init h) key) as [c |] eqn:E; [| reflexivity]. cbn [lookup init s_cache find option_map snd]. f_equal.
  destruct V as [V _]. rewrite Forall_forall in V. destruct (V _ (lookup_in _ _ _ E)) as (doc & Hd & H1 & H2). cbn [fst snd] in *. subst doc.
  unfold without_cache, with_cache. destruct (N.leb (g_limit g) (g_size g (document key))) eqn:L; [apply N.leb_le in L; lia |]. rewrite H1. destruct (g_mutation g (fst c) && negb cm); [reflexivity |].
  destruct (g_bind g (fst c) vars) as [| v]; [reflexivity |]. destruct (g_cost g (fst c) v); [reflexivity |]. rewrite H2. destruct c as [op q]. cbn [fst snd]. reflexivity.
Qed.
(** Whatever the history, what is prepared was read from a document that an event has had for its key, belongs to a mutation only
    if mutations are allowed, and its variables, cost and plan are those of this request. *)
Theorem C85_checked : forall g h key loaded vars cm ctx c pl v cost,
  snd (step g (run g init h) (Ask (inr key) loaded vars cm ctx)) = Some (Prepared c pl v cost) ->
  exists doc, checked g key doc vars cm ctx c pl v cost /\ (loaded = inr doc \/ exists e, In e h /\ source e key doc).
Proof.
  intros g h key loaded vars cm ctx c pl v cost H. cbn [step] in H. destruct (lookup (run g init h) key) as [c' |] eqn:E.
  - cbn [snd] in H. injection H as H. destruct (with_prepared _ _ _ _ _ _ _ _ _ H) as (-> & M & B & C & P).
    assert (V : valid_state g (fun k d => exists e, In e h /\ source e k d) (run g init h)) by (apply run_valid; [apply init_valid |]; intros e k d He Hsrc; exists e; split; assumption).
    destruct V as [V _]. rewrite Forall_forall in V. destruct (V _ (lookup_in _ _ _ E)) as (doc & Hd & H1 & H2). exists doc. split; [constructor; assumption | right; exact Hd].
  - destruct loaded as [e | doc]; [discriminate |]. cbn [snd] in H. injection H as H. exists doc. split; [exact (proj1 (without_prepared _ _ _ _ _ _ _ _ _ _ H)) | left; reflexivity].
Qed.
(** A request that is not prepared leaves nothing in the cache. *)
Theorem C85_failed : forall g s key loaded vars cm ctx r, snd (step g s (Ask key loaded vars cm ctx)) = Some r ->
  (forall c pl v cost, r <> Prepared c pl v cost) -> fst (step g s (Ask key loaded vars cm ctx)) = s.
Proof.
  intros g s key loaded vars cm ctx r H Hr. cbn [step] in *. destruct key as [e | key]; [reflexivity |]. destruct (lookup s key); [reflexivity |]. destruct loaded as [e | doc]; [reflexivity |]. cbn [snd fst] in *. injection H as H.
  destruct (without_cache g key doc vars cm ctx); try reflexivity. exfalso. exact (Hr _ _ _ _ (eq_sym H)).
Qed.
(** A prepared operation is found by the next request, once it is stored. *)
Theorem C85_hit : forall g s key doc vars cm ctx c pl v cost, lookup s key = None -> s_pending s = [] ->
  snd (step g s (Ask (inr key) (inr doc) vars cm ctx)) = Some (Prepared c pl v cost) ->
  lookup (run g s [Ask (inr key) (inr doc) vars cm ctx; Stored 0]) key = Some c.
Proof.
  intros g s key doc vars cm ctx c pl v cost L P H. cbn [run fold_left]. cbn [step] in H |- *. rewrite L in *. cbn [snd] in H. injection H as H. rewrite H. cbn [fst s_pending]. rewrite P. cbn [app nth_error fst]. unfold lookup. cbn [s_cache insert find fst]. rewrite Nat.eqb_refl. reflexivity.
Qed.

Definition toy : engine :=
  {| g_limit := 10; g_size := fun d => if d =? 9 then 100%N else 5%N; g_parse := fun k d => if d =? 8 then inl 0 else inr d; g_mutation := fun op => op =? 1;
     g_bind := fun op v => if v =? 0 then inl 1 else inr v; g_cost := fun op v => if 5 <? v then inl 2 else inr v;
     g_solve := fun k d op => if d =? 7 then inl 3 else inr (op + 1); g_plan := fun ctx c v => inr (fst c + v) |}.
Example C85_transparent_ex : let h := [Ask (inr 0) (inr 1) 2 true 0; Stored 0; Warm 5 2; Ask (inr 0) (inr 1) 2 false 0] in
  lookup (run toy init h) 0 = Some (1, 2) /\ lookup (run toy init h) 5 = Some (2, 3) /\
  snd (step toy (run toy init h) (Ask (inr 0) (inr 1) 3 true 0)) = Some (Prepared (1, 2) 4 3 3) /\
  snd (step toy (run toy init h) (Ask (inr 0) (inr 1) 3 false 0)) = Some MutationRefused.
Proof. split; [reflexivity |]. split; [reflexivity |]. split; reflexivity. Qed.
(** A warmed document may exceed the limit of sizes: it was loaded under another configuration. *)
Theorem C85_size_refuted : exists g h key doc, (forall e, In e h -> agrees (fun _ => doc) e) /\
  snd (step g (run g init h) (Ask (inr key) (inr doc) 1 true 0)) = Some (Prepared (9, 10) 10 1 1) /\
  snd (step g init (Ask (inr key) (inr doc) 1 true 0)) = Some TooLarge.
Proof. exists toy, [Warm 0 9], 0, 9. split; [| split; reflexivity]. intros e [<- | []]. reflexivity. Qed.
(** A document that can't be loaded any more, as a trusted document that was withdrawn, is still executed. *)
Theorem C85_withdrawn_refuted : exists g h key, (forall e, In e h -> agrees (fun _ => 2) e) /\
  snd (step g (run g init h) (Ask (inr key) (inl 0) 1 true 0)) = Some (Prepared (2, 3) 3 1 1) /\
  snd (step g init (Ask (inr key) (inl 0) 1 true 0)) = Some (LoadError 0).
Proof. exists toy, [Ask (inr 0) (inr 2) 1 true 0; Stored 0], 0. split; [| split; reflexivity]. intros e [<- | [<- | []]]; reflexivity. Qed.
