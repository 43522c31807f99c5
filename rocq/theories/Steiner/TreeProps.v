(** C73: the search builds a tree.  C74: it connects every terminal, and ends exactly when it can. *)
From Coq Require Import QArith NArith List Bool Arith Lia.
From Verif.Steiner Require Import Model Spec Facts Invariant Subtree Flow Run.
Import ListNotations.
Local Open Scope nat_scope.
Local Open Scope list_scope.

(** The weights of edges change between runs, never the ends. *)
Definition same_shape (g g' : graph) : Prop :=
  List.length g = List.length g' /\
  forall e ed, nth_error g e = Some ed -> exists ed', nth_error g' e = Some ed' /\ e_src ed' = e_src ed /\ e_dst ed' = e_dst ed.

(** What the solver does with the tree and the search (solve/solver.rs:80-125): it starts with
    terminals, runs the search once or adds terminals. *)
Inductive solving (g0 : graph) (root : nat) : tree -> flac -> Prop :=
| solving_new terminals : (N.of_nat (List.length terminals) < 65536)%N -> solving g0 root (new_tree root terminals) new_flac
| solving_once pop g tr st b tr' st' : pops_an_entry pop -> same_shape g0 g -> solving g0 root tr st ->
    run_once pop g tr st = Done (b, tr', st') -> solving g0 root tr' st'
| solving_more new tr st : solving g0 root tr st ->
    (N.of_nat (List.length (t_terminals (snd (extend_terminals new tr)))) < 65536)%N ->
    solving g0 root (snd (extend_terminals new tr)) st.

Lemma same_shape_ends : forall g g' e, same_shape g g' -> e < List.length g -> src g' e = src g e /\ dst g' e = dst g e.
Proof.
  intros g g' e [_ H] Hl. destruct (H e _ (lookup g e Hl)) as (ed' & He & Hs & Hd). destruct (lookup_src _ _ _ He) as (-> & -> & _).
  split; [exact Hs | exact Hd].
Qed.
Lemma same_shape_path : forall g g' P x p y, same_shape g g' -> path g P x p y -> path g' P x p y.
Proof.
  intros g g' P x p y Hs H. induction H as [x | e ed p y He HP Hp IH]; [constructor |].
  destruct Hs as [_ Hs]. destruct (Hs e ed He) as (ed' & He' & <- & Ed). apply path_cons with (ed := ed'); [exact He' | exact HP |].
  rewrite Ed. exact IH.
Qed.
Lemma same_shape_arbo : forall g g' root tr, same_shape g g' -> Arbo g root tr -> Arbo g' root tr.
Proof.
  intros g g' root tr Hs [A1 A2 A3 A4 A5].
  assert (He : forall e, In e (t_edges tr) -> src g' e = src g e /\ dst g' e = dst g e) by (intros e H; apply same_shape_ends; [exact Hs | apply (A2 e H)]).
  constructor.
  - exact A1.
  - intros e H. destruct (He e H) as [-> ->]. destruct (A2 e H) as (Hl & H2 & H3). rewrite <- (proj1 Hs). split; [exact Hl | split; assumption].
  - intros e H. destruct (He e H) as [_ ->]. apply A3. exact H.
  - intros e e' H H'. destruct (He e H) as [_ ->]. destruct (He e' H') as [_ ->]. apply A4; assumption.
  - intros x Hx. destruct (A5 x Hx) as (p & Hp). exists p. apply (same_shape_path g g' _ _ _ _ Hs Hp).
Qed.
Lemma same_shape_sym : forall g g', same_shape g g' -> same_shape g' g.
Proof.
  intros g g' [Hl Hs]. split; [symmetry; exact Hl |]. intros e ed' He'.
  assert (Hlt : e < List.length g) by (rewrite Hl; apply nth_error_Some; rewrite He'; discriminate).
  destruct (Hs e _ (lookup g e Hlt)) as (ed & He & H1 & H2). rewrite He' in He. injection He as <-.
  exists (nth e g no_edge). split; [apply lookup; exact Hlt | split; [symmetry; exact H1 | symmetry; exact H2]].
Qed.

Lemma arbo_grown : forall g root tr, Arbo g root tr -> (t_total tr < 65536)%N -> Grown g (t_edges tr) (t_total tr) tr.
Proof.
  intros g root tr A Ht. constructor; [intros e He; apply (ar_edges _ _ _ A e He) | exact Ht |].
  exists []. split; [reflexivity |]. split; [constructor |]. split; [intros e [] |]. cbn [sum_weights]. rewrite N.add_0_r. symmetry. apply N.mod_small. exact Ht.
Qed.

Lemma extend_terminals_same : forall new tr, t_nodes (snd (extend_terminals new tr)) = t_nodes tr /\
  t_edges (snd (extend_terminals new tr)) = t_edges tr /\ t_total (snd (extend_terminals new tr)) = t_total tr /\
  exists added, t_terminals (snd (extend_terminals new tr)) = t_terminals tr ++ added.
Proof.
  intros new tr. unfold extend_terminals. destruct (fold_left (extend_step (t_nodes tr)) new ([], t_is_terminal tr)) as [added is_terminal].
  cbn [snd t_nodes t_edges t_total t_terminals]. do 3 (split; [reflexivity |]). exists added. reflexivity.
Qed.

Lemma new_ready : forall root terminals, (N.of_nat (List.length terminals) < 65536)%N -> Ready (new_tree root terminals) new_flac.
Proof.
  intros root terminals H. split; [exact H |]. cbn [new_flac f_root_feeding f_feeding List.length]. split; [lia |]. split; [intro x; lia |].
  intros ix Hix. rewrite bget_nil in Hix. discriminate.
Qed.
Lemma new_arbo : forall g root terminals, Arbo g root (new_tree root terminals).
Proof.
  intros g root terminals. constructor; cbn [new_tree t_nodes t_edges].
  - left. reflexivity.
  - intros e [].
  - intros e [].
  - intros e e' [].
  - intros x [<- | []]. exists []. constructor.
Qed.

Lemma solving_inv : forall g0 root tr st, solving g0 root tr st -> Ready tr st /\ Arbo g0 root tr /\ (t_total tr < 65536)%N.
Proof.
  intros g0 root tr st H. induction H as [terminals Hn | pop g tr st b tr' st' Hpop Hs _ IH Hr | new tr st _ IH Hn].
  - split; [apply new_ready; exact Hn |]. split; [apply new_arbo | cbn [new_tree t_total]; lia].
  - destruct IH as (R & A & Ht). assert (A' := same_shape_arbo g0 g root tr Hs A).
    destruct (once pop Hpop g tr st R _ _ (arbo_grown g root tr A' Ht)) as (b1 & tr1 & st1 & H1 & R1 & _ & _ & G1 & A1 & _).
    rewrite Hr in H1. injection H1 as <- <- <-. split; [exact R1 |]. split; [| apply (gr_small _ _ _ _ G1)].
    apply (same_shape_arbo g g0); [apply same_shape_sym; exact Hs | apply A1; exact A'].
  - destruct IH as ((_ & R2 & R3 & R4) & A & Ht). destruct (extend_terminals_same new tr) as (En & Ee & Etot & added & Et).
    split; [| split; [| rewrite Etot; exact Ht]].
    + split; [exact Hn |]. rewrite Et, app_length, En. split; [lia |]. split; [intro x; specialize (R3 x); lia |].
      intros ix Hix. destruct (R4 ix Hix) as (t & Ht' & Hin). exists t. split; [| exact Hin]. rewrite nth_error_app1; [exact Ht' |].
      apply nth_error_Some. rewrite Ht'. discriminate.
    + destruct A as [A1 A2 A3 A4 A5]. constructor; rewrite ?En, ?Ee; assumption.
Qed.

(** ** C73 *)
Theorem C73_solution_is_tree : forall g0 root tr st, solving g0 root tr st -> rooted_tree g0 root (t_nodes tr) (t_edges tr).
Proof. intros g0 root tr st H. apply arbo_tree. apply (solving_inv g0 root tr st H). Qed.

(** One run ends, without a panic; it says whether there is more to do; and nothing is taken away. *)
Theorem C73_run_once_ends : forall g0 root tr st pop g, solving g0 root tr st -> pops_an_entry pop -> same_shape g0 g ->
  exists more tr' st', run_once pop g tr st = Done (more, tr', st') /\
    (forall x, In x (t_nodes tr) -> In x (t_nodes tr')) /\ (forall e, In e (t_edges tr) -> In e (t_edges tr')) /\
    (more = false -> forall t, In t (t_terminals tr) -> In t (t_nodes tr')).
Proof.
  intros g0 root tr st pop g H Hpop Hs. destruct (solving_inv g0 root tr st H) as (R & A & Ht).
  assert (A' := same_shape_arbo g0 g root tr Hs A).
  destruct (once pop Hpop g tr st R _ _ (arbo_grown g root tr A' Ht)) as (b & tr1 & st1 & H1 & R1 & L1 & Eb & G1 & A1 & T1 & N1 & _).
  exists b, tr1, st1. split; [exact H1 |]. split; [exact N1 |]. split.
  - destruct (gr_added _ _ _ _ G1) as (added & -> & _). intros e He. apply in_app_iff. right. exact He.
  - intros -> t Hin. destruct (In_nth_error _ _ Hin) as (ix & Hix). symmetry in Eb. apply negb_false_iff in Eb. rewrite bfull_spec in Eb.
    destruct R1 as (_ & _ & _ & Hc). destruct (Hc ix) as (t' & Ht' & Hin').
    + apply Eb. rewrite L1. apply nth_error_Some. rewrite Hix. discriminate.
    + rewrite T1, Hix in Ht'. injection Ht' as <-. exact Hin'.
Qed.

(** The weight of the tree is that of its edges, modulo 2^16, and no edge counts twice. *)
Theorem C75_run_weight : forall pop g fuel root terminals tr st, pops_an_entry pop -> (N.of_nat (List.length terminals) < 65536)%N ->
  run pop g fuel (new_tree root terminals) new_flac = Done (tr, st) ->
  NoDup (t_edges tr) /\ t_total tr = (sum_weights g (t_edges tr) mod 65536)%N.
Proof.
  intros pop g fuel root terminals tr st Hpop Hn H.
  destruct (run_done pop Hpop g fuel _ _ _ _ _ _ (new_ready root terminals Hn)
              (arbo_grown g root _ (new_arbo g root terminals) ltac:(cbn [new_tree t_total]; lia)) H) as (_ & G & _).
  destruct (gr_added _ _ _ _ G) as (added & Ea & Hnd & _ & Ht). cbn [new_tree t_edges t_total] in Ea, Ht. rewrite app_nil_r in Ea.
  rewrite Ea. split; [exact Hnd | exact Ht].
Qed.

(** ** C74 *)
(** With a root and terminals, runs end exactly when every terminal is another node than the root
    and may be reached from it; then they are all connected, and there are at most as many runs
    as terminals, and one. *)
Theorem C74_run_ends_iff : forall pop g root terminals, pops_an_entry pop -> (N.of_nat (List.length terminals) < 65536)%N ->
  ((exists fuel tr st, run pop g fuel (new_tree root terminals) new_flac = Done (tr, st)) <->
   (forall t, In t terminals -> t <> root /\ reachable_from g [root] t)) /\
  (forall fuel tr st, run pop g fuel (new_tree root terminals) new_flac = Done (tr, st) ->
     rooted_tree g root (t_nodes tr) (t_edges tr) /\ (forall t, In t terminals -> In t (t_nodes tr)) /\
     run pop g (S (List.length terminals)) (new_tree root terminals) new_flac = Done (tr, st)) /\
  (forall fuel, run pop g fuel (new_tree root terminals) new_flac <> Panic).
Proof.
  intros pop g root terminals Hpop Hn.
  assert (R := new_ready root terminals Hn). assert (A := new_arbo g root terminals).
  assert (G := arbo_grown g root _ A ltac:(cbn [new_tree t_total]; lia)).
  assert (Hmore : forall g fuel fuel' tr st r, fuel <= fuel' -> run pop g fuel tr st = Done r -> run pop g fuel' tr st = Done r).
  { clear. intros g fuel. induction fuel as [| fuel IH]; intros fuel' tr st r Hle H; [discriminate |]. destruct fuel' as [| fuel']; [lia |].
    cbn [run] in H |- *. destruct (run_once pop g tr st) as [[[[|] tr1] st1] | |]; [| exact H | discriminate | discriminate].
    apply IH; [lia | exact H]. }
  assert (Hfwd : forall fuel tr st, run pop g fuel (new_tree root terminals) new_flac = Done (tr, st) ->
                 forall t, In t terminals -> t <> root /\ reachable_from g [root] t).
  { intros fuel tr st H t Hin. destruct (In_nth_error _ _ Hin) as (ix & Hix).
    assert (Hnot : ~ Stuck g (new_tree root terminals) new_flac ix t).
    { intro Sk. rewrite (run_hangs pop Hpop g fuel _ _ _ _ ix t R G Sk) in H. discriminate. }
    destruct (run_done pop Hpop g fuel _ _ _ _ _ _ R G H) as (_ & _ & _ & _ & _ & Hc).
    assert (Hst : In t [root] \/ ~ reachable_from g [root] t -> False).
    { intro Hs. apply Hnot. split; [exact Hix |]. split; [apply bget_nil | exact Hs]. }
    split; [intros ->; apply Hst; left; left; reflexivity |].
    clear Hnot Hst. assert (Hfin : forall fuel tr1 st1, Ready tr1 st1 -> Grown g (t_edges (new_tree root terminals)) (t_total (new_tree root terminals)) tr1 ->
        (forall x, In x (t_nodes tr1) -> reachable_from g [root] x) -> run pop g fuel tr1 st1 = Done (tr, st) -> forall x, In x (t_nodes tr) -> reachable_from g [root] x).
    { clear H. induction fuel0 as [| fuel0 IH]; intros tr1 st1 R1 G1 Hr1 H; [discriminate |]. cbn [run] in H.
      destruct (once pop Hpop g tr1 st1 R1 _ _ G1) as (b & tr2 & st2 & H2 & R2 & _ & _ & G2 & _ & _ & _ & _ & Hr2 & _). rewrite H2 in H.
      assert (Hr2' : forall x, In x (t_nodes tr2) -> reachable_from g [root] x).
      { intros x Hx. apply (reachable_trans g [root] (t_nodes tr1) x Hr1). apply Hr2. exact Hx. }
      destruct b; [apply (IH tr2 st2 R2 G2 Hr2' H) |]. injection H as <- <-. exact Hr2'. }
    apply (Hfin fuel _ _ R G); [| exact H | apply Hc; exact Hin].
    intros x Hx. exists x, []. split; [exact Hx | constructor]. }
  assert (Hbwd : (forall t, In t terminals -> t <> root /\ reachable_from g [root] t) ->
                 exists tr st, run pop g (S (List.length terminals)) (new_tree root terminals) new_flac = Done (tr, st)).
  { intro H. apply (run_ends pop Hpop g _ _ _ _ _ R G).
    - intros ix t Ht _. destruct (H t (nth_error_In _ _ Ht)) as [H1 H2]. split; [| exact H2]. intros [E | []]. apply H1. symmetry. exact E.
    - cbn [new_tree t_terminals]. unfold uncovered. apply Nat.lt_succ_r.
      rewrite <- (seq_length (List.length terminals) 0) at 2.
      generalize (seq 0 (List.length terminals)). intro l. induction l as [| i l IH]; [apply Nat.le_refl |]. cbn [filter]. destruct (negb (bget (f_root_feeding new_flac) i)); cbn [List.length]; lia. }
  split; [| split].
  - split; [intros (fuel & tr & st & H); apply (Hfwd fuel tr st H) |]. intro H. destruct (Hbwd H) as (tr & st & H'). exists (S (List.length terminals)), tr, st. exact H'.
  - intros fuel tr st H. destruct (run_done pop Hpop g fuel _ _ _ _ _ _ R G H) as (_ & _ & HA & _ & _ & Hc).
    split; [apply arbo_tree; apply HA; exact A |]. split; [exact Hc |].
    destruct (Hbwd (Hfwd fuel tr st H)) as (tr2 & st2 & H2).
    assert (H3 := Hmore g fuel (Nat.max fuel (S (List.length terminals))) _ _ _ (Nat.le_max_l _ _) H).
    assert (H4 := Hmore g (S (List.length terminals)) (Nat.max fuel (S (List.length terminals))) _ _ _ (Nat.le_max_r _ _) H2).
    rewrite H3 in H4. injection H4 as <- <-. exact H2.
  - intro fuel. apply (run_no_panic pop Hpop g fuel _ _ _ _ R G).
Qed.

(** ** Examples *)
Definition e_ (a b : nat) (w : N) : edge := {| e_src := a; e_dst := b; e_weight := w |}.
(** The graph of the module's tests with two ways to the first two terminals (4, 5, 6) from the root 0. *)
Definition ex_graph : graph := [e_ 0 1 5; e_ 0 2 8; e_ 1 3 3; e_ 2 3 2; e_ 3 4 4; e_ 3 5 6; e_ 1 5 10; e_ 2 6 7]%N.
Definition shown (o : outcome (tree * flac)) : option (list nat * list nat * N) :=
  match o with Done (tr, _) => Some (t_nodes tr, t_edges tr, t_total tr) | _ => None end.

Lemma pop_min_pops : pops_an_entry pop_min.
Proof.
  split.
  - induction h as [| [e t] h IH]; intros x H; [discriminate |]. cbn [pop_min] in H. destruct (pop_min h) as [[e' t'] |] eqn:E.
    + destruct (Qle_bool t t'); injection H as <-; [left; reflexivity | right; apply IH; reflexivity].
    + injection H as <-. left. reflexivity.
  - intros [| [e t] h] H; [reflexivity |]. cbn [pop_min] in H. destruct (pop_min h) as [[e' t'] |]; [destruct (Qle_bool t t') |]; discriminate.
Qed.
(** What is added to the terminals of a tree: each new one once, in order, unless it is one already or in the tree. *)
Definition fresh_terminal (tr : tree) (x : nat) : Prop := ~ In x (t_is_terminal tr) /\ ~ In x (t_nodes tr).
Theorem C74_terminals : forall new tr, exists added,
  t_terminals (snd (extend_terminals new tr)) = t_terminals tr ++ added /\ NoDup added /\
  (forall x, In x added <-> In x new /\ fresh_terminal tr x) /\
  (fst (extend_terminals new tr) = true <-> exists x, In x new /\ fresh_terminal tr x) /\
  (forall x, In x (t_is_terminal (snd (extend_terminals new tr))) <-> In x (t_is_terminal tr) \/ In x new) /\
  t_nodes (snd (extend_terminals new tr)) = t_nodes tr /\ t_edges (snd (extend_terminals new tr)) = t_edges tr /\
  t_total (snd (extend_terminals new tr)) = t_total tr.
Proof.
  intros new tr.
  assert (MI : forall x s, mem x s = true <-> In x s).
  { intros x s. unfold mem. rewrite existsb_exists. split; [intros [y [H E]]; apply Nat.eqb_eq in E; congruence|]. intros H. exists x. split; [exact H | apply Nat.eqb_refl]. }
  assert (II : forall x y s, In x (insert y s) <-> x = y \/ In x s).
  { intros x y s. unfold insert. destruct (mem y s) eqn:E; [apply MI in E; split; [auto | intros [->|H]; auto]|]. cbn. split; intros [H|H]; auto. }
  assert (G : forall l a t, NoDup a -> (forall x, In x a -> In x t /\ ~ In x (t_nodes tr)) ->
    let r := fold_left (extend_step (t_nodes tr)) l (a, t) in
    NoDup (fst r) /\ (forall x, In x (fst r) <-> In x a \/ (In x l /\ ~ In x t /\ ~ In x (t_nodes tr))) /\
    (forall x, In x (snd r) <-> In x t \/ In x l)).
  { induction l as [|y l IH]; intros a t Na Ha; cbn [fold_left].
    - cbn. split; [exact Na|]. split; intros x; tauto.
    - unfold extend_step at 2 4 6. destruct (negb (mem y t) && negb (mem y (t_nodes tr))) eqn:E.
      + apply andb_true_iff in E as [E1 E2]. apply negb_true_iff in E1, E2.
        assert (Y1 : ~ In y t) by (rewrite <- MI; congruence). assert (Y2 : ~ In y (t_nodes tr)) by (rewrite <- MI; congruence).
        destruct (IH (a ++ [y]) (insert y t)) as [I1 [I2 I3]].
        * clear - Na Ha Y1. assert (~ In y a) by (intros H; apply Y1, (Ha y H)). clear Ha Y1.
          induction a as [|z a IHa]; cbn; [repeat constructor; intros []|]. inversion Na; subst. constructor.
          -- rewrite in_app_iff. cbn. intros [X|[X|[]]]; [auto | subst; apply H; left; reflexivity].
          -- apply IHa; [assumption | intros X; apply H; right; exact X].
        * intros x Hx. apply in_app_or in Hx as [Hx|[<-|[]]].
          -- destruct (Ha x Hx). rewrite II. auto.
          -- rewrite II. auto.
        * split; [exact I1|]. split; intros x; [rewrite I2, in_app_iff, II | rewrite I3, II]; cbn.
          -- split; [intros [[X|[<-|[]]]|[X1 [X2 X3]]]; tauto|].
             intros [X|[[<-|X] [X2 X3]]]; [tauto | tauto |]. destruct (Nat.eq_dec x y) as [->|Ne]; tauto.
          -- split; [intros [[->|X]|X]; tauto | intros [X|[->|X]]; tauto].
      + assert (Y : In y t \/ In y (t_nodes tr)).
        { apply andb_false_iff in E as [E|E]; apply negb_false_iff, MI in E; auto. }
        destruct (IH a (insert y t)) as [I1 [I2 I3]]; [exact Na | intros x Hx; destruct (Ha x Hx); rewrite II; auto|].
        split; [exact I1|]. split; intros x; [rewrite I2, II | rewrite I3, II]; cbn.
        * split; [tauto|]. intros [X|[[<-|X] [X2 X3]]]; [tauto | tauto |]. destruct (Nat.eq_dec x y) as [->|Ne]; tauto.
        * split; [intros [[->|X]|X]; tauto | intros [X|[->|X]]; tauto]. }
  specialize (G new [] (t_is_terminal tr) (NoDup_nil _) (fun x (h : In x []) => match h with end)). cbn in G.
  unfold extend_terminals. destruct (fold_left (extend_step (t_nodes tr)) new ([], t_is_terminal tr)) as [added is_terminal].
  cbn [fst snd] in G. destruct G as [G1 [G2 G3]]. exists added. cbn [fst snd t_nodes t_edges t_total t_terminals t_is_terminal].
  split; [reflexivity|]. split; [exact G1|].
  assert (G2' : forall x, In x added <-> In x new /\ fresh_terminal tr x) by (intros x; rewrite G2; unfold fresh_terminal; tauto).
  split; [exact G2'|]. split.
  - destruct added as [|a added]; cbn.
    + split; [discriminate|]. intros [x Hx]. apply G2' in Hx. destruct Hx.
    + split; [intros _|reflexivity]. exists a. apply G2'. left. reflexivity.
  - split; [exact G3|]. auto.
Qed.
(** A tree for an estimate: nothing of it is paid yet, and no terminal is one of the tree's. *)
Theorem C75_new_terminals : forall other new, let r := clone_with_new_terminals other new in
  t_total (snd r) = 0%N /\ t_nodes (snd r) = t_nodes other /\ t_edges (snd r) = t_edges other /\ NoDup (t_terminals (snd r)) /\
  (forall x, In x (t_terminals (snd r)) <-> In x new /\ ~ In x (t_nodes other)) /\
  (fst r = true <-> t_terminals (snd r) <> []).
Proof.
  intros other new. unfold clone_with_new_terminals.
  set (tr := {| t_nodes := t_nodes other; t_edges := t_edges other; t_total := 0%N; t_terminals := []; t_is_terminal := [] |}).
  destruct (C74_terminals new tr) as [added [H1 [H2 [H3 [H4 [_ [H5 [H6 H7]]]]]]]]. cbn zeta.
  assert (X : forall x, In x added <-> In x new /\ ~ In x (t_nodes other)).
  { intros x. rewrite H3. unfold fresh_terminal, tr. cbn. tauto. }
  split; [exact H7|]. split; [exact H5|]. split; [exact H6|]. rewrite H1. cbn [tr t_terminals app].
  split; [exact H2|]. split; [exact X|]. rewrite H4. split.
  - intros [x Hx]. apply H3 in Hx. intros E. rewrite E in Hx. destruct Hx.
  - intros Hn. destruct added as [|a added]; [congruence|]. exists a. apply H3. left. reflexivity.
Qed.
Example ex_terminals : t_terminals (snd (extend_terminals [5; 0; 4; 5; 6] (new_tree 0 [4]))) = [4; 5; 6].
Proof. reflexivity. Qed.

Example ex_run : shown (run pop_min ex_graph 4 (new_tree 0 [4; 5; 6]) new_flac)
  = Some ([6; 2; 4; 5; 3; 1; 0], [7; 1; 4; 5; 2; 0], 33%N).
Proof. vm_compute. reflexivity. Qed.
Example ex_run_tree : rooted_tree ex_graph 0 [6; 2; 4; 5; 3; 1; 0] [7; 1; 4; 5; 2; 0].
Proof.
  destruct (C74_run_ends_iff pop_min ex_graph 0 [4; 5; 6] pop_min_pops) as (_ & H & _); [vm_compute; reflexivity |].
  destruct (run pop_min ex_graph 4 (new_tree 0 [4; 5; 6]) new_flac) as [[tr st] | |] eqn:E; [| vm_compute in E; discriminate | vm_compute in E; discriminate].
  destruct (H 4 tr st E) as (Ht & _). assert (Hs := ex_run). rewrite E in Hs. cbn [shown] in Hs. injection Hs as Hn He _. rewrite Hn, He in Ht. exact Ht.
Qed.
(** No way to a terminal, or only through an edge of the greatest weight, or the root as a terminal:
    the loop has no end. *)
Example ex_no_way : forall fuel, run pop_min ex_graph fuel (new_tree 1 [4; 6]) new_flac = Hang.
Proof.
  intro fuel. apply (run_hangs pop_min pop_min_pops ex_graph fuel _ _ [] 0%N 1 6).
  - apply new_ready. vm_compute. reflexivity.
  - apply (arbo_grown ex_graph 1 (new_tree 1 [4; 6])); [apply new_arbo | vm_compute; reflexivity].
  - split; [reflexivity |]. split; [reflexivity |]. right. intros (x & p & [<- | []] & Hp).
    assert (C : 6 = 1 \/ 6 = 3 \/ 6 = 4 \/ 6 = 5); [| lia].
    apply (path_closed ex_graph (light ex_graph) (fun y => y = 1 \/ y = 3 \/ y = 4 \/ y = 5)) with (x := 1) (p := p); [| exact Hp | left; reflexivity].
    intros e Hl _. do 8 (destruct e as [| e]; [cbn; lia |]). cbn [ex_graph List.length] in Hl. lia.
Qed.
Example ex_heaviest : forall fuel, run pop_min [e_ 0 1 65535] fuel (new_tree 0 [1]) new_flac = Hang.
Proof.
  intro fuel. apply (run_hangs pop_min pop_min_pops _ fuel _ _ [] 0%N 0 1).
  - apply new_ready. vm_compute. reflexivity.
  - apply (arbo_grown _ 0 (new_tree 0 [1])); [apply new_arbo | vm_compute; reflexivity].
  - split; [reflexivity |]. split; [reflexivity |]. right. intros (x & p & [<- | []] & Hp).
    destruct p as [| e p]; [apply path_inv in Hp; discriminate |]. apply path_inv in Hp as (Hl & (ed & He & Hw) & _).
    destruct e as [| e]; [| cbn [List.length] in Hl; lia]. injection He as <-. vm_compute in Hw. discriminate.
Qed.
Example ex_root_terminal : forall fuel, run pop_min ex_graph fuel (new_tree 0 [0]) new_flac = Hang.
Proof.
  intro fuel. apply (run_hangs pop_min pop_min_pops ex_graph fuel _ _ [] 0%N 0 0).
  - apply new_ready. vm_compute. reflexivity.
  - apply (arbo_grown ex_graph 0 (new_tree 0 [0])); [apply new_arbo | vm_compute; reflexivity].
  - split; [reflexivity |]. split; [reflexivity |]. left. left. reflexivity.
Qed.
