(** Proofs about @skip and @include. *)
From Coq Require Import List Arith NArith Bool Lia Sorting.Sorted Sorting.Permutation.
From Verif.Skip Require Import Model Spec.
Import ListNotations.

(** ** First occurrences *)
Section Firsts.
Context {A B : Type} (id : A -> B) (eqd : forall a b : B, {a = b} + {a <> b}).
Definition mem (x : A) (l : list A) : bool := if in_dec eqd (id x) (map id l) then true else false.
Definition add_first (acc : list A) (x : A) : list A := if mem x acc then acc else acc ++ [x].
Definition firsts (l : list A) : list A := fold_left add_first l [].
Lemma firsts_snoc l x : firsts (l ++ [x]) = add_first (firsts l) x.
Proof. unfold firsts. rewrite fold_left_app. reflexivity. Qed.
Lemma firsts_ids l b : In b (map id (firsts l)) <-> In b (map id l).
Proof.
  induction l as [|x l IH] using rev_ind; [reflexivity|]. rewrite firsts_snoc, map_app, in_app_iff, <- IH.
  unfold add_first, mem. destruct (in_dec eqd (id x) (map id (firsts l))) as [I|I].
  - split; [auto|]. intros [H|[<-|[]]]; auto.
  - rewrite map_app, in_app_iff. reflexivity.
Qed.
Lemma firsts_incl l x : In x (firsts l) -> In x l.
Proof.
  induction l as [|y l IH] using rev_ind; [auto|]. rewrite firsts_snoc. unfold add_first. destruct (mem y (firsts l)); rewrite ?in_app_iff; intuition.
Qed.
Lemma NoDup_snoc {X} (l : list X) x : NoDup l -> ~ In x l -> NoDup (l ++ [x]).
Proof.
  intros H I. apply (Permutation_NoDup (l := x :: l)); [apply Permutation_cons_append|]. constructor; assumption.
Qed.
Lemma firsts_nodup l : NoDup (map id (firsts l)).
Proof.
  induction l as [|x l IH] using rev_ind; [constructor|]. rewrite firsts_snoc. unfold add_first, mem.
  destruct (in_dec eqd (id x) (map id (firsts l))); [exact IH|]. rewrite map_app. apply NoDup_snoc; assumption.
Qed.
Lemma filter_firsts (q : A -> bool) l : (forall a b, id a = id b -> q a = q b) -> filter q (firsts l) = firsts (filter q l).
Proof.
  intros C. induction l as [|x l IH] using rev_ind; [reflexivity|]. rewrite firsts_snoc, filter_app. cbn [filter].
  destruct (q x) eqn:Q.
  - rewrite firsts_snoc, <- IH. unfold add_first, mem.
    destruct (in_dec eqd (id x) (map id (firsts l))) as [I|I]; destruct (in_dec eqd (id x) (map id (filter q (firsts l)))) as [J|J].
    + reflexivity.
    + exfalso. apply J. apply in_map_iff in I. destruct I as (y & E & I). rewrite <- E. apply in_map. apply filter_In. split; [exact I|]. rewrite <- Q. apply C. exact E.
    + exfalso. apply I. apply in_map_iff in J. destruct J as (y & E & J). apply filter_In in J. rewrite <- E. apply in_map. apply J.
    + rewrite filter_app. cbn [filter]. rewrite Q. reflexivity.
  - rewrite app_nil_r, <- IH. unfold add_first. destruct (mem x (firsts l)); [reflexivity|]. rewrite filter_app. cbn [filter]. rewrite Q, app_nil_r. reflexivity.
Qed.
Lemma fold_add_hd l acc x : hd_error acc = Some x -> hd_error (fold_left add_first l acc) = Some x.
Proof.
  revert acc. induction l as [|y l IH]; intros acc H; cbn [fold_left]; [exact H|]. apply IH. unfold add_first. destruct (mem y acc); [exact H|].
  destruct acc; [discriminate|exact H].
Qed.
Lemma firsts_hd l : hd_error (firsts l) = hd_error l.
Proof. destruct l as [|x l]; [reflexivity|]. unfold firsts. cbn [fold_left]. apply fold_add_hd. reflexivity. Qed.
End Firsts.

(** ** Directives *)
Lemma insert_dir_perm d l : Permutation (insert_dir d l) (d :: l).
Proof.
  induction l as [|x l IH]; cbn [insert_dir]; [reflexivity|]. destruct (dir_leb d x); [reflexivity|]. rewrite IH. apply perm_swap.
Qed.
Lemma sort_dirs_perm l : Permutation (sort_dirs l) l.
Proof. induction l as [|x l IH]; [reflexivity|]. cbn. rewrite insert_dir_perm. apply perm_skip. exact IH. Qed.
Lemma forallb_perm {A} (f : A -> bool) l l' : Permutation l l' -> forallb f l = forallb f l'.
Proof.
  induction 1; cbn; try congruence. destruct (f x), (f y); reflexivity.
Qed.

(** ** Flattening follows CollectFields *)
Section Flat.
Variable possible : nat -> list nat.
Notation ok ty := (fun c => existsb (Nat.eqb ty) (possible c)).
Lemma mem_ok ty c : In ty (possible c) <-> existsb (Nat.eqb ty) (possible c) = true.
Proof. rewrite existsb_exists. split; [intros H; exists ty; split; [exact H|apply Nat.eqb_refl]|intros (x & I & E); apply Nat.eqb_eq in E; congruence]. Qed.
Lemma present ty out c : In ty (possible out) -> In ty (possible c) -> can_be_present possible out c = true.
Proof.
  intros A B. unfold can_be_present. apply orb_true_iff. right. apply existsb_exists. exists ty. split; [exact A|]. apply mem_ok. exact B.
Qed.
Definition oview (o : occurrence) := (o_key o, o_entity o, o_dirs o, o_out o, o_sub o).
Definition cview (c : candidate) := (c_key c, c_entity c, sort_dirs (c_dirs c), c_out c, c_sub c).
Definition applies (ty : nat) (conds : list nat) : bool := forallb (ok ty) conds.

Lemma selection_ind' (P : selection -> Prop) :
  (forall k e ds out sub, P (Field k e ds out sub)) ->
  (forall c ds sels, Forall P sels -> P (Fragment c ds sels)) -> forall s, P s.
Proof.
  intros H1 H2. fix IH 1. intros [k e ds out sub|c ds sels]; [apply H1|]. apply H2. induction sels; constructor; auto.
Qed.
Lemma filter_flat_map {A B} (f : B -> bool) (g : A -> list B) l : filter f (flat_map g l) = flat_map (fun x => filter f (g x)) l.
Proof. induction l as [|x l IH]; cbn; [reflexivity|]. rewrite filter_app, IH. reflexivity. Qed.
Lemma map_flat_map {A B C} (f : B -> C) (g : A -> list B) l : map f (flat_map g l) = flat_map (fun x => map f (g x)) l.
Proof. induction l as [|x l IH]; cbn; [reflexivity|]. rewrite map_app, IH. reflexivity. Qed.
Lemma flat_map_nil {A B} (g : A -> list B) l : (forall x, In x l -> g x = []) -> flat_map g l = [].
Proof. induction l as [|x l IH]; intros H; cbn; [reflexivity|]. rewrite H, IH; cbn; auto. intros; apply H; cbn; auto. Qed.
Lemma flat_map_ext_in {A B} (f g : A -> list B) l : (forall x, In x l -> f x = g x) -> flat_map f l = flat_map g l.
Proof. induction l as [|x l IH]; intros H; cbn; [reflexivity|]. rewrite H, IH; cbn; auto. intros; apply H; cbn; auto. Qed.

Lemma flat_hidden ty out : forall s conds dirs, applies ty conds = false ->
  filter (fun o => applies ty (o_conds o)) (flat possible out conds dirs s) = [].
Proof.
  induction s as [k e ds o sub|c ds sels IH] using selection_ind'; intros conds dirs H; cbn [flat].
  - destruct (can_be_present _ _ _); [|reflexivity]. cbn [filter o_conds]. rewrite H. reflexivity.
  - rewrite Forall_forall in IH. destruct c as [c|].
    + destruct (can_be_present _ _ _); [|reflexivity]. rewrite filter_flat_map. apply flat_map_nil. intros x I. apply IH; [exact I|].
      destruct (out =? c); [exact H|]. unfold applies in *. rewrite forallb_app, H. reflexivity.
    + rewrite filter_flat_map. apply flat_map_nil. intros x I. apply IH; assumption.
Qed.
Lemma flat_collect ty out : In ty (possible out) -> forall s conds dirs, applies ty conds = true ->
  (forall c, In c (collect possible ty dirs s) -> In ty (possible (c_entity c))) ->
  map oview (filter (fun o => applies ty (o_conds o)) (flat possible out conds dirs s)) = map cview (collect possible ty dirs s).
Proof.
  intros T. induction s as [k e ds o sub|c ds sels IH] using selection_ind'; intros conds dirs H C; cbn [flat collect] in *.
  - specialize (C _ (or_introl eq_refl)). cbn in C. rewrite (present ty out e T C). cbn [filter o_conds]. rewrite H. reflexivity.
  - rewrite Forall_forall in IH. destruct c as [c|]; cbn [holds] in *.
    + destruct (existsb (Nat.eqb ty) (possible c)) eqn:X.
      * rewrite (present ty out c T) by (apply mem_ok; exact X). rewrite filter_flat_map, !map_flat_map. apply flat_map_ext_in. intros x I.
        apply IH; [exact I| |].
        -- destruct (out =? c); [exact H|]. unfold applies in *. rewrite forallb_app, H. cbn. rewrite X. reflexivity.
        -- intros y J. apply C. apply in_flat_map. eauto.
      * destruct (can_be_present _ _ _); [|reflexivity]. rewrite filter_flat_map. cbn [map].
        rewrite flat_map_nil; [reflexivity|]. intros x I. apply flat_hidden. destruct (Nat.eqb_spec out c) as [ -> |].
        -- apply mem_ok in T. congruence.
        -- unfold applies in *. rewrite forallb_app, H. cbn. rewrite X. reflexivity.
    + rewrite filter_flat_map, !map_flat_map. apply flat_map_ext_in. intros x I. apply IH; [exact I|exact H|]. intros y J. apply C. apply in_flat_map. eauto.
Qed.
End Flat.

(** ** The query graph *)
Section Graph.
Variable possible : nat -> list nat.
Definition ident := (nat * nat * list nat * list dir)%type.
Definition ident_dec (a b : ident) : {a = b} + {a <> b}.
Proof. repeat decide equality. Defined.
Definition nid (n : node) : ident := (n_parent n, n_key n, n_conds n, n_dirs n).
(** An occurrence with the depth and the parent it was met at. *)
Record item := { i_depth : nat; i_parent : nat; i_occ : occurrence }.
Definition lid (x : item) : ident := (i_parent x, o_key (i_occ x), o_conds (i_occ x), o_dirs (i_occ x)).
Definition heads : list item -> list item := firsts lid ident_dec.
Definition item_of (e : entry) (o : occurrence) : item := {| i_depth := e_depth e; i_parent := e_parent e; i_occ := o |}.
Definition items (e : entry) : list item := map (item_of e) (occurrences possible e).
Definition log (es : list entry) : list item := flat_map items es.
Definition push (ns : list node) (x : item) : list entry :=
  match o_out (i_occ x), find_ix (same (i_parent x) (i_occ x)) ns with
  | Some ty, Some i => [{| e_depth := S (i_depth x); e_parent := S i; e_out := ty; e_sels := o_sub (i_occ x) |}]
  | _, _ => []
  end.
Definition count (d : nat) (l : list item) : nat := List.length (filter (fun x => i_depth x =? d) l).
Definition wrap (n : nat) : N := N.modulo (N.of_nat n) 65536.
Definition mk (before : list item) (x : item) : node :=
  {| n_parent := i_parent x; n_key := o_key (i_occ x); n_conds := o_conds (i_occ x); n_dirs := o_dirs (i_occ x); n_pos := wrap (count (i_depth x) before) |}.
(** The nodes built from the first occurrences. *)
Fixpoint mks (before l : list item) : list node :=
  match l with [] => [] | x :: l' => mk before x :: mks (before ++ [x]) l' end.
Lemma mks_snoc l : forall b x, mks b (l ++ [x]) = mks b l ++ [mk (b ++ l) x].
Proof.
  induction l as [|y l IH]; intros b x; cbn [mks app]; [rewrite app_nil_r; reflexivity|]. rewrite IH, <- app_assoc. reflexivity.
Qed.
Lemma mks_nid l : forall b, map nid (mks b l) = map lid l.
Proof. induction l as [|x l IH]; intros b; cbn [mks map]; [reflexivity|]. rewrite IH. reflexivity. Qed.
Lemma mks_length l : forall b, List.length (mks b l) = List.length l.
Proof. induction l as [|x l IH]; intros b; cbn [mks List.length]; [reflexivity|]. rewrite IH. reflexivity. Qed.
Lemma mks_nth l : forall b i x, nth_error l i = Some x -> nth_error (mks b l) i = Some (mk (b ++ firstn i l) x).
Proof.
  induction l as [|y l IH]; intros b i x H; [destruct i; discriminate|]. destruct i as [|i]; cbn [nth_error mks firstn] in *.
  - injection H as ->. rewrite app_nil_r. reflexivity.
  - rewrite (IH _ _ _ H), <- app_assoc. reflexivity.
Qed.

Lemma same_spec p o n : same p o n = true <-> nid n = (p, o_key o, o_conds o, o_dirs o).
Proof.
  unfold same, nid. rewrite !andb_true_iff, !Nat.eqb_eq.
  destruct (list_eq_dec Nat.eq_dec (n_conds n) (o_conds o)); destruct (list_eq_dec dir_eq_dec (n_dirs n) (o_dirs o));
    split; intros H; try (injection H as -> -> ? ?; auto; congruence); destruct H as [[[? ?] ?] ?]; congruence.
Qed.
Lemma find_ix_some {A} (f : A -> bool) l i : find_ix f l = Some i -> exists x, nth_error l i = Some x /\ f x = true.
Proof.
  revert i. induction l as [|y l IH]; intros i H; cbn [find_ix] in H; [discriminate|]. destruct (f y) eqn:E.
  - injection H as <-. exists y. auto.
  - destruct (find_ix f l) as [j|]; [|discriminate]. injection H as <-. apply IH. reflexivity.
Qed.
Lemma find_ix_none {A} (f : A -> bool) l : find_ix f l = None <-> forall x, In x l -> f x = false.
Proof.
  induction l as [|y l IH]; cbn [find_ix]; [split; [intros _ x []|reflexivity]|]. destruct (f y) eqn:E.
  - split; [discriminate|]. intros H. rewrite (H y (or_introl eq_refl)) in E. discriminate.
  - destruct (find_ix f l) as [j|].
    + split; [discriminate|]. intros H. destruct IH as [_ IH]. discriminate IH. intros; apply H; right; assumption.
    + split; [|reflexivity]. intros _ x [<-|I]; [exact E|]. apply IH; auto.
Qed.
Lemma find_ix_app {A} (f : A -> bool) l l' i : find_ix f l = Some i -> find_ix f (l ++ l') = Some i.
Proof.
  revert i. induction l as [|y l IH]; intros i H; cbn [find_ix app] in *; [discriminate|]. destruct (f y); [exact H|].
  destruct (find_ix f l) as [j|]; [|discriminate]. rewrite (IH j eq_refl). exact H.
Qed.
Lemma find_ix_end {A} (f : A -> bool) l x : find_ix f l = None -> f x = true -> find_ix f (l ++ [x]) = Some (List.length l).
Proof.
  induction l as [|y l IH]; intros H E; cbn [find_ix app List.length] in *; [rewrite E; reflexivity|]. destruct (f y); [discriminate|].
  destruct (find_ix f l); [discriminate|]. rewrite IH; auto.
Qed.

(** State after having treated the occurrences of [l]; [es] are the entries taken from the queue. *)
Record inv (root : entry) (es : list entry) (l : list item) (st : state) : Prop := {
  v_nodes : nodes st = mks [] (heads l);
  v_queue : es ++ queue st = root :: flat_map (push (nodes st)) l;
  v_bloom : forall n, In n (nodes st) -> N.testbit (bloom st (n_parent n)) (bloom_bit (n_key n)) = true;
  v_pos : next_pos st = wrap (count (depth st) (heads l));
  v_depth : forall x, In x l -> i_depth x <= depth st }.

Lemma push_more ns n l : (forall x, In x l -> find_ix (same (i_parent x) (i_occ x)) ns <> None) ->
  flat_map (push (ns ++ n)) l = flat_map (push ns) l.
Proof.
  intros H. apply flat_map_ext_in. intros x I. unfold push. specialize (H x I).
  destruct (find_ix (same (i_parent x) (i_occ x)) ns) as [i|] eqn:E; [|congruence]. rewrite (find_ix_app _ _ _ _ E). reflexivity.
Qed.
Lemma found ns l x : ns = mks [] (heads l) -> In x l -> find_ix (same (i_parent x) (i_occ x)) ns <> None.
Proof.
  intros E I H. rewrite find_ix_none in H. assert (J : In (lid x) (map nid ns)).
  { rewrite E, mks_nid. apply firsts_ids. apply in_map. exact I. }
  apply in_map_iff in J. destruct J as (n & En & J). specialize (H n J).
  assert (same (i_parent x) (i_occ x) n = true) by (apply same_spec; exact En). congruence.
Qed.
Lemma wrap_succ n : N.modulo (wrap n + 1) 65536 = wrap (S n).
Proof.
  unfold wrap. rewrite N.add_mod_idemp_l by discriminate. f_equal. lia.
Qed.

Lemma add_field_inv root es l e st o : inv root es l st -> depth st = e_depth e ->
  inv root es (l ++ [item_of e o]) (add_field (e_parent e) st o) /\ depth (add_field (e_parent e) st o) = e_depth e /\
  exists q, queue (add_field (e_parent e) st o) = queue st ++ q /\ Forall (fun x => e_depth x = S (e_depth e)) q.
Proof.
  intros [V1 V2 V3 V4 V5] D. set (x := item_of e o).
  assert (Found : (if N.testbit (bloom st (e_parent e)) (bloom_bit (o_key o)) then find_ix (same (e_parent e) o) (nodes st) else None)
    = find_ix (same (e_parent e) o) (nodes st)).
  { destruct (find_ix (same (e_parent e) o) (nodes st)) as [i|] eqn:E; [|destruct (N.testbit _ _); reflexivity].
    destruct (find_ix_some _ _ _ E) as (n & N1 & N2). apply same_spec in N2. apply nth_error_In in N1. specialize (V3 n N1).
    injection N2 as P K _ _. rewrite P, K in V3. rewrite V3. reflexivity. }
  unfold add_field. rewrite Found. clear Found.
  assert (Hd : heads (l ++ [x]) = add_first lid ident_dec (heads l) x) by apply firsts_snoc.
  assert (Mem : mem lid ident_dec x (heads l) = match find_ix (same (e_parent e) o) (nodes st) with Some _ => true | None => false end).
  { unfold mem. rewrite <- (mks_nid (heads l) []), <- V1. destruct (in_dec ident_dec (lid x) (map nid (nodes st))) as [I|I].
    - destruct (find_ix (same (e_parent e) o) (nodes st)) as [i|] eqn:E; [reflexivity|]. exfalso. rewrite find_ix_none in E.
      apply in_map_iff in I. destruct I as (n & En & I). specialize (E n I). assert (same (e_parent e) o n = true) by (apply same_spec; exact En). congruence.
    - destruct (find_ix (same (e_parent e) o) (nodes st)) as [i|] eqn:E; [|reflexivity]. exfalso. apply I.
      destruct (find_ix_some _ _ _ E) as (n & N1 & N2). apply same_spec in N2. change (lid x) with (e_parent e, o_key o, o_conds o, o_dirs o). rewrite <- N2. apply in_map. eapply nth_error_In. exact N1. }
  unfold add_first in Hd. rewrite Mem in Hd.
  assert (Bl : forall n, In n (nodes st) ->
            N.testbit (if n_parent n =? e_parent e then N.setbit (bloom st (e_parent e)) (bloom_bit (o_key o)) else bloom st (n_parent n)) (bloom_bit (n_key n)) = true).
  { intros n I. destruct (Nat.eqb_spec (n_parent n) (e_parent e)) as [E|]; [|auto]. rewrite N.setbit_eqb, <- E, V3 by exact I. apply orb_true_r. }
  destruct (find_ix (same (e_parent e) o) (nodes st)) as [i|] eqn:E.
  - (* merged *)
    split; [constructor; cbn [nodes queue bloom next_pos depth]|split; [exact D|]].
    + rewrite Hd. exact V1.
    + rewrite flat_map_app. cbn [flat_map]. unfold push at 2. change (i_parent x) with (e_parent e). change (i_occ x) with o. change (i_depth x) with (e_depth e).
      rewrite E, app_nil_r. destruct (o_out o); [|rewrite app_nil_r; exact V2]. rewrite app_assoc, V2, D. reflexivity.
    + exact Bl.
    + rewrite Hd. exact V4.
    + intros y I. apply in_app_or in I. destruct I as [I|[<-|[]]]; [auto|]. cbn. lia.
    + cbn [queue]. destruct (o_out o); [|exists []; rewrite app_nil_r; auto]. eexists. split; [reflexivity|]. constructor; [cbn; congruence|constructor].
  - (* created *)
    set (n := {| n_parent := e_parent e; n_key := o_key o; n_conds := o_conds o; n_dirs := o_dirs o; n_pos := next_pos st |}).
    assert (Sn : same (e_parent e) o n = true) by (apply same_spec; reflexivity).
    split; [constructor; cbn [nodes queue bloom next_pos depth]|split; [exact D|]].
    + rewrite Hd, mks_snoc, <- V1. cbn [app]. f_equal. f_equal. unfold n, mk. cbn [i_parent i_occ i_depth x item_of]. rewrite V4, D. reflexivity.
    + rewrite flat_map_app. cbn [flat_map]. unfold push at 2. change (i_parent x) with (e_parent e). change (i_occ x) with o. change (i_depth x) with (e_depth e).
      rewrite (find_ix_end _ _ _ E Sn), app_nil_r. rewrite push_more by (intros y I; eapply found; eassumption).
      destruct (o_out o); [|rewrite app_nil_r; exact V2]. rewrite app_assoc, V2, D. reflexivity.
    + intros m I. apply in_app_or in I. destruct I as [I|[<-|[]]]; [exact (Bl m I)|].
      cbn [n_parent n_key n]. rewrite Nat.eqb_refl, N.setbit_eqb, N.eqb_refl. reflexivity.
    + rewrite Hd, V4, wrap_succ. f_equal. unfold count. rewrite filter_app, app_length. cbn [filter i_depth x item_of]. rewrite D, Nat.eqb_refl. cbn. lia.
    + intros y I. apply in_app_or in I. destruct I as [I|[<-|[]]]; [auto|]. cbn. lia.
    + cbn [queue]. destruct (o_out o); [|exists []; rewrite app_nil_r; auto]. eexists. split; [reflexivity|]. constructor; [cbn; congruence|constructor].
Qed.
Lemma fold_add_inv root es e : forall os l st, inv root es l st -> depth st = e_depth e ->
  inv root es (l ++ map (item_of e) os) (fold_left (add_field (e_parent e)) os st) /\ depth (fold_left (add_field (e_parent e)) os st) = e_depth e /\
  exists q, queue (fold_left (add_field (e_parent e)) os st) = queue st ++ q /\ Forall (fun x => e_depth x = S (e_depth e)) q.
Proof.
  induction os as [|o os IH]; intros l st V D; cbn [fold_left map].
  - rewrite app_nil_r. split; [exact V|]. split; [exact D|]. exists []. rewrite app_nil_r. auto.
  - destruct (add_field_inv root es l e st o V D) as (V' & D' & q & Q1 & Q2). destruct (IH _ _ V' D') as (A & B & q' & C1 & C2).
    rewrite <- app_assoc in A. split; [exact A|]. split; [exact B|]. exists (q ++ q'). rewrite C1, Q1, <- app_assoc. split; [reflexivity|]. apply Forall_app. auto.
Qed.

(** Breadth first: the queue holds entries of the current depth, then of the next. *)
Definition bfs (st : state) : Prop := exists a b, queue st = a ++ b /\
  Forall (fun x => e_depth x = depth st) a /\ Forall (fun x => e_depth x = S (depth st)) b.
Lemma count_0 d l : (forall x, In x l -> i_depth x < d) -> count d l = 0.
Proof.
  intros H. unfold count. induction l as [|x l IH]; [reflexivity|]. cbn [filter]. destruct (Nat.eqb_spec (i_depth x) d) as [E|].
  - specialize (H x (or_introl eq_refl)). lia.
  - apply IH. intros y I. apply H. right. exact I.
Qed.
Lemma step_inv root es st e q : inv root es (log es) st -> bfs st -> queue st = e :: q ->
  let st' := step possible {| nodes := nodes st; queue := q; next_pos := next_pos st; depth := depth st; bloom := bloom st |} e in
  inv root (es ++ [e]) (log (es ++ [e])) st' /\ bfs st' /\ exists p, queue st' = q ++ p.
Proof.
  intros V (a & b & Q & Fa & Fb) E. cbv zeta.
  assert (Dd : (e_depth e = depth st /\ exists a', a = e :: a' /\ q = a' ++ b) \/ (e_depth e = S (depth st) /\ a = [] /\ b = e :: q)).
  { destruct a as [|x a]; cbn [app] in Q.
    - right. rewrite E in Q. subst b. inversion Fb; subst. auto.
    - left. rewrite E in Q. injection Q as <- ->. inversion Fa; subst. eauto. }
  unfold step. cbn [nodes queue next_pos depth bloom]. unfold log. rewrite flat_map_app. cbn [flat_map]. rewrite app_nil_r. fold (log es).
  match goal with |- context [fold_left _ _ ?s] => set (s0 := s) end.
  assert (D0 : depth s0 = e_depth e).
  { unfold s0. cbn [depth]. destruct (Nat.ltb_spec (depth st) (e_depth e)); [reflexivity|]. destruct Dd as [[D _]|[D _]]; lia. }
  assert (V0 : inv root (es ++ [e]) (log es) s0).
  { destruct V as [V1 V2 V3 V4 V5]. constructor; unfold s0; cbn [nodes queue next_pos depth bloom].
    - exact V1.
    - rewrite <- app_assoc. cbn [app]. rewrite <- E. exact V2.
    - exact V3.
    - destruct (Nat.ltb_spec (depth st) (e_depth e)); [|exact V4]. rewrite count_0; [reflexivity|].
      intros x I. apply firsts_incl in I. specialize (V5 x I). lia.
    - intros x I. specialize (V5 x I). destruct (Nat.ltb_spec (depth st) (e_depth e)); lia. }
  destruct (fold_add_inv root (es ++ [e]) e (occurrences possible e) (log es) s0 V0 D0) as (A & B & p & C1 & C2).
  split; [exact A|]. split; [|exists p; exact C1].
  unfold bfs. rewrite C1, B. change (queue s0) with q.
  destruct Dd as [(D & a' & -> & ->)|(D & -> & ->)].
  - exists a', (b ++ p). rewrite app_assoc. split; [reflexivity|]. inversion Fa; subst. rewrite D. split; [assumption|]. apply Forall_app. split; [exact Fb|]. rewrite <- D. exact C2.
  - exists q, p. split; [reflexivity|]. inversion Fb; subst. rewrite D. split; [assumption|]. rewrite <- D. exact C2.
Qed.

Lemma flat_size out : forall s conds dirs,
  list_sum (map (fun o => S (list_sum (map sel_size (o_sub o)))) (flat possible out conds dirs s)) <= sel_size s.
Proof.
  induction s as [k e ds o sub|c ds sels IH] using selection_ind'; intros conds dirs.
  - cbn [flat sel_size]. destruct (can_be_present _ _ _); cbn [map list_sum fold_right o_sub]; [unfold list_sum at 1; cbn [fold_right]; lia|cbn; lia].
  - rewrite Forall_forall in IH.
    assert (X : forall cs ds', list_sum (map (fun o => S (list_sum (map sel_size (o_sub o)))) (flat_map (flat possible out cs ds') sels)) <= list_sum (map sel_size sels)).
    { intros cs ds'. clear -IH. induction sels as [|x l IHl]; cbn [flat_map map]; [cbn; lia|]. rewrite map_app, list_sum_app. change (list_sum (sel_size x :: map sel_size l)) with (sel_size x + list_sum (map sel_size l)).
      pose proof (IH x (or_introl eq_refl) cs ds'). specialize (IHl (fun y I => IH y (or_intror I))). lia. }
    cbn [flat sel_size]. destruct c as [c|]; [destruct (can_be_present _ _ _)|].
    + pose proof (X (if out =? c then conds else conds ++ [c]) (dirs ++ ds)). lia.
    + cbn. lia.
    + pose proof (X conds (dirs ++ ds)). lia.
Qed.
Definition esize (e : entry) : nat := S (list_sum (map sel_size (e_sels e))).
Lemma occ_size e : list_sum (map (fun o => S (list_sum (map sel_size (o_sub o)))) (occurrences possible e)) < esize e.
Proof.
  unfold occurrences, esize. induction (e_sels e) as [|x l IH]; cbn [flat_map map]; [cbn; lia|]. rewrite map_app, list_sum_app.
  change (list_sum (sel_size x :: map sel_size l)) with (sel_size x + list_sum (map sel_size l)). pose proof (flat_size (e_out e) x [] []). lia.
Qed.
Lemma add_field_size p st o : list_sum (map esize (queue (add_field p st o))) <= list_sum (map esize (queue st)) + S (list_sum (map sel_size (o_sub o))).
Proof.
  unfold add_field. destruct (if N.testbit _ _ then _ else _); cbn [queue]; (destruct (o_out o); [|lia]); rewrite map_app, list_sum_app;
    cbn [map]; unfold esize at 2; cbn [e_sels]; unfold list_sum at 2; cbn [fold_right]; lia.
Qed.
Lemma fold_add_size p os : forall st, list_sum (map esize (queue (fold_left (add_field p) os st))) <=
  list_sum (map esize (queue st)) + list_sum (map (fun o => S (list_sum (map sel_size (o_sub o)))) os).
Proof.
  induction os as [|o os IH]; intros st; cbn [fold_left map]; [cbn; lia|]. specialize (IH (add_field p st o)). pose proof (add_field_size p st o).
  change (list_sum (S (list_sum (map sel_size (o_sub o))) :: map (fun o => S (list_sum (map sel_size (o_sub o)))) os)) with (S (list_sum (map sel_size (o_sub o))) + list_sum (map (fun o => S (list_sum (map sel_size (o_sub o)))) os)). lia.
Qed.

Lemma ingest_loop_spec root : forall fuel es st, inv root es (log es) st -> bfs st -> list_sum (map esize (queue st)) < fuel ->
  exists E, ingest_loop possible fuel st = Some (mks [] (heads (log E))) /\ E = root :: flat_map (push (mks [] (heads (log E)))) (log E).
Proof.
  induction fuel as [|fuel IH]; intros es st V B L; [lia|]. cbn [ingest_loop]. destruct (queue st) as [|e q] eqn:Q.
  - destruct V as [V1 V2 V3 V4 V5]. exists es. rewrite <- V1. split; [reflexivity|]. rewrite Q, app_nil_r in V2. exact V2.
  - destruct (step_inv root es st e q V B Q) as (V' & B' & _). apply (IH _ _ V' B').
    unfold step. cbn [nodes queue next_pos depth bloom].
    match goal with |- list_sum (map esize (queue (fold_left _ _ ?s))) < _ => set (s0 := s) end.
    pose proof (fold_add_size (e_parent e) (occurrences possible e) s0) as F. change (queue s0) with q in F. pose proof (occ_size e) as O.
    change (list_sum (map esize (e :: q))) with (esize e + list_sum (map esize q)) in L. lia.
Qed.
(** The ingestion ends, and its nodes are the first occurrences, for the entries [E] it went through. *)
Lemma ingest_spec rt sels : let root := {| e_depth := 0; e_parent := 0; e_out := rt; e_sels := sels |} in
  exists E, ingest possible rt sels = Some (mks [] (heads (log E))) /\ E = root :: flat_map (push (mks [] (heads (log E)))) (log E).
Proof.
  cbv zeta. unfold ingest. apply (ingest_loop_spec _ _ []).
  - constructor; cbn; try reflexivity; intros ? [].
  - exists [{| e_depth := 0; e_parent := 0; e_out := rt; e_sels := sels |}], []. cbn. split; [reflexivity|]. split; repeat constructor.
  - cbn [queue map]. unfold list_sum at 1. cbn [fold_right]. unfold esize. cbn [e_sels]. lia.
Qed.
End Graph.

(** ** Grouping by response key *)
Section Groups.
Variable key_cmp : nat -> nat -> comparison.
Hypothesis K : key_order key_cmp.
Notation key x := (n_key (snd x)).
Definition kle (a b : nat * node) : Prop := field_cmp key_cmp a b <> Gt.
Lemma kle_key a b : kle a b -> key a = key b \/ key_cmp (key a) (key b) = Lt.
Proof.
  unfold kle, field_cmp. destruct (key_cmp (key a) (key b)) eqn:E; [|auto|congruence]. intros _. left. apply (ko_eq _ K). exact E.
Qed.
Lemma lt_neq a b : key_cmp a b = Lt -> a <> b.
Proof. intros H ->. assert (key_cmp b b = Eq) by (apply (ko_eq _ K); reflexivity). congruence. Qed.
Lemma filter_none {A} (f : A -> bool) l : (forall x, In x l -> f x = false) -> filter f l = [].
Proof. induction l as [|x l IH]; intros H; cbn; [reflexivity|]. rewrite (H x (or_introl eq_refl)). apply IH. intros; apply H; right; assumption. Qed.
Lemma group_find k : forall l first grp, StronglySorted kle (first :: l) ->
  find (fun g => key (fst g) =? k) (group_fields first grp l) =
  if key first =? k then Some (first, grp ++ filter (fun x => key x =? k) l)
  else match filter (fun x => key x =? k) l with [] => None | x :: r => Some (x, x :: r) end.
Proof.
  induction l as [|x l IH]; intros first grp S; cbn [group_fields].
  - cbn. destruct (key first =? k); [rewrite app_nil_r|]; reflexivity.
  - inversion S as [|? ? S1 S2]; subst. inversion S1 as [|? ? S3 S4]; subst. inversion S2 as [|? ? L1 L2]; subst.
    destruct (Nat.eqb_spec (key x) (key first)) as [E|E].
    + rewrite IH by (constructor; assumption). cbn [filter]. rewrite E. destruct (key first =? k); [rewrite <- app_assoc|]; reflexivity.
    + assert (Lx : key_cmp (key first) (key x) = Lt) by (destruct (kle_key _ _ L1); congruence).
      cbn [find fst snd]. destruct (Nat.eqb_spec (key first) k) as [Ek|Ek].
      * rewrite filter_none; [rewrite app_nil_r; reflexivity|]. intros y [<-|I]; apply Nat.eqb_neq; [congruence|].
        rewrite Forall_forall in S4. rewrite <- Ek. destruct (kle_key _ _ (S4 y I)) as [Ey|Ly]; [congruence|].
        intros Ey. exact (lt_neq _ _ (ko_trans _ K _ _ _ Lx Ly) (eq_sym Ey)).
      * rewrite IH by (constructor; assumption). cbn [filter app]. destruct (key x =? k); reflexivity.
Qed.
Lemma groups_find k l : StronglySorted kle l ->
  find (fun g => key (fst g) =? k) (groups l) = match filter (fun x => key x =? k) l with [] => None | x :: r => Some (x, x :: r) end.
Proof.
  destruct l as [|x l]; intros S; [reflexivity|]. cbn [groups]. rewrite (group_find k l x [x] S). cbn [filter app]. destruct (key x =? k); reflexivity.
Qed.
Definition plt (a b : nat * node) : Prop := (n_pos (snd a) < n_pos (snd b))%N.
Lemma sorted_unique : forall l l' : list (nat * node), Permutation l l' -> StronglySorted plt l ->
  StronglySorted (fun a b => (n_pos (snd a) <= n_pos (snd b))%N) l' -> l = l'.
Proof.
  induction l as [|x l IH]; intros l' P S S'; [apply Permutation_nil in P; congruence|].
  destruct l' as [|y l']; [apply Permutation_sym, Permutation_nil in P; discriminate|].
  inversion S as [|? ? S1 S2]; subst. inversion S' as [|? ? T1 T2]; subst. rewrite Forall_forall in S2, T2.
  assert (x = y).
  { assert (Ix : In x (y :: l')) by (apply (Permutation_in _ P); left; reflexivity).
    assert (Iy : In y (x :: l)) by (apply (Permutation_in _ (Permutation_sym P)); left; reflexivity).
    destruct Ix as [->|Ix]; [reflexivity|]. destruct Iy as [->|Iy]; [reflexivity|]. specialize (S2 y Iy). specialize (T2 x Ix). unfold plt in S2. exfalso. lia. }
  subst y. f_equal. apply IH; [eapply Permutation_cons_inv; exact P|exact S1|exact T1].
Qed.
Lemma filter_perm {A} (f : A -> bool) l l' : Permutation l l' -> Permutation (filter f l) (filter f l').
Proof.
  induction 1; cbn.
  - constructor.
  - destruct (f x); [constructor|]; assumption.
  - destruct (f x), (f y); try reflexivity. constructor.
  - etransitivity; eassumption.
Qed.
Lemma ss_filter {A} (R : A -> A -> Prop) f l : StronglySorted R l -> StronglySorted R (filter f l).
Proof.
  induction 1 as [|x l S IH F]; cbn; [constructor|]. destruct (f x); [|exact IH]. constructor; [exact IH|].
  rewrite Forall_forall in *. intros y I. apply filter_In in I. apply F, I.
Qed.
Lemma ss_weaken {A} (R R' : A -> A -> Prop) l : (forall a b, In a l -> In b l -> R a b -> R' a b) -> StronglySorted R l -> StronglySorted R' l.
Proof.
  intros W S. induction S as [|x l S IH F]; constructor.
  - apply IH. intros; apply W; cbn; auto.
  - rewrite Forall_forall in *. intros y I. apply W; cbn; auto.
Qed.
(** The group of a key: the fields with that key in creation order. *)
Lemma group_is sort l k : sorts (field_cmp key_cmp) sort -> StronglySorted plt (filter (fun x => key x =? k) l) ->
  find (fun g => key (fst g) =? k) (groups (sort l)) = match filter (fun x => key x =? k) l with [] => None | x :: r => Some (x, x :: r) end.
Proof.
  intros So S. destruct (So l) as [P Ss]. rewrite groups_find by exact Ss.
  replace (filter (fun x => key x =? k) (sort l)) with (filter (fun x => key x =? k) l); [reflexivity|].
  apply sorted_unique; [apply filter_perm; exact P|exact S|].
  eapply ss_weaken; [|apply ss_filter; exact Ss]. intros a b Ia Ib H. apply filter_In in Ia, Ib. destruct Ia as [_ Ia]. destruct Ib as [_ Ib].
  apply Nat.eqb_eq in Ia, Ib. unfold field_cmp in H. rewrite Ia, Ib in H. assert (E : key_cmp k k = Eq) by (apply (ko_eq _ K); reflexivity). rewrite E in H. exact H.
Qed.
End Groups.

(** ** What the response really contains, on the document *)
Section Actual.
Variable possible : nat -> list nat.
Variable env : nat -> bool.
(** The first candidate decides; the selection sets of all candidates are kept. *)
Fixpoint actual (sels : list selection) (path : list (nat * nat)) : bool :=
  match path with
  | [] => true
  | (ty, k) :: path' =>
      match candidates possible sels ty k with
      | [] => false
      | c :: cs => visible env c && actual (flat_map c_sub (c :: cs)) path'
      end
  end.
Lemma agree_shown : forall path sels, agree possible env sels path -> actual sels path = shown possible env sels path.
Proof.
  induction path as [|[ty k] path IH]; intros sels A; [reflexivity|]. cbn [agree] in A. destruct A as [A B]. cbn [actual shown].
  destruct (candidates possible sels ty k) as [|c cs] eqn:E; [reflexivity|].
  destruct (visible env c) eqn:V; cbn [andb].
  - assert (F : filter (visible env) (c :: cs) = c :: cs).
    { clear IH B E.
      assert (G : forall l, (forall x, In x l -> visible env x = true) -> filter (visible env) l = l).
      { induction l as [|x l IHl]; intros H; cbn; [reflexivity|]. rewrite (H x (or_introl eq_refl)). f_equal. apply IHl. intros; apply H; right; assumption. }
      apply G. intros x I. rewrite (A x c I (or_introl eq_refl)). exact V. }
    rewrite F. apply IH. exact B.
  - rewrite filter_none; [reflexivity|]. intros x I. rewrite (A x c I (or_introl eq_refl)). exact V.
Qed.

Variable key_cmp : nat -> nat -> comparison.
Hypothesis K : key_order key_cmp.
Variable sort : list (nat * node) -> list (nat * node).
Hypothesis So : sorts (field_cmp key_cmp) sort.

Lemma map_filter_comm {A B} (f : A -> B) (q : B -> bool) l : map f (filter (fun x => q (f x)) l) = filter q (map f l).
Proof. induction l as [|x l IH]; cbn; [reflexivity|]. destruct (q (f x)); cbn; rewrite IH; reflexivity. Qed.
Lemma number_snd l : forall i, map snd (number i l) = l.
Proof. induction l as [|x l IH]; intros i; cbn; [reflexivity|]. rewrite IH. reflexivity. Qed.
Lemma number_in l : forall i j n, In (j, n) (number i l) <-> exists m, j = i + m /\ nth_error l m = Some n.
Proof.
  induction l as [|x l IH]; intros i j n; cbn [number In].
  - split; [intros []|intros ([|m] & _ & H); discriminate].
  - rewrite IH. split.
    + intros [E|(m & -> & H)]; [injection E as <- <-; exists 0; split; [lia|reflexivity]|exists (S m); split; [lia|exact H]].
    + intros ([|m] & -> & H); [left; cbn in H; injection H as ->; f_equal; lia|right; exists m; split; [lia|exact H]].
Qed.

Definition q (parents : list nat) (ty k : nat) (i : ident) : bool :=
  let '(p, key, conds, _) := i in (existsb (Nat.eqb p) parents && applies possible ty conds) && (key =? k).
Lemma shape_group ns parents ty k : filter (fun x => n_key (snd x) =? k) (shape_fields possible ns parents ty) = filter (fun x => q parents ty k (nid (snd x))) (number 1 ns).
Proof.
  unfold shape_fields. generalize (number 1 ns). induction l as [|x l IH]; [reflexivity|]. cbn [filter]. unfold q, nid at 1, applies.
  destruct (existsb (Nat.eqb (n_parent (snd x))) parents && forallb (fun c => existsb (Nat.eqb ty) (possible c)) (n_conds (snd x))) eqn:E; cbn [andb filter].
  - destruct (n_key (snd x) =? k); rewrite IH; reflexivity.
  - exact IH.
Qed.

Lemma count_app d l l' : count d (l ++ l') = count d l + count d l'.
Proof. unfold count. rewrite filter_app, app_length. reflexivity. Qed.
Lemma wrap_small n : (N.of_nat n < 65536)%N -> wrap n = N.of_nat n.
Proof. intros H. unfold wrap. apply N.mod_small. exact H. Qed.
Lemma ss_positions (f : ident -> bool) d : forall l b j, (forall x, In x l -> f (lid x) = true -> i_depth x = d) -> (N.of_nat (count d b + List.length l) <= 65536)%N ->
  StronglySorted plt (filter (fun x => f (nid (snd x))) (number j (mks b l))) /\
  Forall (fun x => (N.of_nat (count d b) <= n_pos (snd x))%N) (filter (fun x => f (nid (snd x))) (number j (mks b l))).
Proof.
  induction l as [|x l IH]; intros b j D L; cbn [mks number filter]; [split; constructor|].
  cbn [List.length] in L.
  assert (C1 : count d b <= count d (b ++ [x])) by (rewrite count_app; lia).
  assert (C2 : count d (b ++ [x]) <= S (count d b)).
  { rewrite count_app. unfold count at 2. cbn [filter]. destruct (i_depth x =? d); cbn; lia. }
  destruct (IH (b ++ [x]) (S j)) as [Sd F]; [intros y I; apply D; right; exact I|lia|].
  cbn [snd]. change (nid (mk b x)) with (lid x). destruct (f (lid x)) eqn:E.
  - assert (Dx : i_depth x = d) by (apply D; [left; reflexivity|exact E]).
    assert (P : n_pos (mk b x) = N.of_nat (count d b)). { cbn [n_pos mk]. rewrite Dx. apply wrap_small. lia. }
    assert (Cx : count d (b ++ [x]) = S (count d b)).
    { rewrite count_app. unfold count at 2. cbn [filter]. rewrite Dx, Nat.eqb_refl. cbn. lia. }
    split; constructor.
    + exact Sd.
    + eapply Forall_impl; [|exact F]. intros y H. unfold plt. cbn [snd]. rewrite P. cbv beta in H. lia.
    + cbn [snd]. rewrite P. lia.
    + eapply Forall_impl; [|exact F]. intros y H. cbv beta in *. lia.
  - split; [exact Sd|]. eapply Forall_impl; [|exact F]. intros y H. cbv beta in *. lia.
Qed.

Lemma flat_map_filter {A B} (f : A -> bool) (g : A -> list B) l : flat_map g (filter f l) = flat_map (fun x => if f x then g x else []) l.
Proof. induction l as [|x l IH]; cbn; [reflexivity|]. destruct (f x); cbn; rewrite IH; reflexivity. Qed.
Lemma filter_map {A B} (f : A -> B) (p : B -> bool) l : filter p (map f l) = map f (filter (fun x => p (f x)) l).
Proof. induction l as [|x l IH]; cbn; [reflexivity|]. destruct (p (f x)); cbn; rewrite IH; reflexivity. Qed.
Lemma flat_map_map {A B C} (f : A -> B) (g : B -> list C) l : flat_map g (map f l) = flat_map (fun x => g (f x)) l.
Proof. induction l as [|x l IH]; cbn; [reflexivity|]. rewrite IH. reflexivity. Qed.
Lemma flat_map_flat_map {A B C} (f : A -> list B) (g : B -> list C) l : flat_map g (flat_map f l) = flat_map (fun x => flat_map g (f x)) l.
Proof. induction l as [|x l IH]; cbn; [reflexivity|]. rewrite flat_map_app, IH. reflexivity. Qed.
Definition under (parents : list nat) (e : entry) : bool := existsb (Nat.eqb (e_parent e)) parents.

(** The occurrences met under [parents], for an object type and a key, are the candidates. *)
Lemma log_candidates E parents ty k :
  (forall e, In e E -> under parents e = true -> In ty (possible (e_out e))) ->
  (forall c, In c (flat_map (collect possible ty []) (flat_map e_sels (filter (under parents) E))) -> In ty (possible (c_entity c))) ->
  map (fun x => oview (i_occ x)) (filter (fun x => q parents ty k (lid x)) (log possible E)) =
  map cview (candidates possible (flat_map e_sels (filter (under parents) E)) ty k).
Proof.
  intros T C. unfold log, candidates. induction E as [|e E IH]; [reflexivity|]. cbn [flat_map filter]. rewrite filter_app, map_app.
  assert (Hd : filter (fun x => q parents ty k (lid x)) (items possible e) =
     if under parents e then map (item_of e) (filter (fun o => o_key o =? k) (filter (fun o => applies possible ty (o_conds o)) (occurrences possible e))) else []).
  { unfold items. rewrite filter_map. unfold q, lid, item_of. cbn [i_parent i_occ]. fold (under parents e). destruct (under parents e).
    - f_equal. induction (occurrences possible e) as [|o l IHl]; [reflexivity|]. cbn [filter]. rewrite IHl. destruct (applies possible ty (o_conds o)); reflexivity.
    - rewrite filter_none; [reflexivity|]. intros; reflexivity. }
  rewrite Hd. clear Hd. cbn [filter] in C. destruct (under parents e) eqn:U.
  - cbn [flat_map] in *. rewrite flat_map_app, filter_app, map_app in *. f_equal.
    + rewrite map_map. cbn [i_occ item_of].
      assert (F : map oview (filter (fun o => applies possible ty (o_conds o)) (occurrences possible e)) = map cview (flat_map (collect possible ty []) (e_sels e))).
      { unfold occurrences. rewrite filter_flat_map, !map_flat_map. apply flat_map_ext_in. intros s I. apply flat_collect; [apply T; [left; reflexivity|exact U]|reflexivity|].
        intros c J. apply C. apply in_or_app. left. apply in_flat_map. eauto. }
      transitivity (filter (fun v => let '(key, _, _, _, _) := v in key =? k) (map oview (filter (fun o => applies possible ty (o_conds o)) (occurrences possible e)))).
      * rewrite filter_map. reflexivity.
      * rewrite F, filter_map. reflexivity.
    + apply IH; [intros x I; apply T; right; exact I|]. intros c I. apply C. apply in_or_app. right. exact I.
  - cbn [map app]. apply IH; [intros x I; apply T; right; exact I|exact C].
Qed.

Lemma included_visible n c : n_dirs n = sort_dirs (c_dirs c) -> included env n = visible env c.
Proof.
  intros H. unfold included, visible. rewrite H. rewrite <- (forallb_perm _ _ _ (sort_dirs_perm (c_dirs c))).
  generalize (sort_dirs (c_dirs c)). induction l as [|d l IH]; [reflexivity|]. cbn [existsb forallb]. rewrite negb_orb, IH. f_equal. destruct d; cbn; [apply negb_involutive|reflexivity].
Qed.

Lemma emitted_actual E root ns : ns = mks [] (heads (log possible E)) -> E = root :: flat_map (push ns) (log possible E) -> e_parent root = 0 ->
  (N.of_nat (List.length ns) <= 65536)%N ->
  forall path parents d, (forall e, In e E -> under parents e = true -> e_depth e = d) ->
  typed possible (map (fun e => (e_out e, e_sels e)) (filter (under parents) E)) path ->
  emitted possible env sort ns parents path = actual (flat_map e_sels (filter (under parents) E)) path.
Proof.
  intros Ns HE R0 L. induction path as [|[ty k] path IH]; intros parents d D T; [reflexivity|]. cbn [typed] in T.
  destruct T as (T1 & T2 & outs & T3).
  assert (Fs : flat_map snd (map (fun e => (e_out e, e_sels e)) (filter (under parents) E)) = flat_map e_sels (filter (under parents) E)).
  { rewrite flat_map_map. reflexivity. }
  rewrite Fs in *. clear Fs.
  set (sels := flat_map e_sels (filter (under parents) E)) in *.
  set (lg := log possible E) in *. set (f := q parents ty k).
  assert (Cand : map (fun x => oview (i_occ x)) (filter (fun x => f (lid x)) lg) = map cview (candidates possible sels ty k)).
  { apply log_candidates; [|exact T2]. intros e I U. apply (T1 (e_out e) (e_sels e)). apply in_map_iff. exists e. split; [reflexivity|]. apply filter_In. auto. }
  assert (Dl : forall x, In x lg -> f (lid x) = true -> i_depth x = d).
  { intros x I F. unfold lg, log in I. apply in_flat_map in I. destruct I as (e & Ie & I). apply in_map_iff in I. destruct I as (o & <- & _). cbn [i_depth item_of].
    apply D; [exact Ie|]. unfold f, q, lid in F. cbn [i_parent item_of] in F. apply andb_true_iff in F. destruct F as [F _]. apply andb_true_iff in F. apply F. }
  assert (SS : StronglySorted plt (filter (fun x => n_key (snd x) =? k) (shape_fields possible ns parents ty))).
  { rewrite shape_group. rewrite Ns. apply (ss_positions f d).
    - intros x I. apply Dl. eapply firsts_incl. exact I.
    - rewrite <- (mks_length (heads lg) []). rewrite <- Ns. cbn. lia. }
  cbn [emitted actual]. rewrite (group_is key_cmp K sort _ k So SS), shape_group. fold f.
  assert (Ids : map (fun x => nid (snd x)) (filter (fun x => f (nid (snd x))) (number 1 ns)) = map lid (heads (filter (fun x => f (lid x)) lg))).
  { unfold heads. rewrite <- (filter_firsts lid ident_dec (fun x => f (lid x))) by (intros a b E0; rewrite E0; reflexivity). fold (heads lg). rewrite (map_filter_comm (fun x => nid (snd x)) f), (map_filter_comm lid f).
    f_equal. rewrite <- map_map, number_snd, Ns, mks_nid. reflexivity. }
  assert (Hd : hd_error (heads (filter (fun x => f (lid x)) lg)) = hd_error (filter (fun x => f (lid x)) lg)) by apply firsts_hd.
  (* entries below the group *)
  assert (Below : forall G, G = filter (fun x => f (nid (snd x))) (number 1 ns) ->
     filter (under (map fst G)) E = flat_map (push ns) (filter (fun x => f (lid x)) lg)).
  { intros G ->. rewrite HE. cbn [filter].
    assert (U0 : under (map fst (filter (fun x => f (nid (snd x))) (number 1 ns))) root = false).
    { unfold under. rewrite R0. apply not_true_is_false. intros H. apply existsb_exists in H. destruct H as (x & I & H). apply Nat.eqb_eq in H. subst x.
      apply in_map_iff in I. destruct I as ([j n] & Ej & I). cbn in Ej. subst j. apply filter_In in I. destruct I as [I _]. apply number_in in I. destruct I as (m & Em & _). lia. }
    rewrite U0, filter_flat_map, flat_map_filter. fold lg. apply flat_map_ext_in. intros x I. unfold push.
    destruct (o_out (i_occ x)) as [t|]; [|destruct (f (lid x)); reflexivity].
    destruct (find_ix (same (i_parent x) (i_occ x)) ns) as [i|] eqn:Fi; [|destruct (f (lid x)); reflexivity].
    destruct (find_ix_some _ _ _ Fi) as (n & N1 & N2). apply same_spec in N2.
    cbn [filter]. unfold under. cbn [e_parent].
    assert (X : existsb (Nat.eqb (S i)) (map fst (filter (fun x => f (nid (snd x))) (number 1 ns))) = f (lid x)).
    { apply eq_true_iff_eq. rewrite existsb_exists. split.
      - intros (j & I' & Ej). apply Nat.eqb_eq in Ej. subst j. apply in_map_iff in I'. destruct I' as ([j m] & Ej & I'). cbn in Ej. subst j. apply filter_In in I'. destruct I' as [I' F].
        apply number_in in I'. destruct I' as (m' & Em & Nm). assert (m' = i) by lia. subst m'. rewrite N1 in Nm. injection Nm as <-. cbn [snd] in F. rewrite N2 in F. exact F.
      - intros F. exists (S i). split; [|apply Nat.eqb_refl]. apply in_map_iff. exists (S i, n). split; [reflexivity|]. apply filter_In. split; [apply number_in; exists i; split; [lia|exact N1]|].
        cbn [snd]. rewrite N2. exact F. }
    rewrite X. destruct (f (lid x)); reflexivity. }
  destruct (filter (fun x => f (nid (snd x))) (number 1 ns)) as [|[j n] G] eqn:EG.
  - (* no such field *)
    destruct (candidates possible sels ty k) as [|c cs]; [reflexivity|]. exfalso.
    destruct (filter (fun x => f (lid x)) lg) as [|x xs]; [discriminate|]. cbn [map] in Ids. symmetry in Ids. apply map_eq_nil in Ids. rewrite Ids in Hd. discriminate.
  - destruct (filter (fun x => f (lid x)) lg) as [|x xs] eqn:EX; [discriminate|].
    destruct (candidates possible sels ty k) as [|c cs] eqn:EC; [discriminate|].
    assert (Nx : nid n = lid x).
    { destruct (heads (x :: xs)) as [|h hs] eqn:Eh; [discriminate|]. cbn in Hd. injection Hd as ->. cbn [map snd] in Ids. congruence. }
    assert (Vx : included env n = visible env c).
    { apply included_visible. cbn [map] in Cand. injection Cand as _ _ Dd _ _. unfold nid, lid in Nx. injection Nx as _ _ _ Dn. rewrite Dn. exact Dd. }
    rewrite <- Vx. cbn [snd]. f_equal.
    destruct path as [|p0 path0]; [reflexivity|]. destruct T3 as [[T3 T4]|T3]; [|discriminate].
    pose proof (Below _ eq_refl) as Bl.
    (* every candidate is composite *)
    assert (Sub : forall xs' cs' outs', map (fun x => oview (i_occ x)) xs' = map cview cs' -> map c_out cs' = map Some outs' -> (forall y, In y xs' -> In y lg) ->
       map (fun e => (e_out e, e_sels e)) (flat_map (push ns) xs') = combine outs' (map c_sub cs') /\ flat_map e_sels (flat_map (push ns) xs') = flat_map c_sub cs').
    { clear - Ns. induction xs' as [|y xs' IHx]; intros [|c' cs'] outs' E1 E2 I; try discriminate.
      - destruct outs'; [|discriminate]. split; reflexivity.
      - destruct outs' as [|t outs']; [discriminate|]. cbn [map] in E1, E2.
        assert (Eh : oview (i_occ y) = cview c') by congruence. assert (Et : map (fun x => oview (i_occ x)) xs' = map cview cs') by congruence.
        assert (Oh : c_out c' = Some t) by congruence. assert (Ot : map c_out cs' = map Some outs') by congruence.
        destruct (IHx cs' outs' Et Ot (fun z J => I z (or_intror J))) as [A B].
        unfold oview, cview in Eh. injection Eh as _ _ _ Eo Es.
        assert (Py : exists i, push ns y = [{| e_depth := S (i_depth y); e_parent := S i; e_out := t; e_sels := c_sub c' |}]).
        { unfold push. rewrite Eo, Oh, Es. destruct (find_ix (same (i_parent y) (i_occ y)) ns) as [i|] eqn:Fi; [eauto|]. exfalso. exact (found ns lg y Ns (I y (or_introl eq_refl)) Fi). }
        destruct Py as [i Py]. cbn [flat_map map combine]. rewrite Py. cbn [map app flat_map e_sels e_out]. rewrite A, B. split; reflexivity. }
    destruct (Sub (x :: xs) (c :: cs) outs Cand T3) as [S1 S2].
    { intros y I. rewrite <- EX in I. apply filter_In in I. apply I. }
    rewrite <- S2, <- Bl. apply (IH _ (S d)).
    + intros e I U. assert (J : In e (filter (under (map fst ((j, n) :: G))) E)) by (apply filter_In; auto). rewrite Bl in J. apply in_flat_map in J. destruct J as (y & Iy & J).
      assert (Fy : In y lg /\ f (lid y) = true) by (rewrite <- EX in Iy; apply filter_In in Iy; exact Iy).
      unfold push in J. destruct (o_out (i_occ y)); [|destruct J]. destruct (find_ix _ _); [|destruct J]. destruct J as [<-|[]]. cbn [e_depth]. f_equal. apply Dl; apply Fy.
    + rewrite Bl, S1. exact T4.
Qed.
End Actual.
