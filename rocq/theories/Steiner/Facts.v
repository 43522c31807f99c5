(** Facts about bit sets, edges, the heap and paths. *)
From Coq Require Import QArith NArith List Bool Arith Lia.
From Verif.Steiner Require Import Model Spec.
Import ListNotations.
Local Open Scope nat_scope.
Local Open Scope list_scope.

(** ** Sets *)
Lemma mem_In : forall x s, mem x s = true <-> In x s.
Proof.
  intros x s. unfold mem. rewrite existsb_exists. split.
  - intros (y & Hin & He). apply Nat.eqb_eq in He. subst. exact Hin.
  - intro H. exists x. split; [exact H | apply Nat.eqb_refl].
Qed.
Lemma mem_not_In : forall x s, mem x s = false <-> ~ In x s.
Proof. intros x s. rewrite <- mem_In. destruct (mem x s); split; intro H; try easy; try (exfalso; apply H; reflexivity). Qed.
Lemma insert_In : forall x y s, In y (insert x s) <-> y = x \/ In y s.
Proof.
  intros x y s. unfold insert. destruct (mem x s) eqn:E.
  - apply mem_In in E. split; [intro H; right; exact H | intros [-> | H]; [exact E | exact H]].
  - split; [intros [<- | H]; [left; reflexivity | right; exact H] | intros [-> | H]; [left; reflexivity | right; exact H]].
Qed.
Lemma insert_NoDup : forall x s, NoDup s -> NoDup (insert x s).
Proof.
  intros x s H. unfold insert. destruct (mem x s) eqn:E; [exact H |]. constructor; [| exact H].
  apply mem_not_In. exact E.
Qed.

(** ** Bits *)
Fixpoint count (b : bits) : nat := match b with [] => 0 | true :: b' => S (count b') | false :: b' => count b' end.

Lemma count_le : forall b, count b <= List.length b.
Proof. induction b as [| [|] b IH]; cbn [count List.length]; lia. Qed.
Lemma bget_nil : forall i, bget [] i = false.
Proof. destruct i; reflexivity. Qed.
Lemma count_zero : forall b, count b = 0 <-> (forall i, bget b i = false).
Proof.
  induction b as [| x b IH]; cbn [count].
  - split; [intros _ i; apply bget_nil | reflexivity].
  - destruct x.
    + split; [discriminate | intro H; specialize (H 0); discriminate].
    + rewrite IH. split.
      * intros H [| i]; [reflexivity | apply H].
      * intros H i. apply (H (S i)).
Qed.
Lemma bget_bunion : forall a b i, bget (bunion a b) i = bget a i || bget b i.
Proof.
  induction a as [| x a IH]; intros b i; cbn [bunion].
  - rewrite bget_nil. reflexivity.
  - destruct b as [| y b]; [rewrite bget_nil, orb_false_r; reflexivity |].
    destruct i as [| i]; [reflexivity | apply (IH b i)].
Qed.
Lemma length_bunion : forall a b, List.length (bunion a b) = Nat.max (List.length a) (List.length b).
Proof.
  induction a as [| x a IH]; intros [| y b]; cbn [bunion List.length]; try lia. rewrite IH. lia.
Qed.
Lemma bdisjoint_spec : forall a b, bdisjoint a b = true <-> (forall i, bget a i = true -> bget b i = true -> False).
Proof.
  induction a as [| x a IH]; intros b; cbn [bdisjoint].
  - split; [| reflexivity]. intros _ i H. rewrite bget_nil in H. discriminate.
  - destruct b as [| y b].
    + split; [| reflexivity]. intros _ i _ H. rewrite bget_nil in H. discriminate.
    + rewrite andb_true_iff, IH. split.
      * intros [H1 H2] [| i] Ha Hb; cbn in Ha, Hb.
        -- subst. discriminate.
        -- apply (H2 i Ha Hb).
      * intro H. split.
        -- destruct x, y; try reflexivity. exfalso. apply (H 0); reflexivity.
        -- intros i Ha Hb. apply (H (S i) Ha Hb).
Qed.
Lemma bdisjoint_false : forall a b, bdisjoint a b = false -> exists i, bget a i = true /\ bget b i = true.
Proof.
  induction a as [| x a IH]; intros b; cbn [bdisjoint]; [discriminate |].
  destruct b as [| y b]; [discriminate |]. intro H. apply andb_false_iff in H as [H | H].
  - apply negb_false_iff, andb_true_iff in H as [-> ->]. exists 0. split; reflexivity.
  - destruct (IH _ H) as (i & Ha & Hb). exists (S i). split; assumption.
Qed.
Lemma count_bunion_disjoint : forall a b, (forall i, bget a i = true -> bget b i = true -> False) ->
  count (bunion a b) = count a + count b.
Proof.
  induction a as [| x a IH]; intros b H; cbn [bunion count]; [reflexivity |].
  destruct b as [| y b]; [cbn [count]; lia |]. cbn [count].
  assert (IH' := IH b (fun i Ha Hb => H (S i) Ha Hb)).
  destruct x, y; cbn [orb]; rewrite ?IH'; try lia. exfalso. apply (H 0); reflexivity.
Qed.
Lemma bget_bclear : forall b i, bget (bclear b) i = false.
Proof.
  induction b as [| x b IH]; intros [| i]; try reflexivity. apply IH.
Qed.
Lemma length_bclear : forall b, List.length (bclear b) = List.length b.
Proof. intro b. apply map_length. Qed.
Lemma bget_bgrow : forall b n i, bget (bgrow b n) i = bget b i.
Proof.
  intros b n i. unfold bget, bgrow. destruct (Nat.lt_ge_cases i (List.length b)) as [H | H].
  - apply app_nth1. exact H.
  - rewrite app_nth2 by exact H. rewrite (nth_overflow b) by exact H. apply nth_repeat.
Qed.
Lemma length_bgrow : forall b n, List.length (bgrow b n) = Nat.max (List.length b) n.
Proof. intros b n. unfold bgrow. rewrite app_length, repeat_length. lia. Qed.
Lemma bget_length : forall b i, bget b i = true -> i < List.length b.
Proof.
  intros b i H. destruct (Nat.lt_ge_cases i (List.length b)) as [Hl | Hl]; [exact Hl |].
  unfold bget in H. rewrite nth_overflow in H by exact Hl. discriminate.
Qed.
Lemma length_bset : forall b i, List.length (bset b i) = List.length b.
Proof. induction b as [| x b IH]; intros [| i]; cbn [bset List.length]; try reflexivity. now rewrite IH. Qed.
Lemma bget_bset : forall b i j, i < List.length b -> (bget (bset b i) j = true <-> j = i \/ bget b j = true).
Proof.
  induction b as [| x b IH]; intros i j H; cbn [List.length] in H; [lia |].
  destruct i as [| i], j as [| j]; cbn [bset].
  - cbn. split; [intros _; left; reflexivity | reflexivity].
  - cbn [bget nth]. unfold bget. cbn [nth]. split; [intro E; right; exact E | intros [E | E]; [discriminate | exact E]].
  - unfold bget. cbn [nth]. split; [intro E; right; exact E | intros [E | E]; [discriminate | exact E]].
  - unfold bget in *. cbn [nth]. rewrite (IH i j) by lia. split; (intros [E | E]; [left; lia | right; exact E]).
Qed.
Lemma count_pos : forall b i, bget b i = true -> 0 < count b.
Proof.
  intros b i H. destruct (count b) eqn:E; [| lia]. rewrite (proj1 (count_zero b) E i) in H. discriminate.
Qed.
Lemma bfull_spec : forall b, bfull b = true <-> (forall i, i < List.length b -> bget b i = true).
Proof.
  intro b. unfold bfull. rewrite forallb_forall. split.
  - intros H i Hi. apply H. apply nth_In. exact Hi.
  - intros H x Hin. destruct (In_nth _ _ false Hin) as (i & Hi & <-). apply H. exact Hi.
Qed.
Lemma bzeroes_In : forall b i, In i (bzeroes b) <-> i < List.length b /\ bget b i = false.
Proof.
  intros b i. unfold bzeroes. rewrite filter_In, in_seq, negb_true_iff. split; intros [H1 H2]; (split; [lia | exact H2]).
Qed.
Lemma bzeroes_nil : forall b, bzeroes b = [] <-> bfull b = true.
Proof.
  intro b. rewrite bfull_spec. split.
  - intros H i Hi. destruct (bget b i) eqn:E; [reflexivity |].
    assert (Hin : In i (bzeroes b)) by (apply bzeroes_In; split; assumption). rewrite H in Hin. destruct Hin.
  - intro H. destruct (bzeroes b) as [| i l] eqn:E; [reflexivity |].
    assert (Hin : In i (bzeroes b)) by (rewrite E; left; reflexivity).
    apply bzeroes_In in Hin as [Hl Hf]. rewrite (H i Hl) in Hf. discriminate.
Qed.

(** ** Edges *)
Lemma lookup : forall g e, e < List.length g -> nth_error g e = Some (nth e g no_edge).
Proof. intros g e H. apply nth_error_nth'. exact H. Qed.
Lemma lookup_src : forall g e ed, nth_error g e = Some ed -> src g e = e_src ed /\ dst g e = e_dst ed /\ weight g e = e_weight ed.
Proof.
  intros g e ed H. unfold src, dst, weight. rewrite (nth_error_nth _ _ no_edge H). split; [reflexivity | split; reflexivity].
Qed.
Lemma ids_In : forall g e, In e (ids g) <-> e < List.length g.
Proof. intros g e. unfold ids. rewrite <- in_rev, in_seq. lia. Qed.
Lemma ids_NoDup : forall g, NoDup (ids g).
Proof. intro g. unfold ids. apply NoDup_rev, seq_NoDup. Qed.
Lemma incoming_In : forall g v e, In e (incoming g v) <-> e < List.length g /\ dst g e = v.
Proof. intros g v e. unfold incoming. rewrite filter_In, ids_In, Nat.eqb_eq. reflexivity. Qed.
Lemma outgoing_In : forall g v e, In e (outgoing g v) <-> e < List.length g /\ src g e = v.
Proof. intros g v e. unfold outgoing. rewrite filter_In, ids_In, Nat.eqb_eq. reflexivity. Qed.
Lemma incoming_NoDup : forall g v, NoDup (incoming g v).
Proof. intros g v. apply NoDup_filter, ids_NoDup. Qed.
Lemma outgoing_NoDup : forall g v, NoDup (outgoing g v).
Proof. intros g v. apply NoDup_filter, ids_NoDup. Qed.

(** ** The next edge *)
Section Better.
Variables (g : graph) (marked : list nat).
Lemma better_fold : forall l o w,
  (match o with Some e => w = weight g e | None => True end) ->
  let r := fold_left (better g marked) l (o, w) in
  (snd r <= w)%N /\
  (forall e, In e l -> ~ In e marked -> (snd r <= weight g e)%N) /\
  match fst r with
  | Some e => snd r = weight g e /\ (Some e = o \/ (In e l /\ ~ In e marked /\ (weight g e < w)%N))
  | None => o = None /\ snd r = w
  end.
Proof.
  induction l as [| e l IH]; intros o w Ho r.
  - subst r. cbn [fold_left fst snd]. split; [lia |]. split; [intros e [] |].
    destruct o as [e |]; [split; [exact Ho | left; reflexivity] | split; reflexivity].
  - subst r. cbn [fold_left].
    assert (Eb : better g marked (o, w) e
                 = if negb (mem e marked) && (weight g e <? w)%N then (Some e, weight g e) else (o, w)) by reflexivity.
    rewrite Eb. clear Eb.
    destruct (negb (mem e marked) && (weight g e <? w)%N) eqn:E.
    + apply andb_true_iff in E as [E1 E2]. apply negb_true_iff, mem_not_In in E1. apply N.ltb_lt in E2.
      destruct (IH (Some e) (weight g e) eq_refl) as (H1 & H2 & H3).
      split; [eapply N.le_trans; [exact H1 | apply N.lt_le_incl; exact E2] |]. split.
      * intros e' [<- | Hin] Hm; [exact H1 | apply (H2 _ Hin Hm)].
      * destruct (fst (fold_left (better g marked) l (Some e, weight g e))) as [e' |] eqn:Ef.
        -- destruct H3 as [H3 [H4 | (H4 & H5 & H6)]]; (split; [exact H3 |]); right.
           ++ injection H4 as ->. split; [left; reflexivity | split; assumption].
           ++ split; [right; exact H4 | split; [exact H5 | eapply N.lt_trans; eassumption]].
        -- destruct H3 as [H3 _]. discriminate.
    + destruct (IH o w Ho) as (H1 & H2 & H3). split; [exact H1 |]. split.
      * intros e' [<- | Hin] Hm; [| apply (H2 _ Hin Hm)].
        apply andb_false_iff in E as [E | E].
        -- apply negb_false_iff, mem_In in E. contradiction.
        -- apply N.ltb_ge in E. eapply N.le_trans; eassumption.
      * destruct (fst (fold_left (better g marked) l (o, w))) as [e' |].
        -- destruct H3 as [H3 [H4 | (H4 & H5 & H6)]]; (split; [exact H3 |]); [left; exact H4 |].
           right. split; [right; exact H4 | split; assumption].
        -- exact H3.
Qed.

Lemma find_next_some : forall v e, find_next g marked v = Some e ->
  e < List.length g /\ dst g e = v /\ ~ In e marked /\ (weight g e < weight_max)%N /\
  (forall e', e' < List.length g -> dst g e' = v -> ~ In e' marked -> (weight g e <= weight g e')%N).
Proof.
  intros v e H. unfold find_next in H.
  destruct (better_fold (incoming g v) None weight_max Logic.I) as (_ & H2 & H3). rewrite H in H3.
  destruct H3 as [H3 [H4 | (H4 & H5 & H6)]]; [discriminate |].
  apply incoming_In in H4 as [H4 H4']. split; [exact H4 |]. split; [exact H4' |]. split; [exact H5 |]. split; [exact H6 |].
  intros e' Hl Hd Hm. rewrite <- H3. apply H2; [| exact Hm]. apply incoming_In. split; assumption.
Qed.
Lemma find_next_none : forall v, find_next g marked v = None ->
  forall e, e < List.length g -> dst g e = v -> (weight g e < weight_max)%N -> In e marked.
Proof.
  intros v H e Hl Hd Hw. unfold find_next in H.
  destruct (better_fold (incoming g v) None weight_max Logic.I) as (_ & H2 & H3). rewrite H in H3.
  destruct H3 as [_ H3]. destruct (in_dec Nat.eq_dec e marked) as [Hin | Hn]; [exact Hin |].
  exfalso. assert (Hle := H2 e (proj2 (incoming_In g v e) (conj Hl Hd)) Hn). rewrite H3 in Hle. revert Hw Hle. unfold weight_max. lia.
Qed.
End Better.

Lemma find_next_other : forall g marked e v, dst g e <> v -> find_next g (insert e marked) v = find_next g marked v.
Proof.
  intros g marked e v H. unfold find_next. f_equal.
  assert (Hl : forall e', In e' (incoming g v) -> e' <> e).
  { intros e' Hin ->. apply incoming_In in Hin as [_ Hd]. contradiction. }
  generalize (None (A := nat), weight_max). induction (incoming g v) as [| e' l IH]; intro acc; [reflexivity |].
  cbn [fold_left]. rewrite IH by (intros e'' Hin; apply Hl; right; exact Hin). f_equal.
  unfold better. assert (Hm : mem e' (insert e marked) = mem e' marked).
  { destruct (mem e' marked) eqn:E.
    - apply mem_In. apply insert_In. right. apply mem_In. exact E.
    - apply mem_not_In. intro Hin. apply insert_In in Hin as [-> | Hin].
      + apply (Hl e); [left; reflexivity | reflexivity].
      + apply mem_not_In in E. contradiction. }
  rewrite Hm. reflexivity.
Qed.
(** Marking edges can only close a node. *)
Lemma find_next_marked : forall g marked e v, find_next g (insert e marked) v <> None -> find_next g marked v <> None.
Proof.
  intros g marked e v H Hn. destruct (find_next g (insert e marked) v) as [e' |] eqn:E; [| contradiction].
  apply find_next_some in E as (H1 & H2 & H3 & H4 & _). apply H3. apply insert_In. right.
  apply (find_next_none _ _ _ Hn); assumption.
Qed.

(** ** The heap *)
Definition keys (h : list (nat * Q)) : list nat := map fst h.
Lemma keys_push : forall e t h e', In e' (keys (heap_push e t h)) <-> e' = e \/ In e' (keys h).
Proof.
  intros e t h e'. unfold heap_push, keys. cbn [map fst In]. split.
  - intros [<- | H]; [left; reflexivity |]. apply in_map_iff in H as (x & <- & Hin).
    apply filter_In in Hin as [Hin _]. right. apply in_map. exact Hin.
  - intros [-> | H]; [left; reflexivity |]. destruct (Nat.eq_dec e' e) as [-> | Hne]; [left; reflexivity |].
    right. apply in_map_iff in H as (x & <- & Hin). apply in_map. apply filter_In. split; [exact Hin |].
    apply negb_true_iff, Nat.eqb_neq. exact Hne.
Qed.
Lemma keys_change : forall e f h, keys (heap_change e f h) = keys h.
Proof.
  intros e f h. unfold keys, heap_change. rewrite map_map. apply map_ext. intro x. destruct (fst x =? e); reflexivity.
Qed.
Lemma keys_remove : forall e h e', In e' (keys (filter (fun x => negb (fst x =? e)) h)) <-> e' <> e /\ In e' (keys h).
Proof.
  intros e h e'. unfold keys. rewrite !in_map_iff. split.
  - intros (x & <- & Hin). apply filter_In in Hin as [Hin Hn]. apply negb_true_iff, Nat.eqb_neq in Hn.
    split; [exact Hn | exists x; split; [reflexivity | exact Hin]].
  - intros (Hn & x & <- & Hin). exists x. split; [reflexivity |]. apply filter_In. split; [exact Hin |].
    apply negb_true_iff, Nat.eqb_neq. exact Hn.
Qed.

(** ** Paths *)
Section Paths.
Variable g : graph.
Lemma path_cons' : forall (P : nat -> Prop) e p y, e < List.length g -> P e -> path g P (dst g e) p y -> path g P (src g e) (e :: p) y.
Proof. intros P e p y Hl HP Hp. apply path_cons with (ed := nth e g no_edge); [apply lookup; exact Hl | exact HP | exact Hp]. Qed.
Lemma path_inv : forall P x p y, path g P x p y ->
  match p with
  | [] => x = y
  | e :: p' => e < List.length g /\ P e /\ x = src g e /\ path g P (dst g e) p' y
  end.
Proof.
  intros P x p y H. destruct H as [x | e ed p y He HP Hp]; [reflexivity |].
  destruct (lookup_src _ _ _ He) as (Hs & Hd & _). split; [apply nth_error_Some; rewrite He; discriminate |].
  split; [exact HP |]. split; [symmetry; exact Hs | rewrite Hd; exact Hp].
Qed.
Lemma path_app : forall P x p y q z, path g P x p y -> path g P y q z -> path g P x (p ++ q) z.
Proof.
  intros P x p y q z H. revert q z. induction H as [x | e ed p y He HP Hp IH]; intros q z Hq; [exact Hq |].
  cbn [app]. apply path_cons with (ed := ed); [exact He | exact HP | apply IH; exact Hq].
Qed.
Lemma path_split : forall P p x q z, path g P x (p ++ q) z -> exists y, path g P x p y /\ path g P y q z.
Proof.
  intros P p. induction p as [| e p IH]; intros x q z H.
  - exists x. split; [constructor | exact H].
  - cbn [app] in H. apply path_inv in H as (Hl & HP & -> & H). destruct (IH _ _ _ H) as (y & H1 & H2).
    exists y. split; [apply path_cons'; assumption | exact H2].
Qed.
Lemma path_weaken : forall (P Q : nat -> Prop) x p y, (forall e, In e p -> P e -> Q e) -> path g P x p y -> path g Q x p y.
Proof.
  intros P Q x p y HPQ H. induction H as [x | e ed p y He HP Hp IH]; [constructor |].
  apply path_cons with (ed := ed); [exact He | apply HPQ; [left; reflexivity | exact HP] |]. apply IH.
  intros e' Hin. apply HPQ. right. exact Hin.
Qed.
Lemma path_one : forall (P : nat -> Prop) e, e < List.length g -> P e -> path g P (src g e) [e] (dst g e).
Proof. intros P e Hl HP. apply path_cons'; [exact Hl | exact HP | constructor]. Qed.
Lemma path_snoc : forall (P : nat -> Prop) x p e, e < List.length g -> P e -> path g P x p (src g e) -> path g P x (p ++ [e]) (dst g e).
Proof. intros P x p e Hl HP Hp. eapply path_app; [exact Hp | apply path_one; assumption]. Qed.
Lemma path_last : forall P x p e y, path g P x (p ++ [e]) y -> e < List.length g /\ P e /\ path g P x p (src g e) /\ y = dst g e.
Proof.
  intros P x p e y H. apply path_split in H as (z & H1 & H2). apply path_inv in H2 as (Hl & HP & -> & H2).
  apply path_inv in H2 as <-. split; [exact Hl | split; [exact HP | split; [exact H1 | reflexivity]]].
Qed.
Lemma path_all : forall (P : nat -> Prop) x p y, path g P x p y -> forall e, In e p -> P e /\ e < List.length g.
Proof.
  intros P x p y H. induction H as [x | e ed p y He HP Hp IH]; intros e' Hin; [destruct Hin |].
  destruct Hin as [<- | Hin]; [| apply IH; exact Hin]. split; [exact HP | apply nth_error_Some; rewrite He; discriminate].
Qed.
(** A set of nodes closed under the edges is closed under the paths. *)
Lemma path_closed : forall (P : nat -> Prop) (C : nat -> Prop),
  (forall e, e < List.length g -> P e -> C (src g e) -> C (dst g e)) -> forall x p y, path g P x p y -> C x -> C y.
Proof.
  intros P C HC x p y H. induction H as [x | e ed p y He HP Hp IH]; intro Hx; [exact Hx |].
  destruct (lookup_src _ _ _ He) as (Hs & Hd & _). apply IH. rewrite <- Hd. apply HC; [apply nth_error_Some; rewrite He; discriminate | exact HP |].
  rewrite Hs. exact Hx.
Qed.

Definition acyclic (P : nat -> Prop) : Prop := forall x p, path g P x p x -> p = [].
(** Without cycles a path has at most as many edges as the graph. *)
Lemma path_NoDup : forall P, acyclic P -> forall x p y, path g P x p y -> NoDup p.
Proof.
  intros P Hac x p y H. induction H as [x | e ed p y He HP Hp IH]; [constructor |]. constructor; [| exact IH].
  intro Hin. apply in_split in Hin as (p1 & p2 & ->).
  apply path_split in Hp as (z & Hp1 & Hp2). apply path_inv in Hp2 as (Hl & HP' & -> & Hp2).
  assert (Hc : path g P (src g e) (e :: p1) (src g e)).
  { apply path_cons'; [exact Hl | exact HP |]. destruct (lookup_src _ _ _ He) as (_ & -> & _). exact Hp1. }
  apply Hac in Hc. discriminate.
Qed.
Lemma path_length : forall P, acyclic P -> forall x p y, path g P x p y -> List.length p <= List.length g.
Proof.
  intros P Hac x p y H. assert (Hnd := path_NoDup _ Hac _ _ _ H).
  rewrite <- (seq_length (List.length g) 0). apply NoDup_incl_length; [exact Hnd |].
  intros e Hin. apply in_seq. assert (Hl := proj2 (path_all _ _ _ _ H _ Hin)). lia.
Qed.
End Paths.

(** ** Lists *)
Lemma flat_map_NoDup : forall (A B : Type) (f : A -> list B) l, NoDup l ->
  (forall a, In a l -> NoDup (f a)) ->
  (forall a a' b, In a l -> In a' l -> In b (f a) -> In b (f a') -> a = a') -> NoDup (flat_map f l).
Proof.
  intros A B f l H. induction H as [| a l Hn Hl IH]; intros H1 H2; cbn [flat_map]; [constructor |].
  assert (IH' : NoDup (flat_map f l)).
  { apply IH; [intros x Hx; apply H1; right; exact Hx |]. intros x y b Hx Hy. apply H2; right; assumption. }
  assert (Ha : NoDup (f a)) by (apply H1; left; reflexivity).
  assert (Hd : forall b, In b (f a) -> ~ In b (flat_map f l)).
  { intros b Hb Hin. apply in_flat_map in Hin as (a' & Ha' & Hb'). apply Hn.
    rewrite (H2 a a' b); [exact Ha' | left; reflexivity | right; exact Ha' | exact Hb | exact Hb']. }
  clear H1 H2 IH. induction Ha as [| b m Hb Hm IHm]; cbn [app]; [exact IH' |]. constructor.
  - rewrite in_app_iff. intros [H | H]; [contradiction | apply (Hd b); [left; reflexivity | exact H]].
  - apply IHm. intros c Hc. apply Hd. right. exact Hc.
Qed.
Lemma app_NoDup : forall (A : Type) (l m : list A), NoDup l -> NoDup m -> (forall x, In x l -> In x m -> False) -> NoDup (l ++ m).
Proof.
  intros A l m Hl Hm Hd. induction Hl as [| a l Hn Hl IH]; cbn [app]; [exact Hm |]. constructor.
  - rewrite in_app_iff. intros [H | H]; [contradiction | apply (Hd a); [left; reflexivity | exact H]].
  - apply IH. intros x Hx. apply Hd. right. exact Hx.
Qed.
Lemma filter_flat_map : forall (A B : Type) (P : B -> bool) (f : A -> list B) l,
  filter P (flat_map f l) = flat_map (fun a => filter P (f a)) l.
Proof.
  intros A B P f l. induction l as [| a l IH]; [reflexivity |]. cbn [flat_map]. rewrite filter_app, IH. reflexivity.
Qed.

(** ** The traversals *)
Section Traversals.
Variables (g : graph) (sat : list nat).
Hypothesis sat_valid : forall e, In e sat -> e < List.length g.
Let P := fun e => In e sat.

Lemma above_In : forall fuel u x, In x (above g sat fuel u) <-> exists p, path g P x p u /\ List.length p < fuel.
Proof.
  induction fuel as [| fuel IH]; intros u x; cbn [above].
  - split; [intros [] | intros (p & _ & H); lia].
  - cbn [In]. rewrite in_flat_map. split.
    + intros [<- | (e & He & Hx)].
      * exists []. split; [constructor | cbn [List.length]; lia].
      * apply in_rev, filter_In in He as [He Hs]. apply incoming_In in He as [Hl <-]. apply mem_In in Hs.
        apply IH in Hx as (p & Hp & Hlen). exists (p ++ [e]). split; [apply path_snoc; assumption |].
        rewrite app_length. cbn [List.length]. lia.
    + intros (p & Hp & Hlen). destruct p as [| e p _] using rev_ind.
      * apply path_inv in Hp. left. symmetry. exact Hp.
      * apply path_last in Hp as (Hl & He & Hp & ->). right. exists e. split.
        -- apply -> in_rev. apply filter_In. split; [apply incoming_In; split; [exact Hl | reflexivity] | apply mem_In; exact He].
        -- apply IH. exists p. split; [exact Hp |]. rewrite app_length in Hlen. cbn [List.length] in Hlen. lia.
Qed.
Lemma above_NoDup : forall (Q : nat -> bool),
  (forall x p q y, Q x = true -> path g P x p y -> path g P x q y -> p = q) ->
  forall fuel u, NoDup (filter Q (above g sat fuel u)).
Proof.
  intros Q HQ. induction fuel as [| fuel IH]; intro u; cbn [above]; [constructor |].
  cbn [filter]. rewrite filter_flat_map.
  assert (Hnd : NoDup (flat_map (fun e => filter Q (above g sat fuel (src g e)))
                                (rev (filter (fun e => mem e sat) (incoming g u))))).
  { apply flat_map_NoDup.
    - apply NoDup_rev, NoDup_filter, incoming_NoDup.
    - intros e _. apply IH.
    - intros e e' x He He' Hx Hx'.
      apply in_rev, filter_In in He as [He Hs]. apply incoming_In in He as [Hl Hd]. apply mem_In in Hs.
      apply in_rev, filter_In in He' as [He' Hs']. apply incoming_In in He' as [Hl' Hd']. apply mem_In in Hs'.
      apply filter_In in Hx as [Hx HQx]. apply filter_In in Hx' as [Hx' _].
      apply above_In in Hx as (p & Hp & _). apply above_In in Hx' as (p' & Hp' & _).
      assert (E : p ++ [e] = p' ++ [e']).
      { apply (HQ x _ _ u HQx).
        - rewrite <- Hd. apply path_snoc; assumption.
        - rewrite <- Hd'. apply path_snoc; assumption. }
      apply app_inj_tail in E as [_ E]. exact E. }
  destruct (Q u) eqn:Eu; [| exact Hnd]. constructor; [| exact Hnd].
  intro Hin. apply in_flat_map in Hin as (e & He & Hx). apply filter_In in Hx as [Hx _].
  apply in_rev, filter_In in He as [He Hs]. apply incoming_In in He as [Hl Hd]. apply mem_In in Hs.
  apply above_In in Hx as (p & Hp & _).
  assert (E : p ++ [e] = []).
  { apply (HQ u _ _ u Eu); [rewrite <- Hd at 2; apply path_snoc; assumption | constructor]. }
  destruct p; discriminate.
Qed.

Lemma below_In : forall fuel v e, In e (below g sat fuel v) <->
  exists p, path g P v (p ++ [e]) (dst g e) /\ List.length p < fuel.
Proof.
  induction fuel as [| fuel IH]; intros v e; cbn [below].
  - split; [intros [] | intros (p & _ & H); lia].
  - rewrite in_app_iff, in_flat_map. split.
    + intros [He | (e' & He' & He)].
      * apply filter_In in He as [He Hs]. apply outgoing_In in He as [Hl <-]. apply mem_In in Hs.
        exists []. split; [apply path_one; assumption | cbn [List.length]; lia].
      * apply in_rev, filter_In in He' as [He' Hs]. apply outgoing_In in He' as [Hl <-]. apply mem_In in Hs.
        apply IH in He as (p & Hp & Hlen). exists (e' :: p). split; [cbn [app]; apply path_cons'; assumption | cbn [List.length]; lia].
    + intros ([| e' p] & Hp & Hlen).
      * cbn [app] in Hp. apply path_inv in Hp as (Hl & He & -> & _). left. apply filter_In.
        split; [apply outgoing_In; split; [exact Hl | reflexivity] | apply mem_In; exact He].
      * cbn [app] in Hp. apply path_inv in Hp as (Hl & He & -> & Hp). right. exists e'. split.
        -- apply -> in_rev. apply filter_In. split; [apply outgoing_In; split; [exact Hl | reflexivity] | apply mem_In; exact He].
        -- apply IH. exists p. split; [exact Hp | cbn [List.length] in Hlen; lia].
Qed.
Lemma below_NoDup : forall fuel v, (forall p q y, path g P v p y -> path g P v q y -> p = q) -> NoDup (below g sat fuel v).
Proof.
  induction fuel as [| fuel IH]; intros v Hu; cbn [below]; [constructor |].
  assert (Hes : NoDup (filter (fun e => mem e sat) (outgoing g v))) by apply NoDup_filter, outgoing_NoDup.
  assert (Hin : forall e, In e (filter (fun e => mem e sat) (outgoing g v)) -> e < List.length g /\ P e /\ v = src g e).
  { intros e He. apply filter_In in He as [He Hs]. apply outgoing_In in He as [Hl <-]. apply mem_In in Hs.
    split; [exact Hl | split; [exact Hs | reflexivity]]. }
  apply app_NoDup; [exact Hes | |].
  - apply flat_map_NoDup; [apply NoDup_rev; exact Hes | |].
    + intros e He. apply in_rev in He. destruct (Hin e He) as (Hl & Hs & ->). apply IH. intros p q y Hp Hq.
      assert (E : e :: p = e :: q) by (apply (Hu _ _ y); apply path_cons'; assumption). injection E as E. exact E.
    + intros e e' b He He' Hb Hb'. apply in_rev in He. apply in_rev in He'.
      destruct (Hin e He) as (Hl & Hs & Hv). destruct (Hin e' He') as (Hl' & Hs' & Hv').
      apply below_In in Hb as (p & Hp & _). apply below_In in Hb' as (p' & Hp' & _).
      assert (E : e :: (p ++ [b]) = e' :: (p' ++ [b])).
      { apply (Hu _ _ (dst g b)); [rewrite Hv | rewrite Hv']; apply path_cons'; assumption. }
      injection E as E _. exact E.
  - intros b Hb Hb'. apply in_flat_map in Hb' as (e & He & Hb'). apply in_rev in He.
    destruct (Hin e He) as (Hl & Hs & Hv). destruct (Hin b Hb) as (Hlb & Hsb & Hvb).
    apply below_In in Hb' as (p & Hp & _).
    assert (E : [b] = e :: (p ++ [b])).
    { apply (Hu _ _ (dst g b)); [rewrite Hvb; apply path_one; assumption | rewrite Hv; apply path_cons'; assumption]. }
    injection E as _ E. destruct p; discriminate.
Qed.
End Traversals.
