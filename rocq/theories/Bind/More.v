(** Termination, sizes of the vectors, iteration over fields *)
From Coq Require Import String List Bool Arith NArith Lia Permutation.
From Verif.Bind Require Import Model Spec Run Args Proofs.
Import ListNotations.
Local Open Scope string_scope.
Local Open Scope nat_scope.
Local Open Scope list_scope.

Section More.
Variable S : schema.
Variable D : document.

(** ** Without cycles of fragments the binder ends *)
Section Div.
Variable bf : tid -> name -> state -> state * (err + nat).
Definition total_on (x : selection) : Prop := forall m, spreads_in x m -> forall p s, st_diverged (fst (bf p m s)) = st_diverged s.
Lemma bind_div x : total_on x -> forall p s, st_diverged (fst (bind_selection S bf p x s)) = st_diverged s.
Proof.
  induction x as [a n args dirs l IH | n dirs | c dirs l IH] using selection_rect'; intros HT p s.
  - assert (HL : forall p s, st_diverged (fst (bind_list S bf p l s)) = st_diverged s).
    { assert (HT' : Forall total_on l) by (apply Forall_forall; intros x Hx m Hm; apply HT; econstructor; eauto).
      clear -IH HT'. induction IH as [|x l Hx Hl IH]; intros p s; cbn [bind_list]; [reflexivity|]. inversion HT' as [|? ? T1 T2]; subst.
      specialize (Hx T1 p s). destruct (bind_selection S bf p x s) as [s1 o]. specialize (IH T2 p s1). destruct (bind_list S bf p l s1) as [s2 ids].
      cbn [fst] in *. congruence. }
    rewrite bind_selection_eq. cbv zeta. destruct (String.eqb_spec n "__typename") as [-> | Hn].
    { destruct (bind_dirs S dirs) as [es ds] eqn:E. cbn [fst]. cbn. now autorewrite with push. }
    destruct (s_kind S p); try reflexivity;
      (destruct (visible S p n) as [f|]; [|reflexivity]; destruct (composite (s_kind S (s_field_type S f)));
       [ specialize (HL (s_field_type S f) s); unfold bind_set; destruct (bind_list S bf (s_field_type S f) l s) as [s1 ids]; cbn [fst] in HL; cbn [fst snd];
         destruct (_ && _); [exact HL|] | destruct l; [|reflexivity] ];
       destruct (bind_args S f (s_args S f) args) as [es avs]; destruct (bind_dirs S dirs) as [es' ds]; cbn; autorewrite with push; auto).
  - rewrite bind_selection_eq. destruct (find (fun e => String.eqb (fst e) n) (st_map s)) as [[m id]|].
    + destruct (nth_error (st_frags s) id) as [fr|]; [destruct (s_intersects S p (fr_cond fr))|]; try reflexivity;
        destruct (bind_dirs S dirs) as [es ds]; cbn; now autorewrite with push.
    + pose proof (HT n (Sp_here _ _) p s) as H. destruct (bf p n s) as [s1 [e|id]]; cbn [fst] in H; [exact H|].
      destruct (bind_dirs S dirs) as [es ds]; cbn; now autorewrite with push.
  - assert (HL : forall p s, st_diverged (fst (bind_list S bf p l s)) = st_diverged s).
    { assert (HT' : Forall total_on l) by (apply Forall_forall; intros x Hx m Hm; apply HT; econstructor; eauto).
      clear -IH HT'. induction IH as [|x l Hx Hl IH]; intros p s; cbn [bind_list]; [reflexivity|]. inversion HT' as [|? ? T1 T2]; subst.
      specialize (Hx T1 p s). destruct (bind_selection S bf p x s) as [s1 o]. specialize (IH T2 p s1). destruct (bind_list S bf p l s1) as [s2 ids].
      cbn [fst] in *. congruence. }
    rewrite bind_selection_eq. cbv zeta. unfold bind_set.
    destruct c as [n|]; [destruct (bind_type_condition S p n) as [e|t]; [reflexivity|]; specialize (HL t s) | specialize (HL p s)];
      match goal with |- context [bind_list S bf ?q l s] => destruct (bind_list S bf q l s) as [s1 ids] end; cbn [fst] in HL;
      destruct (bind_dirs S dirs) as [es ds]; cbn; now autorewrite with push.
Qed.
Lemma bind_list_div l : Forall total_on l -> forall p s, st_diverged (fst (bind_list S bf p l s)) = st_diverged s.
Proof.
  induction 1 as [|x l Hx Hl IH]; intros p s; cbn [bind_list]; [reflexivity|].
  pose proof (bind_div x Hx p s) as E. destruct (bind_selection S bf p x s) as [s1 o]. specialize (IH p s1). destruct (bind_list S bf p l s1) as [s2 ids].
  cbn [fst] in *. congruence.
Qed.
End Div.
Lemma fragment_div rank : (forall n c l x m, lookup n (doc_frags D) (c, l) -> In x l -> spreads_in x m -> rank m < rank n) ->
  forall fuel n, rank n < fuel -> forall p s, st_diverged (fst (bind_fragment S D fuel p n s)) = st_diverged s.
Proof.
  intros HR. induction fuel as [|fuel IH]; intros n Hn p s; [lia|]. cbn [bind_fragment].
  destruct (find_fragment D n) as [[c l]|] eqn:F; [|reflexivity]. destruct (bind_type_condition S p c) as [e|t]; [reflexivity|].
  apply find_fragment_lookup in F. unfold bind_set.
  assert (HT : Forall (total_on (bind_fragment S D fuel)) l).
  { apply Forall_forall. intros x Hx m Hm q s'. apply IH. specialize (HR _ _ _ _ _ F Hx Hm). lia. }
  pose proof (bind_list_div _ l HT t s) as H. destruct (bind_list S (bind_fragment S D fuel) t l s) as [s1 ids]. exact H.
Qed.
Lemma rank_bound (rank : name -> nat) x : exists N, forall m, spreads_in x m -> rank m < N.
Proof.
  assert (HF : forall l, Forall (fun x => exists N, forall m, spreads_in x m -> rank m < N) l -> exists N, forall x m, In x l -> spreads_in x m -> rank m < N).
  { induction 1 as [|y l [N1 H1] Hl [N2 H2]]; [exists 0; intros ? ? []|]. exists (N1 + N2). intros x' m [<- | Hi] Hm; [specialize (H1 _ Hm)|specialize (H2 _ _ Hi Hm)]; lia. }
  induction x as [a n args dirs l IH | n dirs | c dirs l IH] using selection_rect'.
  - destruct (HF _ IH) as [N H]. exists N. intros m Hm. inversion Hm; subst. eauto.
  - exists (1 + rank n). intros m Hm. inversion Hm; subst. lia.
  - destruct (HF _ IH) as [N H]. exists N. intros m Hm. inversion Hm; subst. eauto.
Qed.
Theorem acyclic_ends root sels : acyclic D -> exists N, forall fuel, N <= fuel -> st_diverged (fst (bind_root S D fuel root sels)) = false.
Proof.
  intros [rank HR]. assert (HB : exists N, forall x m, In x sels -> spreads_in x m -> rank m < N).
  { induction sels as [|x l [N IH]]; [exists 0; intros ? ? []|]. destruct (rank_bound rank x) as [N1 H1]. exists (N1 + N).
    intros x' m [<- | Hi] Hm; [specialize (H1 _ Hm)|specialize (IH _ _ Hi Hm)]; lia. }
  destruct HB as [N HN]. exists N. intros fuel Hf. unfold bind_root, bind_set.
  assert (HT : Forall (total_on (bind_fragment S D fuel)) sels).
  { apply Forall_forall. intros x Hx m Hm p s. apply (fragment_div rank HR). specialize (HN _ _ Hx Hm). lia. }
  pose proof (bind_list_div _ sels HT root init) as H. destruct (bind_list S (bind_fragment S D fuel) root sels init) as [s1 ids]. exact H.
Qed.

(** ** Sizes *)
Definition nodes (s : state) : nat := List.length (st_data s) + List.length (st_typenames s) + List.length (st_inlines s) + List.length (st_spreads s).
Definition frag_size (n : name) : nat := match find_fragment D n with Some (_, l) => sizes l | None => 0 end.
Definition memo_size (s : state) : nat := list_sum (map (fun e => frag_size (fst e)) (st_map s)).
Lemma nodes_push_errors es s : nodes (push_errors es s) = nodes s.
Proof. unfold nodes. now autorewrite with push. Qed.
Lemma memo_push_errors es s : memo_size (push_errors es s) = memo_size s.
Proof. unfold memo_size. now autorewrite with push. Qed.
Lemma nodes_data x s : nodes (push_data x s) = 1 + nodes s. Proof. unfold nodes. cbn. rewrite app_length. cbn. lia. Qed.
Lemma nodes_typename x s : nodes (push_typename x s) = 1 + nodes s. Proof. unfold nodes. cbn. rewrite app_length. cbn. lia. Qed.
Lemma nodes_inline x s : nodes (push_inline x s) = 1 + nodes s. Proof. unfold nodes. cbn. rewrite app_length. cbn. lia. Qed.
Lemma nodes_spread x s : nodes (push_spread x s) = 1 + nodes s. Proof. unfold nodes. cbn. rewrite app_length. cbn. lia. Qed.
Lemma nodes_error x s : nodes (push_error x s) = nodes s. Proof. reflexivity. Qed.
Lemma nodes_frag n x s : nodes (push_frag n x s) = nodes s. Proof. reflexivity. Qed.
Lemma nodes_shared x s : nodes (push_shared x s) = nodes s. Proof. reflexivity. Qed.
Lemma nodes_diverge s : nodes (diverge s) = nodes s. Proof. reflexivity. Qed.
Lemma memo_data x s : memo_size (push_data x s) = memo_size s. Proof. reflexivity. Qed.
Lemma memo_typename x s : memo_size (push_typename x s) = memo_size s. Proof. reflexivity. Qed.
Lemma memo_inline x s : memo_size (push_inline x s) = memo_size s. Proof. reflexivity. Qed.
Lemma memo_spread x s : memo_size (push_spread x s) = memo_size s. Proof. reflexivity. Qed.
Lemma memo_error x s : memo_size (push_error x s) = memo_size s. Proof. reflexivity. Qed.
Lemma memo_frag n x s : memo_size (push_frag n x s) = frag_size n + memo_size s. Proof. reflexivity. Qed.
Lemma memo_shared x s : memo_size (push_shared x s) = memo_size s. Proof. reflexivity. Qed.
Lemma memo_diverge s : memo_size (diverge s) = memo_size s. Proof. reflexivity. Qed.
Hint Rewrite nodes_push_errors memo_push_errors nodes_data nodes_typename nodes_inline nodes_spread nodes_error nodes_frag nodes_shared nodes_diverge
  memo_data memo_typename memo_inline memo_spread memo_error memo_frag memo_shared memo_diverge : sz.
Lemma sizes_cons x l : sizes (x :: l) = size x + sizes l. Proof. reflexivity. Qed.
Lemma run_sizes :
  (forall p x s s' o, run S D p x s s' o -> nodes s' + memo_size s <= nodes s + size x + memo_size s') /\
  (forall p l s s' ids, run_list S D p l s s' ids -> nodes s' + memo_size s <= nodes s + sizes l + memo_size s') /\
  (forall p n s s' r, run_frag S D p n s s' r -> nodes s' + memo_size s <= nodes s + memo_size s').
Proof.
  apply run_mutind; intros; cbn [size]; autorewrite with sz; rewrite ?sizes_cons; unfold sizes in *; try lia.
  unfold frag_size at 1. match goal with H : find_fragment _ _ = _ |- _ => rewrite H end. unfold sizes. lia.
Qed.
Lemma run_shared :
  (forall p x s s' o, run S D p x s s' o ->
     nodes s + List.length (st_shared s') + (match o with Some _ => 1 | None => 0 end) <= nodes s' + List.length (st_shared s)) /\
  (forall p l s s' ids, run_list S D p l s s' ids -> nodes s + List.length (st_shared s') + List.length ids <= nodes s' + List.length (st_shared s)) /\
  (forall p n s s' r, run_frag S D p n s s' r -> nodes s + List.length (st_shared s') <= nodes s' + List.length (st_shared s)).
Proof.
  apply run_mutind; intros; autorewrite with sz;
    cbn [push_typename push_error push_data push_inline push_spread push_shared push_frag diverge st_shared] in *; autorewrite with push;
    cbn [push_shared st_shared List.length] in *; rewrite ?app_length; cbn [List.length] in *; lia.
Qed.
Lemma run_frags :
  (forall p x s s' o, run S D p x s s' o -> List.length (st_frags s) = List.length (st_map s) -> List.length (st_frags s') = List.length (st_map s')) /\
  (forall p l s s' ids, run_list S D p l s s' ids -> List.length (st_frags s) = List.length (st_map s) -> List.length (st_frags s') = List.length (st_map s')) /\
  (forall p n s s' r, run_frag S D p n s s' r -> List.length (st_frags s) = List.length (st_map s) -> List.length (st_frags s') = List.length (st_map s')).
Proof.
  apply run_mutind; intros; cbn [push_typename push_error push_data push_inline push_spread push_shared push_frag diverge st_map st_frags] in *; autorewrite with push;
    cbn [push_shared st_map st_frags List.length] in *; rewrite ?app_length; cbn [List.length]; auto; rewrite H3 by auto; lia.
Qed.

(** Each fragment is bound once *)
Lemma run_once rank : (forall n c l x m, lookup n (doc_frags D) (c, l) -> In x l -> spreads_in x m -> rank m < rank n) ->
  (forall p x s s' o, run S D p x s s' o -> forall k, (forall m, spreads_in x m -> rank m < k) -> NoDup (map fst (st_map s)) ->
     NoDup (map fst (st_map s')) /\ forall m, In m (map fst (st_map s')) -> In m (map fst (st_map s)) \/ rank m < k) /\
  (forall p l s s' ids, run_list S D p l s s' ids -> forall k, (forall x m, In x l -> spreads_in x m -> rank m < k) -> NoDup (map fst (st_map s)) ->
     NoDup (map fst (st_map s')) /\ forall m, In m (map fst (st_map s')) -> In m (map fst (st_map s)) \/ rank m < k) /\
  (forall p n s s' r, run_frag S D p n s s' r -> NoDup (map fst (st_map s)) ->
     NoDup (map fst (st_map s')) /\ forall m, In m (map fst (st_map s')) -> In m (map fst (st_map s)) \/ rank m <= rank n).
Proof.
  intros HR. apply run_mutind; intros; cbn [push_typename push_error push_data push_inline push_spread push_shared push_frag diverge st_map] in *;
    autorewrite with push in *; cbn [push_shared st_map] in *; auto.
  - apply H4; auto. intros x m Hx Hm. apply H6. econstructor; eauto.
  - apply H4; auto. intros x m Hx Hm. apply H8. econstructor; eauto.
  - apply H0; auto. intros x m Hx Hm. apply H2. econstructor; eauto.
  - apply H1; auto. intros x m Hx Hm. apply H3. econstructor; eauto.
  - destruct (H0 H3) as [A B]. split; [exact A|]. intros m Hm. destruct (B m Hm) as [X | X]; [auto|]. right. specialize (H2 n (Sp_here _ _)). lia.
  - destruct (H0 H2) as [A B]. split; [exact A|]. intros m Hm. destruct (B m Hm) as [X | X]; [auto|]. right. specialize (H1 n (Sp_here _ _)). lia.
  - destruct (H0 k) as [A B]; auto. { intros m Hm. eapply H3; [now left|exact Hm]. }
    destruct (H2 k) as [A' B']; auto. { intros y m Hy Hm. eapply H3; [now right; exact Hy|exact Hm]. }
    split; [exact A'|]. intros m Hm. destruct (B' m Hm) as [X | X]; auto.
  - destruct (H0 k) as [A B]; auto. { intros m Hm. eapply H3; [now left|exact Hm]. }
    destruct (H2 k) as [A' B']; auto. { intros y m Hy Hm. eapply H3; [now right; exact Hy|exact Hm]. }
    split; [exact A'|]. intros m Hm. destruct (B' m Hm) as [X | X]; auto.
  - apply find_fragment_lookup in H0. destruct (H3 (rank n)) as [A B]; auto. { intros x m Hx Hm. eapply HR; eauto. }
    cbn [map fst]. split.
    + constructor; [|exact A]. intros Hin. destruct (B _ Hin) as [X | X]; [|lia].
      apply in_map_iff in X. destruct X as [[m' id] [E Hi]]. cbn in E. subst m'. pose proof (find_none _ _ H _ Hi) as Q. cbn in Q. now rewrite String.eqb_refl in Q.
    + intros m [<- | Hm]; [right; lia|]. destruct (B _ Hm) as [X | X]; [auto|]. right. lia.
Qed.
Definition sum_by (g : name -> nat) (l : list name) : nat := list_sum (map g l).
Lemma sum_cons g m l : sum_by g (m :: l) = g m + sum_by g l. Proof. reflexivity. Qed.
Lemma sum_remove g n l : NoDup l -> sum_by g l <= (if in_dec string_dec n l then g n else 0) + sum_by g (remove string_dec n l).
Proof.
  induction l as [|m l IH]; intros HN; [cbn; lia|]. inversion HN as [|? ? H1 H2]; subst. specialize (IH H2).
  cbn [remove]. destruct (string_dec n m) as [<- | Hne].
  - destruct (in_dec string_dec n (n :: l)) as [_ | X]; [|destruct X; now left].
    destruct (in_dec string_dec n l) as [X | _]; [contradiction|]. rewrite sum_cons. lia.
  - rewrite !sum_cons.
    destruct (in_dec string_dec n (m :: l)) as [X | X]; destruct (in_dec string_dec n l) as [Y | Y]; try lia.
    destruct X. now right.
Qed.
Lemma nodup_remove n l : NoDup l -> NoDup (remove string_dec n l).
Proof.
  induction 1 as [|m l H1 H2 IH]; cbn; [constructor|]. destruct (string_dec n m); [exact IH|]. constructor; [|exact IH]. intros H. apply in_remove in H. now apply H1.
Qed.
Lemma memo_bound (frags : list (name * (name * list selection))) : forall l, NoDup l ->
  sum_by (fun n => match option_map snd (find (fun f => String.eqb (fst f) n) frags) with Some (_, l) => sizes l | None => 0 end) l <= list_sum (map (fun f => sizes (snd (snd f))) frags).
Proof.
  induction frags as [|[k [c b]] frags IH]; intros l HN.
  - cbn. clear HN. induction l as [|x l IHl]; [reflexivity|]. rewrite sum_cons. exact IHl.
  - etransitivity; [apply (sum_remove _ k l HN)|]. specialize (IH _ (nodup_remove k l HN)).
    cbn [map list_sum fold_right snd]. fold (list_sum (map (fun f : name * (name * list selection) => sizes (snd (snd f))) frags)).
    assert (E : sum_by (fun n => match option_map snd (find (fun f => String.eqb (fst f) n) ((k, (c, b)) :: frags)) with Some (_, l) => sizes l | None => 0 end) (remove string_dec k l)
              = sum_by (fun n => match option_map snd (find (fun f => String.eqb (fst f) n) frags) with Some (_, l) => sizes l | None => 0 end) (remove string_dec k l)).
    { unfold sum_by. f_equal. apply map_ext_in. intros m Hm. apply in_remove in Hm. destruct Hm as [_ Hm]. cbn [find fst].
      destruct (String.eqb_spec k m) as [-> | _]; [contradiction|reflexivity]. }
    rewrite E. cbn [find fst]. destruct (in_dec string_dec k l); [rewrite String.eqb_refl; cbn [option_map snd]|]; lia.
Qed.
Lemma memo_names root sels s ids : run_list S D root sels init s ids -> memo_ok S D s.
Proof. intros R. apply (proj1 (proj2 (run_memo S D)) _ _ _ _ _ R). intros n id []. Qed.
Theorem bound_sizes fuel root sels s r : acyclic D -> bind_root S D fuel root sels = (s, r) ->
  nodes s <= document_size D sels /\ List.length (st_shared s) <= nodes s /\ List.length (st_frags s) <= List.length (doc_frags D).
Proof.
  intros [rank HR] H. destruct (bind_root_runs S D fuel root sels) as [s0 [ids [R E]]]. rewrite E in H. injection H as <- <-.
  pose proof (proj1 (proj2 run_sizes) _ _ _ _ _ R) as H1. pose proof (proj1 (proj2 run_shared) _ _ _ _ _ R) as H2.
  pose proof (proj1 (proj2 run_frags) _ _ _ _ _ R eq_refl) as H3.
  assert (HB : exists N, forall x m, In x sels -> spreads_in x m -> rank m < N).
  { clear. induction sels as [|x l [N IH]]; [exists 0; intros ? ? []|]. destruct (rank_bound rank x) as [N1 H1]. exists (N1 + N).
    intros x' m [<- | Hi] Hm; [specialize (H1 _ Hm)|specialize (IH _ _ Hi Hm)]; lia. }
  destruct HB as [N HN]. destruct (proj1 (proj2 (run_once rank HR)) _ _ _ _ _ R N HN) as [ND _]; [constructor|].
  pose proof (memo_bound (doc_frags D) _ ND) as H4.
  change (nodes init) with 0 in *. change (memo_size init) with 0 in *. change (List.length (st_shared init)) with 0 in *.
  assert (EM : memo_size s0 = sum_by (fun n => match option_map snd (find (fun f => String.eqb (fst f) n) (doc_frags D)) with Some (_, l) => sizes l | None => 0 end) (map fst (st_map s0))).
  { unfold memo_size, sum_by, frag_size, find_fragment. now rewrite map_map. }
  rewrite <- EM in H4. change (nodes (push_shared ids s0)) with (nodes s0). cbn [push_shared st_shared st_frags]. rewrite app_length.
  unfold document_size. split; [lia|split; [lia|]].
  rewrite H3, <- (map_length fst (st_map s0)), <- (map_length fst (doc_frags D)). apply NoDup_incl_length; [exact ND|].
  intros n Hn. apply in_map_iff in Hn. destruct Hn as [[m id] [<- Hi]]. destruct (memo_names _ _ _ _ R _ _ Hi) as [c [l [t [fr [L _]]]]].
  apply lookup_in in L. cbn. apply in_map_iff. exists (m, (c, l)). auto.
Qed.

(** ** Iteration over the fields *)
Lemma collect_more fuel : forall s st out, collect fuel s st = Some out -> forall k, collect (fuel + k) s st = Some out.
Proof.
  induction fuel as [|fuel IH]; intros s st out H k; [discriminate|]. cbn [collect Nat.add] in *.
  destruct st as [|[|id ids] st]; [exact H|now apply IH|].
  destruct id as [n|n|n|n].
  - destruct (collect fuel s (ids :: st)) as [o|] eqn:E; [|discriminate]. now rewrite (IH _ _ _ E).
  - destruct (collect fuel s (ids :: st)) as [o|] eqn:E; [|discriminate]. now rewrite (IH _ _ _ E).
  - destruct (nth_error (st_spreads s) n) as [sp|]; [|discriminate]. destruct (nth_error (st_frags s) (sp_frag sp)) as [fr|]; [|discriminate]. now apply IH.
  - destruct (nth_error (st_inlines s) n) as [i|]; [|discriminate]. now apply IH.
Qed.
Lemma collect_flattens s :
  (forall id y, reads s id y -> forall ids st fuel outs, collect fuel s (ids :: st) = Some outs ->
     exists fuel' out, collect fuel' s ((id :: ids) :: st) = Some (out ++ outs) /\ reads_all s out (flatten y)) /\
  (forall r ys, reads_set s r ys -> forall st fuel outs, collect fuel s st = Some outs ->
     exists fuel' out, collect fuel' s (slice (st_shared s) r :: st) = Some (out ++ outs) /\ reads_all s out (flat_map flatten ys)) /\
  (forall ids ys, reads_all s ids ys -> forall st fuel outs, collect fuel s st = Some outs ->
     exists fuel' out, collect fuel' s (ids :: st) = Some (out ++ outs) /\ reads_all s out (flat_map flatten ys)).
Proof.
  apply (reads_mutind s).
  - intros n tf N ids st fuel outs H. exists (1 + fuel), [IdTypename n]. cbn [Nat.add collect]. rewrite H. split; [reflexivity|].
    cbn [flatten]. constructor; [now constructor|constructor].
  - intros n df subs N RS _ ids st fuel outs H. exists (1 + fuel), [IdField n]. cbn [Nat.add collect]. rewrite H. split; [reflexivity|].
    cbn [flatten]. constructor; [now constructor|constructor].
  - intros n i subs N RS IH ids st fuel outs H. destruct (IH _ _ _ H) as [fuel' [out [E R]]]. exists (1 + fuel'), out. cbn [Nat.add collect]. rewrite N. auto.
  - intros n sp fr subs N F RS IH ids st fuel outs H. destruct (IH _ _ _ H) as [fuel' [out [E R]]]. exists (1 + fuel'), out. cbn [Nat.add collect]. rewrite N, F. auto.
  - intros r subs _ RA IH st fuel outs H. now apply (IH _ _ _ H).
  - intros st fuel outs H. exists (1 + fuel), []. cbn [Nat.add collect]. split; [exact H|constructor].
  - intros id ids y ys R IH1 RS IH2 st fuel outs H. destruct (IH2 _ _ _ H) as [f2 [o2 [E2 R2]]]. destruct (IH1 _ _ _ _ E2) as [f1 [o1 [E1 R1]]].
    exists f1, (o1 ++ o2). rewrite <- app_assoc. split; [exact E1|]. cbn [flat_map]. clear -R1 R2. induction R1; cbn; [exact R2|]. constructor; auto.
Qed.
Theorem fields_flatten s r ys : reads_set s r ys -> exists N out, (forall fuel, N <= fuel -> fields fuel s r = Some out) /\ reads_all s out (flat_map flatten ys).
Proof.
  intros R. destruct (proj1 (proj2 (collect_flattens s)) _ _ R [] 1 [] eq_refl) as [N [out [E H]]]. rewrite app_nil_r in E. exists N, out. split; [|exact H].
  intros fuel Hf. replace fuel with (N + (fuel - N)) by lia. now apply collect_more.
Qed.
(** ids denote one tree *)
Lemma reads_fun s :
  (forall id y, reads s id y -> forall z, reads s id z -> y = z) /\ (forall r ys, reads_set s r ys -> forall zs, reads_set s r zs -> ys = zs) /\
  (forall ids ys, reads_all s ids ys -> forall zs, reads_all s ids zs -> ys = zs).
Proof.
  apply (reads_mutind s).
  - intros n tf N z Hz. inversion Hz as [? tf' N'| | |]; subst. congruence.
  - intros n df subs N R IH z Hz. inversion Hz as [|? df' subs' N' R'| |]; subst. rewrite N in N'. injection N' as <-. f_equal. auto.
  - intros n i subs N R IH z Hz. inversion Hz as [| |? i' subs' N' R'|]; subst. rewrite N in N'. injection N' as <-. f_equal. auto.
  - intros n sp fr subs N F R IH z Hz. inversion Hz as [| | |? sp' fr' subs' N' F' R']; subst. rewrite N in N'. injection N' as <-. rewrite F in F'. injection F' as <-. f_equal. auto.
  - intros r subs _ R IH zs Hz. inversion Hz; subst. auto.
  - intros zs Hz. now inversion Hz.
  - intros id ids y ys R IH1 RS IH2 zs Hz. inversion Hz; subst. f_equal; auto.
Qed.
End More.
