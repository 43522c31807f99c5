(** finalize_inaccessible: the loops end, and nothing that has to be hidden is forgotten, except
    for input values of types that only lose their last part in the process. *)
From Coq Require Import String List Arith ZArith Bool Lia.
From Verif.Contracts Require Import Model Spec Finalize.
Import ListNotations.
Local Open Scope nat_scope.
Local Open Scope list_scope.

Lemma fold_seq_inv : forall A (f : A -> nat -> A) (P : nat -> A -> Prop) n a,
  P 0 a -> (forall k a, k < n -> P k a -> P (S k) (f a k)) -> P n (fold_left f (seq 0 n) a).
Proof.
  intros A f P n; induction n as [|n IH]; intros a H0 H; [exact H0|].
  rewrite seq_S, fold_left_app. simpl. apply H; [lia|]. apply IH; [exact H0|]. intros; apply H; [lia|assumption].
Qed.

(** ** Counting what isn't marked *)
Definition unmarked (l : list tdef) (m : marks) : nat := List.length (filter (fun t => negb (m (SType t))) l).
Lemma unmarked_le : forall l m m', le m m' -> unmarked l m' <= unmarked l m.
Proof.
  intros l m m' H; unfold unmarked; induction l as [|t l IH]; simpl; [lia|].
  destruct (m (SType t)) eqn:E; simpl.
  - rewrite (H _ E). simpl. exact IH.
  - destruct (m' (SType t)); simpl; lia.
Qed.
Lemma unmarked_set : forall l m t, In t l -> m (SType t) = false -> S (unmarked l (set m (SType t) true)) <= unmarked l m.
Proof.
  intros l m t H E; induction l as [|x l IH]; [destruct H|].
  unfold unmarked in *; simpl. destruct (tdef_eqb x t) eqn:X.
  - apply tdef_eqb_eq in X; subst x. rewrite set_same, E. simpl.
    pose proof (unmarked_le l m (set m (SType t) true) (le_set m (SType t))) as K. unfold unmarked in K. lia.
  - rewrite set_other.
    + destruct H as [->|H]; [replace (tdef_eqb t t) with true in X by (symmetry; apply tdef_eqb_eq; reflexivity); discriminate|].
      specialize (IH H). destruct (m (SType x)); simpl; lia.
    + intro K. injection K as ->. replace (tdef_eqb x x) with true in X by (symmetry; apply tdef_eqb_eq; reflexivity). discriminate.
Qed.
Lemma unmarked_bound : forall l m, unmarked l m <= List.length l.
Proof. intros l m; unfold unmarked; induction l as [|t l IH]; simpl; [lia|]. destruct (negb _); simpl; lia. Qed.

Section Graph.
Variable g : graph.
Hypothesis W : wf g.
Hypothesis WT : wf_types g.

Lemma in_types : forall t, in_range g t <-> In t (types g).
Proof.
  intros t. unfold types. rewrite !in_app_iff, !in_map_iff. split.
  - destruct t as [n|n|n|n|n|n]; simpl; intro H;
      [left | right; left | right; right; left | right; right; right; left
       | right; right; right; right; left | right; right; right; right; right];
      exists n; (split; [reflexivity|apply in_ids; exact H]).
  - intros [[n [<- H]]|[[n [<- H]]|[[n [<- H]]|[[n [<- H]]|[[n [<- H]]|[n [<- H]]]]]]]; apply in_ids in H; exact H.
Qed.
Lemma entity_in : forall f, f < List.length (g_fields g) -> in_range g (entity_type (f_parent (field_of g f))).
Proof.
  intros f L. pose proof (wf_field_parent g W f L) as P. destruct (f_parent (field_of g f)) as [o|i]; simpl in *.
  - destruct (Nat.lt_ge_cases o (List.length (g_objects g))) as [A|A]; [exact A|].
    unfold object_of in P. rewrite nth_overflow in P by exact A. destruct P.
  - destruct (Nat.lt_ge_cases i (List.length (g_interfaces g))) as [A|A]; [exact A|].
    unfold interface_of in P. rewrite nth_overflow in P by exact A. destruct P.
Qed.
Lemma input_in : forall v o, In v (input_of g o) -> in_range g (TInput o).
Proof.
  intros v o H. simpl. destruct (Nat.lt_ge_cases o (List.length (g_inputs g))) as [A|A]; [exact A|].
  unfold input_of in H. rewrite nth_overflow in H by exact A. destruct H.
Qed.

(** ** Input values *)
Definition nv := List.length (g_values g).
(** What holds of the values once the first two loops are done. *)
Record values_closed (m : marks) (ok : nat -> Prop) : Prop := MkVC {
  vc_internal : forall v, v < nv -> ok v -> v_internal (value_of g v) = true -> m (SValue v) = true;
  vc_required : forall v, v < nv -> ok v -> v_required (value_of g v) = true -> v_internal (value_of g v) = false ->
     m (SValue v) = true -> m (vparent_site (v_parent (value_of g v))) = true }.

Definition not_input (t : tdef) : Prop := match t with TInput _ => False | _ => True end.

Lemma value_step_types : forall m k, same_on (fun s => match s with SType t => not_input t | _ => False end) m (value_step g m k).
Proof.
  intros m k. unfold value_step. set (v := value_of g k).
  set (m1 := if m (SType (v_ty v)) || v_internal v then set m (SValue k) true else m).
  assert (H1 : same_on (fun s => match s with SType t => not_input t | _ => False end) m m1).
  { unfold m1. destruct (_ || _); [apply same_set; intros []|apply same_refl]. }
  destruct (_ && _ && _); [|exact H1]. eapply same_trans; [exact H1|]. apply same_set. destruct (v_parent v); intros [].
Qed.
Lemma value_step_le : forall m k, le m (value_step g m k).
Proof.
  intros m k. unfold value_step. set (v := value_of g k).
  set (m1 := if m (SType (v_ty v)) || v_internal v then set m (SValue k) true else m).
  assert (H1 : le m m1) by (unfold m1; destruct (_ || _); [apply le_set|apply le_refl]).
  destruct (_ && _ && _); [|exact H1]. eapply le_trans; [exact H1|apply le_set].
Qed.
Lemma value_step_other : forall m k v, v <> k -> value_step g m k (SValue v) = m (SValue v).
Proof.
  intros m k v N. unfold value_step. set (w := value_of g k).
  set (m1 := if m (SType (v_ty w)) || v_internal w then set m (SValue k) true else m).
  assert (H1 : m1 (SValue v) = m (SValue v)).
  { unfold m1. destruct (_ || _); [|reflexivity]. apply set_other. intro K; injection K as K; congruence. }
  destruct (_ && _ && _); [|exact H1]. rewrite set_other; [exact H1|]. destruct (v_parent w); discriminate.
Qed.

Lemma values_loop_closed : forall m, let m1 := values_loop g m in
  le m m1 /\ values_closed m1 (fun _ => True) /\
  same_on (fun s => match s with SType t => not_input t | _ => False end) m m1 /\
  (forall v, v < nv -> not_input (v_ty (value_of g v)) -> m1 (SType (v_ty (value_of g v))) = true -> m1 (SValue v) = true).
Proof.
  intros m m1.
  assert (K : le m m1 /\ values_closed m1 (fun v => v < nv) /\
     same_on (fun s => match s with SType t => not_input t | _ => False end) m m1 /\
     (forall v, v < nv -> m (SType (v_ty (value_of g v))) = true -> m1 (SValue v) = true)).
  { unfold m1, values_loop, ids. fold nv.
    apply (fold_seq_inv _ (value_step g) (fun k x => le m x /\ values_closed x (fun v => v < k) /\
       same_on (fun s => match s with SType t => not_input t | _ => False end) m x /\
       (forall v, v < k -> m (SType (v_ty (value_of g v))) = true -> x (SValue v) = true))).
    - split; [apply le_refl|]. split; [split; intros; lia|]. split; [apply same_refl|intros; lia].
    - intros k x Lk [A [B [C D]]].
      split; [eapply le_trans; [exact A|apply value_step_le]|].
      split; [|split; [eapply same_trans; [exact C|apply value_step_types]|]].
      + split.
        * intros v Lv Kv I1. destruct (Nat.eq_dec v k) as [->|N].
          -- unfold value_step. rewrite I1, orb_true_r.
             destruct (_ && _ && _); [apply set_grows|]; apply set_same.
          -- apply value_step_le. apply (vc_internal _ _ B v Lv); [lia|exact I1].
        * intros v Lv Kv R I1 M. destruct (Nat.eq_dec v k) as [->|N].
          -- unfold value_step in *. revert M.
             set (m2 := if x (SType (v_ty (value_of g k))) || v_internal (value_of g k) then set x (SValue k) true else x).
             rewrite R, I1, !andb_true_r. destruct (m2 (SValue k)) eqn:M2; [intros _; apply set_same|].
             intro M. congruence.
          -- rewrite value_step_other in M by exact N. apply value_step_le. apply (vc_required _ _ B v Lv); [lia|exact R|exact I1|exact M].
      + intros v Kv T. destruct (Nat.eq_dec v k) as [->|N]; [|apply value_step_le, D; [lia|exact T]].
        unfold value_step. rewrite (A _ T). simpl. destruct (_ && _ && _); [apply set_grows|]; apply set_same. }
  destruct K as [A [B [C D]]]. split; [exact A|]. split; [|split; [exact C|]].
  - split; intros; [apply (vc_internal _ _ B)|apply (vc_required _ _ B)]; assumption.
  - intros v L N T. apply D; [exact L|]. rewrite <- (C (SType (v_ty (value_of g v)))); [exact T|exact N].
Qed.

(** The second loop. [rest]: values of [o] that are still to be looked at. *)
Record inputs_inv (m : marks) (stack : list nat) (o : option nat) (rest : list nat) : Prop := MkII {
  ii_closed : values_closed m (fun _ => True);
  ii_other : forall v, v < nv -> not_input (v_ty (value_of g v)) -> m (SType (v_ty (value_of g v))) = true -> m (SValue v) = true;
  ii_input : forall v p, v < nv -> v_ty (value_of g v) = TInput p -> m (SType (TInput p)) = true ->
     m (SValue v) = true \/ In p stack \/ (o = Some p /\ In v rest) }.

Lemma input_user_types : forall st k, same_on (fun s => match s with SType t => not_input t | _ => False end) (fst st) (fst (input_user g st k)).
Proof.
  intros [m stack] k. unfold input_user. simpl. destruct (m (SValue k)); [apply same_refl|].
  assert (H1 : same_on (fun s => match s with SType t => not_input t | _ => False end) m (set m (SValue k) true))
    by (apply same_set; intros []).
  set (m1 := set m (SValue k) true) in *. destruct (_ && _); [|exact H1].
  destruct (v_parent _) as [f|p]; [simpl; eapply same_trans; [exact H1|]; apply same_set; intros []|].
  destruct (m1 _); [exact H1|]. simpl; eapply same_trans; [exact H1|]; apply same_set; intros [].
Qed.

Lemma input_user_inv : forall m stack o k rest, inputs_inv m stack (Some o) (k :: rest) -> k < nv ->
  let st := input_user g (m, stack) k in inputs_inv (fst st) (snd st) (Some o) rest.
Proof.
  intros m stack o k rest [C O I] Lk st.
  pose proof (input_user_le g (m, stack) k) as L. fold st in L. cbn [fst] in L.
  pose proof (input_user_types (m, stack) k) as T. fold st in T. cbn [fst] in T.
  assert (B : forall v, fst st (SValue v) = true -> v = k \/ m (SValue v) = true).
  { intros v. unfold st, input_user. destruct (m (SValue k)); [right; assumption|].
    set (m1 := set m (SValue k) true).
    assert (K1 : m1 (SValue v) = true -> v = k \/ m (SValue v) = true)
      by (intro K; destruct (set_true _ _ _ K) as [E|E]; [left; injection E as ->; reflexivity|right; exact E]).
    destruct (_ && _); [|exact K1]. destruct (v_parent _) as [f|p]; simpl.
    - intro K; apply K1. rewrite set_other in K; [exact K|discriminate].
    - destruct (m1 (SType (TInput p))); [exact K1|]. simpl. intro K; apply K1. rewrite set_other in K; [exact K|discriminate]. }
  assert (Mk : fst st (SValue k) = true).
  { unfold st, input_user. destruct (m (SValue k)) eqn:E; [exact E|].
    set (m1 := set m (SValue k) true). assert (K1 : m1 (SValue k) = true) by apply set_same.
    destruct (_ && _); [|exact K1]. destruct (v_parent _) as [f|p]; simpl; [apply set_grows, K1|].
    destruct (m1 (SType (TInput p))); [exact K1|]. simpl. apply set_grows, K1. }
  split.
  - split.
    + intros v Lv _ I1. apply L, (vc_internal _ _ C v Lv Logic.I I1).
    + intros v Lv _ R I1 M. destruct (B v M) as [->|M'].
      2: apply L, (vc_required _ _ C v Lv Logic.I R I1 M').
      destruct (m (SValue k)) eqn:E; [apply L, (vc_required _ _ C k Lk Logic.I R I1 E)|].
      unfold st, input_user. rewrite E, R, I1. cbn [negb andb].
      destruct (v_parent (value_of g k)) as [f|p]; cbn [fst vparent_site]; [apply set_same|].
      destruct (set m (SValue k) true (SType (TInput p))) eqn:E2; cbn [fst]; [exact E2|apply set_same].
  - intros v Lv N M. apply L. apply (O v Lv N).
    rewrite <- (T (SType (v_ty (value_of g v)))); [exact M|exact N].
  - intros v p Lv Tv M.
    destruct (m (SType (TInput p))) eqn:E.
    + destruct (I v p Lv Tv E) as [H|[H|[H1 [<-|H2]]]].
      * left; apply L, H.
      * right; left. unfold st, input_user. destruct (m (SValue k)); [exact H|].
        destruct (_ && _); [|exact H]. destruct (v_parent _) as [f|q]; [exact H|].
        destruct (set m (SValue k) true (SType (TInput q))); [exact H|right; exact H].
      * left; exact Mk.
      * right; right; split; assumption.
    + right; left. revert M. unfold st, input_user. destruct (m (SValue k)); [simpl; intro M; congruence|].
      set (m1 := set m (SValue k) true). assert (E1 : m1 (SType (TInput p)) = false) by (unfold m1; rewrite set_other; [exact E|discriminate]).
      destruct (_ && _); [|simpl; intro M; congruence].
      destruct (v_parent _) as [f|q]; [simpl; intro M; rewrite set_other in M; [congruence|discriminate]|].
      destruct (m1 (SType (TInput q))) eqn:E2; simpl; intro M; [congruence|].
      destruct (set_true _ _ _ M) as [K|K]; [injection K as ->; left; reflexivity|congruence].
Qed.

Lemma input_users_inv : forall rest m stack o, inputs_inv m stack (Some o) rest -> (forall v, In v rest -> v < nv) ->
  let st := fold_left (input_user g) rest (m, stack) in inputs_inv (fst st) (snd st) None [].
Proof.
  intro rest; induction rest as [|k rest IH]; intros m stack o H L.
  - simpl. destruct H as [C O I]. split; [exact C|exact O|]. intros v p Lv Tv M.
    destruct (I v p Lv Tv M) as [A|[A|[_ []]]]; [left; exact A|right; left; exact A].
  - cbn [fold_left]. pose proof (input_user_inv m stack o k rest H (L k (or_introl eq_refl))) as K.
    destruct (input_user g (m, stack) k) as [m1 s1]. simpl in K. apply (IH m1 s1 o K). intros; apply L; right; assumption.
Qed.

(** The measure of the second loop. *)
Lemma input_user_measure : forall st k, k < nv ->
  let st' := input_user g st k in
  unmarked (types g) (fst st') + List.length (snd st') <= unmarked (types g) (fst st) + List.length (snd st).
Proof.
  intros [m stack] k Lk. unfold input_user. simpl. destruct (m (SValue k)); [simpl; lia|].
  pose proof (unmarked_le (types g) _ _ (le_set m (SValue k))) as L1. set (m1 := set m (SValue k) true) in *.
  destruct (_ && _); [|simpl; lia]. destruct (v_parent (value_of g k)) as [f|p] eqn:P; simpl.
  - pose proof (unmarked_le (types g) _ _ (le_set m1 (SField f))). lia.
  - destruct (m1 (SType (TInput p))) eqn:E; simpl; [lia|].
    assert (In (TInput p) (types g)).
    { apply in_types. pose proof (wf_value_parent g W k Lk) as Q. rewrite P in Q. apply input_in with k; exact Q. }
    pose proof (unmarked_set (types g) m1 (TInput p) H E). lia.
Qed.
Lemma input_users_measure : forall l st, (forall v, In v l -> v < nv) ->
  let st' := fold_left (input_user g) l st in
  unmarked (types g) (fst st') + List.length (snd st') <= unmarked (types g) (fst st) + List.length (snd st).
Proof.
  intro l; induction l as [|k l IH]; intros st L; [simpl; lia|]. cbn [fold_left].
  pose proof (input_user_measure st k (L k (or_introl eq_refl))) as A.
  specialize (IH (input_user g st k) (fun v Hv => L v (or_intror Hv))). cbv zeta in *. lia.
Qed.

Lemma inputs_loop_done : forall fuel stack m, inputs_inv m stack None [] ->
  unmarked (types g) m + List.length stack < fuel ->
  exists m', inputs_loop fuel g stack m = Done m' /\ inputs_inv m' [] None [] /\ le m m' /\
    same_on (fun s => match s with SType t => not_input t | _ => False end) m m'.
Proof.
  intro fuel; induction fuel as [|n IH]; intros stack m H F; [lia|].
  destruct stack as [|o rest]; simpl.
  - exists m. split; [reflexivity|]. split; [exact H|]. split; [apply le_refl|apply same_refl].
  - assert (Lv : forall v, In v (values_of g o) -> v < nv) by (intros v Hv; apply (values_of_in g) in Hv; apply Hv).
    assert (H1 : inputs_inv m rest (Some o) (values_of g o)).
    { destruct H as [C O I]. split; [exact C|exact O|]. intros v p L T M.
      destruct (I v p L T M) as [A|[[->|A]|[A _]]]; [left; exact A| |right; left; exact A|discriminate].
      right; right. split; [reflexivity|]. apply (values_of_in g). split; assumption. }
    pose proof (input_users_inv _ _ _ _ H1 Lv) as H2.
    pose proof (input_users_measure (values_of g o) (m, rest) Lv) as M. cbv zeta in H2, M.
    pose proof (fold_le _ _ (input_user g) fst (input_user_le g) (values_of g o) (m, rest)) as L.
    pose proof (fold_same _ _ _ (input_user g) fst (values_of g o) (fun a b _ => input_user_types a b) (m, rest)) as T.
    destruct (fold_left (input_user g) (values_of g o) (m, rest)) as [m1 s1]. cbn [fst snd] in *.
    simpl in F. destruct (IH s1 m1 H2) as [m' [E [A [B D]]]]; [lia|].
    exists m'. split; [exact E|]. split; [exact A|]. split; [eapply le_trans; eassumption|eapply same_trans; eassumption].
Qed.

Lemma filter_split : forall A (p : A -> bool) l, List.length (filter p l) + List.length (filter (fun x => negb (p x)) l) = List.length l.
Proof. intros A p l; induction l as [|x l IH]; simpl; [reflexivity|]. destruct (p x); simpl; lia. Qed.
Lemma filter_map_len : forall A B (f : A -> B) (p : B -> bool) l, List.length (filter p (map f l)) = List.length (filter (fun x => p (f x)) l).
Proof. intros A B f p l; induction l as [|x l IH]; simpl; [reflexivity|]. destruct (p (f x)); simpl; rewrite IH; reflexivity. Qed.
Lemma hidden_inputs_measure : forall m, unmarked (types g) m + List.length (hidden_inputs g m) <= List.length (types g).
Proof.
  intro m. pose proof (filter_split _ (fun t => m (SType t)) (types g)) as H. unfold unmarked.
  assert (List.length (hidden_inputs g m) <= List.length (filter (fun t => m (SType t)) (types g))); [|lia].
  unfold types. rewrite !filter_app, !app_length.
  rewrite (filter_map_len _ _ TInput). unfold hidden_inputs. lia.
Qed.

(** The first two loops together. *)
Lemma values_done : forall m, exists m2,
  inputs_loop (fuel_of g) g (rev (hidden_inputs g (values_loop g m))) (values_loop g m) = Done m2 /\
  inputs_inv m2 [] None [] /\ le m m2 /\ same_on (fun s => match s with SType t => not_input t | _ => False end) m m2.
Proof.
  intro m. destruct (values_loop_closed m) as [A [B [C D]]]. set (m1 := values_loop g m) in *.
  destruct (inputs_loop_done (fuel_of g) (rev (hidden_inputs g m1)) m1) as [m2 [E [F [G K]]]].
  - split; [exact B|exact D|]. intros v p L T M. right; left. apply -> in_rev. apply hidden_inputs_in.
    split; [|exact M]. pose proof (wt_value g WT v L) as R. rewrite T in R. exact R.
  - rewrite rev_length. unfold fuel_of. pose proof (hidden_inputs_measure m1). lia.
  - exists m2. split; [exact E|]. split; [exact F|]. split; [eapply le_trans; eassumption|eapply same_trans; eassumption].
Qed.

(** ** Types without parts *)
Lemma empty_step_le : forall t parts m k, le m (empty_step t parts m k).
Proof. intros; unfold empty_step. destruct (m _); [apply le_refl|]. destruct (forallb _ _); [apply le_set|apply le_refl]. Qed.
Lemma empty_loop : forall A (t : nat -> tdef) parts (l : list A) m,
  (forall k s, In s (parts k) -> forall j, s <> SType (t j)) ->
  let m' := fold_left (empty_step t parts) (ids l) m in
  le m m' /\ same_on (fun s => forall j, s <> SType (t j)) m m' /\
  (forall k, k < List.length l -> (forall s, In s (parts k) -> m' s = true) -> m' (SType (t k)) = true).
Proof.
  intros A t parts l m N. unfold ids.
  apply (fold_seq_inv _ (empty_step t parts) (fun n m' => le m m' /\ same_on (fun s => forall j, s <> SType (t j)) m m' /\
    (forall k, k < n -> (forall s, In s (parts k) -> m' s = true) -> m' (SType (t k)) = true))).
  - split; [apply le_refl|]. split; [apply same_refl|intros; lia].
  - intros n m' _ [A1 [A2 A3]].
    assert (Sm : same_on (fun s => forall j, s <> SType (t j)) m' (empty_step t parts m' n)).
    { unfold empty_step. destruct (m' _); [apply same_refl|]. destruct (forallb _ _); [|apply same_refl].
      apply same_set. intro K; apply (K n); reflexivity. }
    split; [eapply le_trans; [exact A1|apply empty_step_le]|]. split; [eapply same_trans; [exact A2|exact Sm]|].
    intros k Lk H.
    assert (H' : forall s, In s (parts k) -> m' s = true) by (intros s Hs; rewrite <- (Sm s (N k s Hs)); apply H, Hs).
    destruct (Nat.eq_dec k n) as [->|Nk]; [|apply empty_step_le, A3; [lia|exact H']].
    unfold empty_step. destruct (m' (SType (t n))) eqn:E; [exact E|].
    replace (forallb m' (parts n)) with true; [apply set_same|]. symmetry. apply forallb_forall. exact H'.
Qed.

Lemma unions_done : forall m, let st := unions_loop g m in
  le m (fst st) /\ same_on (fun s => forall u, s <> SType (TUnion u)) m (fst st) /\
  (forall u, u < List.length (g_unions g) -> fst st (SType (TUnion u)) = true \/ forall o, In o (union_of g u) -> In (o, u) (snd st)) /\
  (forall u, u < List.length (g_unions g) -> (forall o, In o (union_of g u) -> fst st (object_site o) = true) -> fst st (SType (TUnion u)) = true).
Proof.
  intro m. unfold unions_loop, ids.
  apply (fold_seq_inv _ (union_step g) (fun n st => le m (fst st) /\ same_on (fun s => forall u, s <> SType (TUnion u)) m (fst st) /\
   (forall u, u < n -> fst st (SType (TUnion u)) = true \/ forall o, In o (union_of g u) -> In (o, u) (snd st)) /\
   (forall u, u < n -> (forall o, In o (union_of g u) -> fst st (object_site o) = true) -> fst st (SType (TUnion u)) = true))).
  - split; [apply le_refl|]. split; [apply same_refl|]. split; intros; lia.
  - intros n [m' pairs] _ [A [B [C D]]]. cbn [fst snd] in *.
    unfold union_step. destruct (m' (SType (TUnion n))) eqn:E; [|destruct (forallb m' (map object_site (union_of g n))) eqn:F]; cbn [fst snd].
    + split; [exact A|]. split; [exact B|]. split; intros u Lu; (destruct (Nat.eq_dec u n) as [->|N]; [try (left; exact E); intros; exact E|]).
      * apply C; lia.
      * apply D; lia.
    + split; [eapply le_trans; [exact A|apply le_set]|].
      split; [eapply same_trans; [exact B|]; apply same_set; intro K; apply (K n); reflexivity|].
      split; intros u Lu; (destruct (Nat.eq_dec u n) as [->|N]; [try (left; apply set_same); intros; apply set_same|]).
      * destruct (C u) as [K|K]; [lia|left; apply set_grows, K|right; exact K].
      * intro H. apply set_grows, D; [lia|]. intros o Ho. specialize (H o Ho). rewrite set_other in H; [exact H|discriminate].
    + split; [exact A|]. split; [exact B|].
      split; intros u Lu; (destruct (Nat.eq_dec u n) as [->|N]).
      * right. intros o Ho. apply in_or_app; right. apply in_map_iff. exists o; split; [reflexivity|exact Ho].
      * destruct (C u) as [K|K]; [lia|left; exact K|right]. intros o Ho. apply in_or_app; left; apply K, Ho.
      * intro H. exfalso. replace (forallb m' (map object_site (union_of g n))) with true in F; [discriminate|].
        symmetry. apply forallb_forall. intros s Hs. apply in_map_iff in Hs. destruct Hs as [o [<- Ho]]. apply H, Ho.
      * apply D; lia.
Qed.

(** ** Fields and composite types *)
Definition nf := List.length (g_fields g).
Definition composite (t : tdef) : Prop := match t with TObject _ | TInterface _ | TUnion _ => True | _ => False end.

(** [ftodo]: fields still to be looked at; [utodo]: unions still to be looked at. *)
Record types_inv (pairs : list (nat * nat)) (m : marks) (stack : list tdef) (ftodo utodo : nat -> Prop) : Prop := MkTI {
  ti_field : forall f, f < nf -> m (SType (f_ty (field_of g f))) = true ->
     m (SField f) = true \/ In (f_ty (field_of g f)) stack \/ ftodo f;
  ti_entity : forall e, in_range g (entity_type e) -> (forall f, In f (entity_fields g e) -> m (SField f) = true) ->
     m (SType (entity_type e)) = true;
  ti_union : forall u, u < List.length (g_unions g) -> (forall o, In o (union_of g u) -> m (object_site o) = true) ->
     m (SType (TUnion u)) = true \/ (exists o, In o (union_of g u) /\ In (TObject o) stack) \/ utodo u;
  ti_pairs : forall u, u < List.length (g_unions g) -> m (SType (TUnion u)) = true \/ forall o, In o (union_of g u) -> In (o, u) pairs;
  ti_stack : forall t, In t stack -> composite t }.

Lemma entity_type_inj : forall a b, entity_type a = entity_type b -> a = b.
Proof. intros [a|a] [b|b] H; simpl in H; try discriminate; injection H as ->; reflexivity. Qed.

Definition on_types_fields (s : site) : Prop := match s with SField _ | SType (TObject _) | SType (TInterface _) | SType (TUnion _) => False | _ => True end.
Lemma hide_field_same : forall st f, same_on on_types_fields (fst st) (fst (hide_field g st f)).
Proof.
  intros [m stack] f. unfold hide_field. simpl. destruct (m (SField f)); [apply same_refl|].
  assert (H : same_on on_types_fields m (set m (SField f) true)) by (apply same_set; intros []).
  set (m1 := set m (SField f) true) in *. destruct (forallb _ _); [|exact H]. destruct (m1 _); [exact H|].
  simpl. eapply same_trans; [exact H|]. apply same_set. destruct (f_parent _); intros [].
Qed.
Lemma hide_union_same : forall st u, same_on on_types_fields (fst st) (fst (hide_union g st u)).
Proof.
  intros [m stack] u. unfold hide_union. simpl. destruct (forallb _ _); [|apply same_refl]. destruct (m _); [apply same_refl|].
  simpl. apply same_set; intros [].
Qed.

Lemma hide_field_inv : forall pairs m stack f ftodo utodo, f < nf -> types_inv pairs m stack ftodo utodo ->
  let st := hide_field g (m, stack) f in
  types_inv pairs (fst st) (snd st) (fun x => ftodo x /\ x <> f) utodo /\ fst st (SField f) = true.
Proof.
  intros pairs m stack f ftodo utodo Lf [F E U P S] st.
  pose proof (hide_field_le g (m, stack) f) as L. fold st in L. cbn [fst] in L.
  assert (Mf : fst st (SField f) = true).
  { unfold st, hide_field. destruct (m (SField f)) eqn:Q; [exact Q|].
    set (m1 := set m (SField f) true). assert (K : m1 (SField f) = true) by apply set_same.
    destruct (forallb _ _); [|exact K]. destruct (m1 (SType _)); [exact K|]. simpl. apply set_grows, K. }
  split; [|exact Mf].
  assert (Stk : forall t, In t stack -> In t (snd st)).
  { intros t H. unfold st, hide_field. destruct (m (SField f)); [exact H|]. destruct (forallb _ _); [|exact H].
    destruct (set m (SField f) true _); [exact H|right; exact H]. }
  (* a type that becomes marked is pushed *)
  assert (New : forall t, fst st (SType t) = true -> m (SType t) = true \/ In t (snd st)).
  { intros t. unfold st, hide_field. destruct (m (SField f)); [left; assumption|].
    set (m1 := set m (SField f) true). assert (K : m1 (SType t) = m (SType t)) by (apply set_other; discriminate).
    destruct (forallb _ _); [|rewrite <- K; left; assumption].
    destruct (m1 (SType (entity_type (f_parent (field_of g f))))); [rewrite <- K; left; assumption|]. simpl.
    intro H. destruct (set_true _ _ _ H) as [H'|H']; [injection H' as ->; right; left; reflexivity|left; congruence]. }
  assert (Fld : forall x, fst st (SField x) = true -> x = f \/ m (SField x) = true).
  { intros x. unfold st, hide_field. destruct (m (SField f)); [right; assumption|].
    set (m1 := set m (SField f) true).
    assert (K : m1 (SField x) = true -> x = f \/ m (SField x) = true)
      by (intro H; destruct (set_true _ _ _ H) as [H'|H']; [injection H' as ->; left; reflexivity|right; exact H']).
    destruct (forallb _ _); [|exact K]. destruct (m1 (SType _)); [exact K|]. simpl. intro H. apply K.
    rewrite set_other in H; [exact H|]. discriminate. }
  split.
  - intros x Lx M. destruct (New _ M) as [M'|M']; [|right; left; exact M'].
    destruct (F x Lx M') as [H|[H|H]]; [left; apply L, H|right; left; apply Stk, H|].
    destruct (Nat.eq_dec x f) as [->|N]; [left; exact Mf|right; right; split; assumption].
  - intros e R H. destruct (m (SField f)) eqn:Q.
    + apply L, E; [exact R|]. intros x Hx. destruct (Fld x (H x Hx)) as [->|K]; [exact Q|exact K].
    + destruct (m (SType (entity_type e))) eqn:ME; [apply L, ME|].
      (* some field of e is new, so that e is the parent of f *)
      assert (In f (entity_fields g e)).
      { destruct (in_dec Nat.eq_dec f (entity_fields g e)) as [I|I]; [exact I|].
        exfalso. rewrite E in ME; [discriminate|exact R|]. intros x Hx.
        destruct (Fld x (H x Hx)) as [->|K]; [contradiction|exact K]. }
      destruct (wf_fields g W e f H0) as [_ Pe]. revert H. unfold st, hide_field. rewrite Q, Pe.
      set (m1 := set m (SField f) true).
      destruct (forallb m1 (map SField (entity_fields g e))) eqn:FA.
      * destruct (m1 (SType (entity_type e))) eqn:M1; simpl; intros _; [exact M1|apply set_same].
      * simpl. intro H. exfalso. replace (forallb m1 (map SField (entity_fields g e))) with true in FA; [discriminate|].
        symmetry. apply forallb_forall. intros s Hs. apply in_map_iff in Hs. destruct Hs as [x [<- Hx]]. apply H, Hx.
  - intros u Lu H.
    assert (K : (forall o, In o (union_of g u) -> m (object_site o) = true) \/ exists o, In o (union_of g u) /\ In (TObject o) (snd st)).
    { assert (K : forall l, (forall o, In o l -> fst st (object_site o) = true) ->
        (forall o, In o l -> m (object_site o) = true) \/ exists o, In o l /\ In (TObject o) (snd st)).
      { clear H. intro l; induction l as [|o l IH]; intro H; [left; intros o []|].
        destruct (New _ (H o (or_introl eq_refl))) as [A|A]; [|right; exists o; split; [left; reflexivity|exact A]].
        destruct IH as [B|[p [B1 B2]]]; [intros; apply H; right; assumption| |right; exists p; split; [right; exact B1|exact B2]].
        left. intros p [<-|Hp]; [exact A|apply B, Hp]. }
      apply K, H. }
    destruct K as [K|K]; [|right; left; exact K].
    destruct (U u Lu K) as [A|[[o [A B]]|A]]; [left; apply L, A| |right; right; exact A].
    right; left. exists o. split; [exact A|apply Stk, B].
  - intros u Lu. destruct (P u Lu) as [A|A]; [left; apply L, A|right; exact A].
  - intros t. unfold st, hide_field. destruct (m (SField f)); [apply S|]. destruct (forallb _ _); [|apply S].
    destruct (set m (SField f) true _); [apply S|]. intros [<-|H]; [destruct (f_parent _); exact Logic.I|apply S, H].
Qed.

Lemma hide_union_inv : forall pairs m stack u ftodo utodo, types_inv pairs m stack ftodo utodo ->
  let st := hide_union g (m, stack) u in types_inv pairs (fst st) (snd st) ftodo (fun x => utodo x /\ x <> u).
Proof.
  intros pairs m stack u ftodo utodo [F E U P S] st.
  pose proof (hide_union_le g (m, stack) u) as L. fold st in L. cbn [fst] in L.
  assert (Stk : forall t, In t stack -> In t (snd st)).
  { intros t H. unfold st, hide_union. destruct (forallb _ _); [|exact H]. destruct (m _); [exact H|right; exact H]. }
  assert (New : forall t, fst st (SType t) = true -> m (SType t) = true \/ (t = TUnion u /\ In t (snd st))).
  { intros t. unfold st, hide_union. destruct (forallb _ _); [|left; assumption].
    destruct (m (SType (TUnion u))); [left; assumption|]. simpl. intro H.
    destruct (set_true _ _ _ H) as [H'|H']; [injection H' as ->; right; split; [reflexivity|left; reflexivity]|left; exact H']. }
  assert (Fld : forall x, fst st (SField x) = m (SField x)).
  { intros x. unfold st, hide_union. destruct (forallb _ _); [|reflexivity].
    destruct (m (SType (TUnion u))); [reflexivity|]. simpl. apply set_other; discriminate. }
  split.
  - intros x Lx M. rewrite Fld. destruct (New _ M) as [M'|[_ M']]; [|right; left; exact M'].
    destruct (F x Lx M') as [H|[H|H]]; [left; exact H|right; left; apply Stk, H|right; right; exact H].
  - intros e R H. apply L, E; [exact R|]. intros x Hx. rewrite <- Fld. apply H, Hx.
  - intros x Lx H.
    assert (K : forall o, In o (union_of g x) -> m (object_site o) = true).
    { intros o Ho. destruct (New _ (H o Ho)) as [A|[A _]]; [exact A|discriminate]. }
    destruct (U x Lx K) as [A|[[o [A B]]|A]]; [left; apply L, A|right; left; exists o; split; [exact A|apply Stk, B]|].
    destruct (Nat.eq_dec x u) as [->|N]; [|right; right; split; assumption].
    left. unfold st, hide_union. replace (forallb m (map object_site (union_of g u))) with true.
    + destruct (m (SType (TUnion u))) eqn:Q; [exact Q|apply set_same].
    + symmetry. apply forallb_forall. intros s Hs. apply in_map_iff in Hs. destruct Hs as [o [<- Ho]]. apply K, Ho.
  - intros x Lx. destruct (P x Lx) as [A|A]; [left; apply L, A|right; exact A].
  - intros t. unfold st, hide_union. destruct (forallb _ _); [|apply S]. destruct (m _); [apply S|].
    intros [<-|H]; [exact Logic.I|apply S, H].
Qed.

Lemma types_inv_weaken : forall pairs m stack f1 u1 (f2 u2 : nat -> Prop), types_inv pairs m stack f1 u1 ->
  (forall x, f1 x -> f2 x) -> (forall x, u1 x -> u2 x) -> types_inv pairs m stack f2 u2.
Proof.
  intros pairs m stack f1 u1 f2 u2 [F E U P S] Hf Hu. split; try assumption.
  - intros f L M. destruct (F f L M) as [A|[A|A]]; [left|right; left|right; right; apply Hf]; exact A.
  - intros u L M. destruct (U u L M) as [A|[A|A]]; [left|right; left|right; right; apply Hu]; exact A.
Qed.

Lemma hide_fields_inv : forall pairs l m stack utodo, (forall f, In f l -> f < nf) ->
  types_inv pairs m stack (fun f => In f l) utodo ->
  let st := fold_left (hide_field g) l (m, stack) in types_inv pairs (fst st) (snd st) (fun _ => False) utodo.
Proof.
  intros pairs l; induction l as [|f l IH]; intros m stack utodo Lf H; [exact H|]. cbn [fold_left].
  destruct (hide_field_inv pairs m stack f _ _ (Lf f (or_introl eq_refl)) H) as [K _].
  destruct (hide_field g (m, stack) f) as [m1 s1]. cbn [fst snd] in K.
  apply IH; [intros; apply Lf; right; assumption|]. eapply types_inv_weaken; [exact K| |intros x Hx; exact Hx].
  cbv beta. intros x [[->|Hx] N]; [congruence|exact Hx].
Qed.
Lemma hide_unions_inv : forall pairs l m stack ftodo, types_inv pairs m stack ftodo (fun u => In u l) ->
  let st := fold_left (hide_union g) l (m, stack) in types_inv pairs (fst st) (snd st) ftodo (fun _ => False).
Proof.
  intros pairs l; induction l as [|u l IH]; intros m stack ftodo H; [exact H|]. cbn [fold_left].
  pose proof (hide_union_inv pairs m stack u _ _ H) as K. cbv zeta in K.
  destruct (hide_union g (m, stack) u) as [m1 s1]. cbn [fst snd] in K.
  apply IH. eapply types_inv_weaken; [exact K|intros x Hx; exact Hx|]. cbv beta. intros x [[->|Hx] N]; [congruence|exact Hx].
Qed.

Definition measure (st : marks * list tdef) : nat := unmarked (types g) (fst st) + List.length (snd st).
Lemma hide_field_measure : forall st f, f < nf -> measure (hide_field g st f) <= measure st.
Proof.
  intros [m stack] f Lf. unfold measure, hide_field. simpl. destruct (m (SField f)); [simpl; lia|].
  pose proof (unmarked_le (types g) _ _ (le_set m (SField f))) as L1. set (m1 := set m (SField f) true) in *.
  destruct (forallb _ _); [|simpl; lia]. destruct (m1 (SType (entity_type (f_parent (field_of g f))))) eqn:E; simpl; [lia|].
  pose proof (unmarked_set (types g) m1 _ (proj1 (in_types _) (entity_in f Lf)) E). lia.
Qed.
Lemma hide_union_measure : forall st u, u < List.length (g_unions g) -> measure (hide_union g st u) <= measure st.
Proof.
  intros [m stack] u Lu. unfold measure, hide_union. simpl. destruct (forallb _ _); [|simpl; lia].
  destruct (m (SType (TUnion u))) eqn:E; simpl; [lia|].
  pose proof (unmarked_set (types g) m (TUnion u) (proj1 (in_types (TUnion u)) Lu) E). lia.
Qed.
Lemma fold_measure : forall (f : marks * list tdef -> nat -> marks * list tdef) l st,
  (forall st x, In x l -> measure (f st x) <= measure st) -> measure (fold_left f l st) <= measure st.
Proof.
  intros f l; induction l as [|x l IH]; intros st H; simpl; [lia|].
  specialize (IH (f st x) (fun s y Hy => H s y (or_intror Hy))). specialize (H st x (or_introl eq_refl)). lia.
Qed.

Lemma fields_of_all : forall t f, composite t -> f < nf -> f_ty (field_of g f) = t -> In f (fields_of g t).
Proof.
  intros t f C L T. destruct t; try destruct C; simpl; apply filter_In; (split; [apply in_ids, L|]); rewrite T; apply tdef_eqb_eq; reflexivity.
Qed.

Lemma types_loop_done : forall pairs, pairs_ok g pairs -> forall fuel stack m,
  types_inv pairs m stack (fun _ => False) (fun _ => False) -> measure (m, stack) < fuel ->
  exists m', types_loop fuel g pairs stack m = Done m' /\ types_inv pairs m' [] (fun _ => False) (fun _ => False) /\
    le m m' /\ same_on on_types_fields m m'.
Proof.
  intros pairs PO fuel; induction fuel as [|n IH]; intros stack m H F; [lia|].
  destruct stack as [|t rest]; simpl.
  - exists m. split; [reflexivity|]. split; [exact H|]. split; [apply le_refl|apply same_refl].
  - set (st := match t with TObject o => fold_left (hide_union g) (unions_of pairs o) (m, rest) | _ => (m, rest) end).
    assert (A : types_inv pairs (fst st) (snd st) (fun f => In f (fields_of g t)) (fun _ => False) /\ le m (fst st) /\
                same_on on_types_fields m (fst st) /\ measure st <= measure (m, rest)).
    { assert (C : composite t) by (apply (ti_stack _ _ _ _ _ H); left; reflexivity).
      assert (Ff : forall f, f < nf -> m (SType (f_ty (field_of g f))) = true ->
         m (SField f) = true \/ In (f_ty (field_of g f)) rest \/ In f (fields_of g t)).
      { intros f Lf M. destruct (ti_field _ _ _ _ _ H f Lf M) as [K|[[K|K]|[]]]; [left; exact K| |right; left; exact K].
        right; right. apply fields_of_all; [exact C|exact Lf|symmetry; exact K]. }
      destruct H as [_ E U P S].
      unfold st. destruct t as [x|o|x|x|x|x]; try (destruct C; fail).
      - split; [|split; [|split]].
        + apply hide_unions_inv. split; [exact Ff|exact E| |exact P|intros; apply S; right; assumption].
          intros u Lu K. destruct (U u Lu K) as [D|[[p [D1 [D2|D2]]]|[]]]; [left; exact D| |right; left; exists p; split; assumption].
          injection D2 as <-. destruct (P u Lu) as [D|D]; [left; exact D|]. right; right.
          apply (unions_of_in pairs o u). apply D, D1.
        + exact (fold_le _ _ (hide_union g) fst (hide_union_le g) (unions_of pairs o) (m, rest)).
        + exact (fold_same _ _ _ (hide_union g) fst (unions_of pairs o) (fun a b _ => hide_union_same a b) (m, rest)).
        + apply fold_measure. intros s u Hu. apply hide_union_measure. apply (unions_of_in pairs o u) in Hu. apply (PO _ Hu).
      - split; [|split; [apply le_refl|split; [apply same_refl|lia]]].
        split; [exact Ff|exact E| |exact P|intros; apply S; right; assumption].
        intros u Lu K. destruct (U u Lu K) as [D|[[p [D1 [D2|D2]]]|[]]]; [left; exact D|discriminate|right; left; exists p; split; assumption].
      - split; [|split; [apply le_refl|split; [apply same_refl|lia]]].
        split; [exact Ff|exact E| |exact P|intros; apply S; right; assumption].
        intros u Lu K. destruct (U u Lu K) as [D|[[p [D1 [D2|D2]]]|[]]]; [left; exact D|discriminate|right; left; exists p; split; assumption]. }
    destruct A as [A1 [A2 [A3 A4]]].
    assert (Lf : forall f, In f (fields_of g t) -> f < nf) by (intros f Hf; apply (fields_of_in g t f Hf)).
    destruct st as [ms ss]. cbn [fst snd] in *.
    pose proof (hide_fields_inv pairs _ _ _ _ Lf A1) as B1. cbv zeta in B1.
    pose proof (fold_le _ _ (hide_field g) fst (hide_field_le g) (fields_of g t) (ms, ss)) as B2.
    pose proof (fold_same _ _ _ (hide_field g) fst (fields_of g t) (fun a b _ => hide_field_same a b) (ms, ss)) as B3.
    assert (B4 : measure (fold_left (hide_field g) (fields_of g t) (ms, ss)) <= measure (ms, ss))
      by (apply fold_measure; intros s f Hf; apply hide_field_measure, Lf, Hf).
    destruct (fold_left (hide_field g) (fields_of g t) (ms, ss)) as [m1 s1]. cbn [fst snd] in *.
    destruct (IH s1 m1 B1) as [m' [E [D1 [D2 D3]]]].
    + unfold measure in *. cbn [fst snd] in *. simpl in F. lia.
    + exists m'. split; [exact E|]. split; [exact D1|].
      split; [eapply le_trans; [exact A2|]; eapply le_trans; eassumption|eapply same_trans; [exact A3|]; eapply same_trans; eassumption].
Qed.

(** The loop over fields. *)
Lemma fields_loop_done : forall pairs m, types_inv pairs m [] (fun _ => True) (fun _ => False) ->
  exists st, fields_loop g m = Done st /\ types_inv pairs (fst st) (snd st) (fun _ => False) (fun _ => False) /\
    le m (fst st) /\ same_on on_types_fields m (fst st) /\ measure st <= measure (m, []).
Proof.
  intros pairs m H. unfold fields_loop, ids.
  assert (K : exists st, fold_left (field_step g) (seq 0 nf) (Done (m, [])) = Done st /\
     types_inv pairs (fst st) (snd st) (fun f => ~ f < nf) (fun _ => False) /\
     le m (fst st) /\ same_on on_types_fields m (fst st) /\ measure st <= measure (m, [])).
  { apply (fold_seq_inv _ (field_step g) (fun k o => exists st, o = Done st /\
      types_inv pairs (fst st) (snd st) (fun f => ~ f < k) (fun _ => False) /\
      le m (fst st) /\ same_on on_types_fields m (fst st) /\ measure st <= measure (m, []))).
    - exists (m, []). split; [reflexivity|]. split; [|split; [apply le_refl|split; [apply same_refl|lia]]].
      eapply types_inv_weaken; [exact H| |intros x Hx; exact Hx]. intros x _; lia.
    - intros k o Lk [[m1 s1] [-> [A [B [C D]]]]]. cbn [fst snd] in *.
      assert (NI := wf_field_output g W k Lk).
      assert (G : exists st, Done st = (if m1 (SType (f_ty (field_of g k))) then Done (hide_field g (m1, s1) k) else Done (m1, s1)) /\
         types_inv pairs (fst st) (snd st) (fun f => ~ f < S k) (fun _ => False) /\
         le m (fst st) /\ same_on on_types_fields m (fst st) /\ measure st <= measure (m, [])).
      { destruct (m1 (SType (f_ty (field_of g k)))) eqn:M.
        - exists (hide_field g (m1, s1) k). split; [reflexivity|].
          destruct (hide_field_inv pairs m1 s1 k _ _ Lk A) as [A' _].
          split; [eapply types_inv_weaken; [exact A'| |intros x Hx; exact Hx]; intros x [N1 N2]; lia|].
          split; [eapply le_trans; [exact B|apply (hide_field_le g (m1, s1) k)]|].
          split; [eapply same_trans; [exact C|apply (hide_field_same (m1, s1) k)]|].
          pose proof (hide_field_measure (m1, s1) k Lk). lia.
        - exists (m1, s1). split; [reflexivity|]. cbn [fst snd]. split; [|split; [exact B|split; [exact C|exact D]]].
          destruct A as [F E U P S]. split; try assumption.
          intros f Lf Mf. destruct (F f Lf Mf) as [X|[X|X]]; [left; exact X|right; left; exact X|].
          destruct (Nat.eq_dec f k) as [->|N]; [congruence|right; right; lia]. }
      destruct G as [st [G1 G2]]. exists st. split; [|exact G2]. rewrite G1. unfold field_step. simpl.
      destruct (f_ty (field_of g k)) as [x|x|x|x|x|x] eqn:T; try reflexivity. exfalso; apply (NI x); reflexivity. }
  fold nf in K. destruct K as [st [E [A B]]]. exists st. split; [exact E|]. split; [|exact B].
  destruct A as [F En U P S]. split; try assumption.
  intros f Lf Mf. destruct (F f Lf Mf) as [X|[X|X]]; [left; exact X|right; left; exact X|contradiction].
Qed.

(** ** The whole *)
Definition kind_type (t : nat -> tdef) (s : site) : Prop := forall j, s <> SType (t j).

Record final (m m' : marks) : Prop := MkFinal {
  fi_le : le m m';
  fi_internal : forall v, v < nv -> v_internal (value_of g v) = true -> m' (SValue v) = true;
  fi_required : forall v, v < nv -> v_required (value_of g v) = true -> v_internal (value_of g v) = false ->
     m' (SValue v) = true -> m' (vparent_site (v_parent (value_of g v))) = true;
  fi_value : forall v, v < nv -> m' (SType (v_ty (value_of g v))) = true -> m' (SValue v) = true \/
     (m (SType (v_ty (value_of g v))) = false /\
      match v_ty (value_of g v) with
      | TEnum e => e < List.length (g_enums g) /\ forall x, In x (enum_of g e) -> m (SEnumValue x) = true
      | TInput o => o < List.length (g_inputs g) /\ forall w, In w (input_of g o) -> m' (SValue w) = true
      | _ => False
      end);
  fi_field : forall f, f < nf -> m' (SType (f_ty (field_of g f))) = true -> m' (SField f) = true;
  fi_entity : forall e, in_range g (entity_type e) -> (forall f, In f (entity_fields g e) -> m' (SField f) = true) ->
     m' (SType (entity_type e)) = true;
  fi_union : forall u, u < List.length (g_unions g) -> (forall o, In o (union_of g u) -> m' (object_site o) = true) ->
     m' (SType (TUnion u)) = true;
  fi_enum : forall e, e < List.length (g_enums g) -> (forall x, In x (enum_of g e) -> m' (SEnumValue x) = true) -> m' (SType (TEnum e)) = true;
  fi_input : forall o, o < List.length (g_inputs g) -> (forall v, In v (input_of g o) -> m' (SValue v) = true) -> m' (SType (TInput o)) = true;
  fi_enum_value : forall x, m' (SEnumValue x) = m (SEnumValue x);
  fi_scalar : forall x, m' (SType (TScalar x)) = m (SType (TScalar x)) }.

Lemma fold_set_back : forall t parts l m s, fold_left (empty_step t parts) l m s = true -> m s = true \/
  exists k, In k l /\ s = SType (t k) /\ m s = false /\ (forall x, In x (parts k) -> (forall j, x <> SType (t j)) -> m x = true).
Proof.
  intros t parts l; induction l as [|k l IH]; intros m s H; [left; exact H|]. cbn [fold_left] in H.
  destruct (m s) eqn:M; [left; reflexivity|right].
  destruct (IH _ _ H) as [A|[j [A [B [C D]]]]].
  - unfold empty_step in A. destruct (m (SType (t k))); [congruence|]. destruct (forallb m (parts k)) eqn:F; [|congruence].
    destruct (set_true _ _ _ A) as [E|E]; [|congruence]. exists k. split; [left; reflexivity|]. split; [exact E|]. split; [reflexivity|].
    intros x Hx _. rewrite forallb_forall in F. apply F, Hx.
  - exists j. split; [right; exact A|]. split; [exact B|]. split; [reflexivity|]. intros x Hx N. specialize (D x Hx N).
    unfold empty_step in D. destruct (m (SType (t k))); [exact D|]. destruct (forallb _ _); [|exact D].
    rewrite set_other in D; [exact D|]. intro K; apply (N k); symmetry; exact K.
Qed.

Theorem finalize_done : forall m, exists m', finalize_inaccessible g m = Done m' /\ final m m'.
Proof.
  intro m. unfold finalize_inaccessible.
  destruct (values_done m) as [m2 [E2 [I2 [L2 T2]]]]. rewrite E2. cbn [obind].
  (* objects, interfaces, unions, enums, inputs *)
  assert (OL : forall k s, In s (map SField (o_fields (object_of g k))) -> forall j, s <> SType (TObject j))
    by (intros k s Hs j; apply in_map_iff in Hs; destruct Hs as [x [<- _]]; discriminate).
  assert (IL : forall k s, In s (map SField (i_fields (interface_of g k))) -> forall j, s <> SType (TInterface j))
    by (intros k s Hs j; apply in_map_iff in Hs; destruct Hs as [x [<- _]]; discriminate).
  assert (EL : forall k s, In s (map SEnumValue (enum_of g k)) -> forall j, s <> SType (TEnum j))
    by (intros k s Hs j; apply in_map_iff in Hs; destruct Hs as [x [<- _]]; discriminate).
  assert (NL : forall k s, In s (map SValue (input_of g k)) -> forall j, s <> SType (TInput j))
    by (intros k s Hs j; apply in_map_iff in Hs; destruct Hs as [x [<- _]]; discriminate).
  destruct (empty_loop _ _ _ (g_objects g) m2 OL) as [L3 [T3 C3]]. fold (objects_loop g m2) in *. set (m3 := objects_loop g m2) in *.
  destruct (empty_loop _ _ _ (g_interfaces g) m3 IL) as [L4 [T4 C4]]. fold (interfaces_loop g m3) in *. set (m4 := interfaces_loop g m3) in *.
  destruct (unions_done m4) as [L5 [T5 [P5 C5]]]. cbv zeta in *.
  pose proof (unions_loop_sound g m4 m4 (fun s H => H_mark g m4 s H)) as [_ PO].
  destruct (unions_loop g m4) as [m5 pairs]. cbn [fst snd] in *.
  destruct (empty_loop _ _ _ (g_enums g) m5 EL) as [L6 [T6 C6]]. fold (enums_loop g m5) in *.
  pose proof (fold_set_back TEnum (fun e => map SEnumValue (enum_of g e)) (ids (g_enums g)) m5) as B6. fold (enums_loop g m5) in B6.
  set (m6 := enums_loop g m5) in *.
  destruct (empty_loop _ _ _ (g_inputs g) m6 NL) as [L7 [T7 C7]]. fold (empty_inputs_loop g m6) in *.
  pose proof (fold_set_back TInput (fun o => map SValue (input_of g o)) (ids (g_inputs g)) m6) as B7. fold (empty_inputs_loop g m6) in B7.
  set (m7 := empty_inputs_loop g m6) in *.
  assert (I7 : types_inv pairs m7 [] (fun _ => True) (fun _ => False)).
  { split.
    - intros f _ _. right; right; exact Logic.I.
    - intros e R H.
      assert (SF : forall f, m7 (SField f) = m2 (SField f)).
      { intro f. rewrite T7 by discriminate. rewrite T6 by discriminate. rewrite T5 by discriminate. rewrite T4 by discriminate. apply T3; discriminate. }
      destruct e as [o|i]; simpl in *.
      + rewrite T7 by discriminate. rewrite T6 by discriminate. rewrite T5 by discriminate. rewrite T4 by discriminate.
        apply C3; [exact R|]. intros s Hs. apply in_map_iff in Hs. destruct Hs as [f [<- Hf]].
        rewrite T3 by discriminate. rewrite <- SF. apply H, Hf.
      + rewrite T7 by discriminate. rewrite T6 by discriminate. rewrite T5 by discriminate.
        apply C4; [exact R|]. intros s Hs. apply in_map_iff in Hs. destruct Hs as [f [<- Hf]].
        rewrite T4 by discriminate. rewrite T3 by discriminate. rewrite <- SF. apply H, Hf.
    - intros u Lu H. left. rewrite T7 by discriminate. rewrite T6 by discriminate. apply C5; [exact Lu|].
      intros o Ho. specialize (H o Ho). unfold object_site in *. rewrite T7 in H by discriminate. rewrite T6 in H by discriminate. exact H.
    - intros u Lu. rewrite T7 by discriminate. rewrite T6 by discriminate. apply P5, Lu.
    - intros t []. }
  destruct (fields_loop_done pairs m7 I7) as [[m8 s8] [E8 [I8 [L8 [T8 M8]]]]]. rewrite E8. cbn [obind fst snd] in *.
  destruct (types_loop_done pairs PO (fuel_of g) s8 m8 I8) as [m9 [E9 [I9 [L9 T9]]]].
  { unfold measure in *. cbn [fst snd] in *. simpl in M8. unfold fuel_of. pose proof (unmarked_bound (types g) m7). lia. }
  exists m9. split; [exact E9|].
  assert (L29 : le m2 m9).
  { eapply le_trans; [exact L3|]. eapply le_trans; [exact L4|]. eapply le_trans; [exact L5|]. eapply le_trans; [exact L6|].
    eapply le_trans; [exact L7|]. eapply le_trans; [exact L8|exact L9]. }
  assert (V : forall v, m9 (SValue v) = m2 (SValue v)).
  { intro v. rewrite T9 by exact Logic.I. rewrite T8 by exact Logic.I. rewrite T7 by discriminate. rewrite T6 by discriminate.
    rewrite T5 by discriminate. rewrite T4 by discriminate. apply T3; discriminate. }
  assert (V6 : forall v, m6 (SValue v) = m2 (SValue v)).
  { intro v. rewrite T6 by discriminate. rewrite T5 by discriminate. rewrite T4 by discriminate. apply T3; discriminate. }
  assert (Sc : forall x, m9 (SType (TScalar x)) = m2 (SType (TScalar x))).
  { intro v. rewrite T9 by exact Logic.I. rewrite T8 by exact Logic.I. rewrite T7 by discriminate. rewrite T6 by discriminate.
    rewrite T5 by discriminate. rewrite T4 by discriminate. apply T3; discriminate. }
  assert (EV5 : forall x, m5 (SEnumValue x) = m2 (SEnumValue x)).
  { intro v. rewrite T5 by discriminate. rewrite T4 by discriminate. apply T3; discriminate. }
  assert (En9 : forall e, m9 (SType (TEnum e)) = m6 (SType (TEnum e))).
  { intro v. rewrite T9 by exact Logic.I. rewrite T8 by exact Logic.I. apply T7; discriminate. }
  assert (En5 : forall e, m5 (SType (TEnum e)) = m2 (SType (TEnum e))).
  { intro v. rewrite T5 by discriminate. rewrite T4 by discriminate. apply T3; discriminate. }
  assert (In9 : forall e, m9 (SType (TInput e)) = m7 (SType (TInput e))).
  { intro v. rewrite T9 by exact Logic.I. apply T8; exact Logic.I. }
  assert (In6 : forall e, m6 (SType (TInput e)) = m2 (SType (TInput e))).
  { intro v. rewrite T6 by discriminate. rewrite T5 by discriminate. rewrite T4 by discriminate. apply T3; discriminate. }
  (* enum values never change *)
  assert (EV2 : forall x, m2 (SEnumValue x) = m (SEnumValue x)).
  { intro x. assert (Q : forall a b, same_on (fun s => match s with SEnumValue _ => True | _ => False end) a (fst (input_user g (a, b) 0)) -> True) by trivial.
    clear Q.
    assert (Q1 : forall a k, value_step g a k (SEnumValue x) = a (SEnumValue x)).
    { intros a k. unfold value_step. set (a1 := if _ || _ then set a (SValue k) true else a).
      assert (a1 (SEnumValue x) = a (SEnumValue x)) by (unfold a1; destruct (_ || _); [apply set_other; discriminate|reflexivity]).
      destruct (_ && _ && _); [|exact H]. rewrite set_other; [exact H|]. destruct (v_parent _); discriminate. }
    assert (Q2 : forall st k, fst (input_user g st k) (SEnumValue x) = fst st (SEnumValue x)).
    { intros [a b] k. unfold input_user. simpl. destruct (a (SValue k)); [reflexivity|].
      assert (H : set a (SValue k) true (SEnumValue x) = a (SEnumValue x)) by (apply set_other; discriminate).
      set (a1 := set a (SValue k) true) in *. destruct (_ && _); [|exact H]. destruct (v_parent _) as [f|p]; simpl.
      - rewrite set_other; [exact H|discriminate].
      - destruct (a1 (SType (TInput p))); [exact H|]. simpl. rewrite set_other; [exact H|discriminate]. }
    assert (Q3 : values_loop g m (SEnumValue x) = m (SEnumValue x)).
    { unfold values_loop. apply (fold_inv _ _ (value_step g) (fun a => a (SEnumValue x) = m (SEnumValue x))); [reflexivity|].
      intros a b _ Ha. rewrite Q1. exact Ha. }
    rewrite <- Q3. clear - E2 Q2. revert E2. generalize (values_loop g m) at 2 3. generalize (rev (hidden_inputs g (values_loop g m))).
    generalize (fuel_of g). intro n; induction n as [|n IH]; intros stack a E; destruct stack as [|o rest]; simpl in E;
      try (injection E as <-; reflexivity); try discriminate.
    destruct (fold_left (input_user g) (values_of g o) (a, rest)) as [a1 s1] eqn:F.
    rewrite (IH _ _ E).
    assert (K : fst (fold_left (input_user g) (values_of g o) (a, rest)) (SEnumValue x) = a (SEnumValue x)).
    { apply (fold_inv _ _ (input_user g) (fun st => fst st (SEnumValue x) = a (SEnumValue x))); [reflexivity|].
      intros s k _ Hs. rewrite Q2. exact Hs. }
    rewrite F in K. exact K. }
  destruct I2 as [VC VO VI].
  split.
  - eapply le_trans; eassumption.
  - intros v Lv I1. apply L29, (vc_internal _ _ VC v Lv Logic.I I1).
  - intros v Lv R I1 M. rewrite V in M. apply L29, (vc_required _ _ VC v Lv Logic.I R I1 M).
  - intros v Lv M. rewrite V.
    pose proof (wf_value_input g W v Lv) as K.
    destruct (v_ty (value_of g v)) as [x|x|x|x|e|o] eqn:T; try destruct K.
    + left. apply (VO v Lv); [rewrite T; exact Logic.I|]. rewrite T. rewrite <- Sc. exact M.
    + rewrite En9 in M. destruct (B6 _ M) as [A|[k [Ek [Es [A B]]]]].
      * left. apply (VO v Lv); [rewrite T; exact Logic.I|]. rewrite T. rewrite <- En5. exact A.
      * injection Es as <-. right. split.
        -- rewrite <- (T2 (SType (TEnum e)) Logic.I). rewrite <- En5. exact A.
        -- split; [apply in_ids in Ek; exact Ek|]. intros y Hy. rewrite <- EV2, <- EV5. apply (B (SEnumValue y)); [apply in_map; exact Hy|discriminate].
    + rewrite In9 in M. destruct (B7 _ M) as [A|[k [Ek [Es [A B]]]]].
      * left. rewrite In6 in A. destruct (VI v o Lv T A) as [D|[[]|[D _]]]; [exact D|discriminate].
      * injection Es as <-. right. split.
        -- destruct (m (SType (TInput o))) eqn:Q; [|reflexivity]. exfalso. rewrite In6 in A. rewrite (L2 _ Q) in A. discriminate.
        -- split; [apply in_ids in Ek; exact Ek|]. intros y Hy. rewrite V, <- V6. apply (B (SValue y)); [apply in_map; exact Hy|discriminate].
  - intros f Lf M. destruct (ti_field _ _ _ _ _ I9 f Lf M) as [A|[[]|[]]]; exact A.
  - exact (ti_entity _ _ _ _ _ I9).
  - intros u Lu H. destruct (ti_union _ _ _ _ _ I9 u Lu H) as [A|[[o [_ []]]|[]]]; exact A.
  - intros e Le H. rewrite En9. apply C6; [exact Le|]. intros s Hs. apply in_map_iff in Hs. destruct Hs as [x [<- Hx]].
    specialize (H x Hx). rewrite T9 in H by exact Logic.I. rewrite T8 in H by exact Logic.I. rewrite T7 in H by discriminate. exact H.
  - intros o Lo H. rewrite In9. apply C7; [exact Lo|]. intros s Hs. apply in_map_iff in Hs. destruct Hs as [x [<- Hx]].
    rewrite T7 by discriminate. rewrite V6, <- V. apply H, Hx.
  - intro x. rewrite <- EV2, <- EV5. rewrite T9 by exact Logic.I. rewrite T8 by exact Logic.I. rewrite T7 by discriminate. apply T6; discriminate.
  - intro x. rewrite Sc. apply (T2 (SType (TScalar x))). exact Logic.I.
Qed.

(** Completeness, unless an input value has a type that loses its last part in the process. *)
Theorem finalize_complete : forall m m', finalize_inaccessible g m = Done m' ->
  (forall v, v < List.length (g_values g) -> ~ emptied g m (v_ty (value_of g v))) ->
  forall s, hidden g m s -> m' s = true.
Proof.
  intros m m' E NE s H. destruct (finalize_done m) as [m9 [E9 F]]. rewrite E in E9. injection E9 as <-.
  pose proof (finalize_sound g W m m' E) as SO.
  induction H.
  - apply (fi_le _ _ F); assumption.
  - apply (fi_internal _ _ F); assumption.
  - destruct (fi_value _ _ F v H IHhidden) as [A|[A B]]; [exact A|]. exfalso. apply (NE v H). split; [exact A|].
    destruct (v_ty (value_of g v)) as [x|x|x|x|e|o]; try exact B.
    destruct B as [B1 B2]. split; [exact B1|]. intros w Hw. apply SO, B2, Hw.
  - pose proof (fi_required _ _ F v H H1 H2 IHhidden) as K. rewrite H0 in K. exact K.
  - pose proof (fi_required _ _ F v H H1 H2 IHhidden) as K. rewrite H0 in K. exact K.
  - apply (fi_field _ _ F); assumption.
  - apply (fi_entity _ _ F (EObject o)); assumption.
  - apply (fi_entity _ _ F (EInterface i)); assumption.
  - apply (fi_union _ _ F); assumption.
  - apply (fi_enum _ _ F); assumption.
  - apply (fi_input _ _ F); assumption.
Qed.

(** What clients get makes sense. *)
Lemma not_all : forall A (p : A -> bool) l, ~ (forall x, In x l -> p x = true) -> exists x, In x l /\ p x = false.
Proof.
  intros A p l; induction l as [|x l IH]; intro H; [exfalso; apply H; intros x []|].
  destruct (p x) eqn:E; [|exists x; split; [left; reflexivity|exact E]].
  destruct IH as [y [Hy K]].
  - intro K; apply H. intros y [<-|Hy]; [exact E|apply K, Hy].
  - exists y; split; [right; exact Hy|exact K].
Qed.
Theorem finalize_usable : forall m m', finalize_inaccessible g m = Done m' ->
  usable g m' (forall v, v < List.length (g_values g) -> ~ emptied g m (v_ty (value_of g v))).
Proof.
  intros m m' E. destruct (finalize_done m) as [m9 [E9 F]]. rewrite E in E9. injection E9 as <-.
  assert (Req : forall v, v < nv -> m' (vparent_site (v_parent (value_of g v))) = false ->
    m' (SValue v) = false \/ v_required (value_of g v) = false \/ v_internal (value_of g v) = true).
  { intros v L P. destruct (m' (SValue v)) eqn:A; [|left; reflexivity]. destruct (v_required (value_of g v)) eqn:B; [|right; left; reflexivity].
    destruct (v_internal (value_of g v)) eqn:C; [right; right; reflexivity|].
    rewrite (fi_required _ _ F v L B C A) in P. discriminate. }
  split.
  - intros f L H. destruct (m' (SType (f_ty (field_of g f)))) eqn:K; [|reflexivity]. rewrite (fi_field _ _ F f L K) in H. discriminate.
  - intros f v L H Hv. destruct (wf_args g W f v Hv) as [Lv P]. apply Req; [exact Lv|]. rewrite P. exact H.
  - intros o v H Hv. destruct (wf_inputs g W o v Hv) as [Lv P]. apply Req; [exact Lv|]. rewrite P. exact H.
  - intros v L H. destruct (v_internal (value_of g v)) eqn:K; [|reflexivity]. rewrite (fi_internal _ _ F v L K) in H. discriminate.
  - intros o L H. apply (not_all _ (fun f => m' (SField f))). intro K. rewrite (fi_entity _ _ F (EObject o) L K : m' (SType (TObject o)) = true) in H. discriminate.
  - intros i L H. apply (not_all _ (fun f => m' (SField f))). intro K. rewrite (fi_entity _ _ F (EInterface i) L K : m' (SType (TInterface i)) = true) in H. discriminate.
  - intros u L H. apply (not_all _ (fun o => m' (SType (TObject o)))). intro K. rewrite (fi_union _ _ F u L K) in H. discriminate.
  - intros e L H. apply (not_all _ (fun o => m' (SEnumValue o))). intro K. rewrite (fi_enum _ _ F e L K) in H. discriminate.
  - intros o L H. apply (not_all _ (fun o => m' (SValue o))). intro K. rewrite (fi_input _ _ F o L K) in H. discriminate.
  - intros NE v L H. destruct (m' (SType (v_ty (value_of g v)))) eqn:K; [|reflexivity].
    rewrite (finalize_complete m m' E NE (SValue v)) in H; [discriminate|].
    apply H_value; [exact L|]. apply (finalize_sound g W m m' E), K.
Qed.
End Graph.
