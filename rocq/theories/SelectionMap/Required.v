(** What bound field selection maps require. *)
From Coq Require Import List NArith Bool Arith Lia Permutation.
From Verif Require Import Response.Model Response.Spec Response.Merge Wrapping.Spec Views.Model Views.Spec.
From Verif Require Import SelectionMap.Model SelectionMap.TextProperties SelectionMap.Binding SelectionMap.BindSpec SelectionMap.Bound SelectionMap.Filled.
Import ListNotations.
Local Open Scope nat_scope.
Local Open Scope list_scope.

(** ** Unions *)
Lemma union_nil_r ls : union ls [] = ls.
Proof. destruct ls; reflexivity. Qed.
Lemma union_cons l ls r rs : union (l :: ls) (r :: rs) =
  match Nat.compare (i_field l) (i_field r) with
  | Lt => l :: union ls (r :: rs)
  | Gt => r :: union (l :: ls) rs
  | Eq => Item (i_field l) (match i_sub l with [] => i_sub r | _ => union (i_sub l) (i_sub r) end) :: union ls rs
  end.
Proof. destruct l as [f s]. reflexivity. Qed.
Lemma union_eq l ls r rs : union (l :: ls) (r :: rs) =
  match Nat.compare (i_field l) (i_field r) with
  | Lt => l :: union ls (r :: rs)
  | Gt => r :: union (l :: ls) rs
  | Eq => Item (i_field l) (union (i_sub l) (i_sub r)) :: union ls rs
  end.
Proof. rewrite union_cons. destruct (Nat.compare _ _); try reflexivity. destruct (i_sub l); reflexivity. Qed.

Fixpoint isize (i : item) : nat := match i with Item _ s => S (fold_right (fun i n => isize i + n) 0 s) end.
Definition lsize (s : list item) : nat := fold_right (fun i n => isize i + n) 0 s.
Lemma isize_eq i : isize i = S (lsize (i_sub i)).
Proof. destruct i. reflexivity. Qed.
Lemma in_set_cons x s p : in_set (x :: s) p <-> (exists p', p = i_field x :: p' /\ in_set (i_sub x) p') \/ in_set s p.
Proof.
  split.
  - intros H. inversion H as [|? y p' I K]; subst; [right; constructor|]. destruct I as [<-|I]; [left; exists p'; split; [reflexivity|exact K]|right; constructor; assumption].
  - intros [(p' & -> & H)|H]; [constructor; [left; reflexivity|exact H]|]. inversion H as [|? y p' I K]; subst; [constructor|]. constructor; [right; exact I|exact K].
Qed.
Lemma in_set_nil p : in_set [] p <-> p = [].
Proof. split; [intros H; inversion H as [|? y p' I K]; subst; [reflexivity|destruct I]|intros ->; constructor]. Qed.
Lemma in_set_field s f : in_set s [f] <-> In f (map i_field s).
Proof.
  rewrite in_map_iff. split.
  - intros H. inversion H as [|? x ? I]. subst. exists x. split; [reflexivity|exact I].
  - intros (x & <- & I). constructor; [exact I|constructor].
Qed.
Lemma ordered_cons x s : ordered_set (x :: s) <-> (forall f, In f (map i_field s) -> i_field x < f) /\ ordered_set (i_sub x) /\ ordered_set s.
Proof.
  split.
  - intros H. inversion H as [? I F]. subst. cbn [map] in *. inversion I as [|? ? L I']. inversion F as [|? ? Fx F']. subst.
    rewrite Forall_forall in L. split; [exact L|]. split; [exact Fx|]. constructor; assumption.
  - intros (L & Fx & H). inversion H as [? I F]. subst. constructor; cbn [map]; constructor; try assumption. rewrite Forall_forall. exact L.
Qed.
Lemma ordered_nil : ordered_set [].
Proof. constructor; constructor. Qed.

Lemma union_spec : forall n ls rs, lsize ls + lsize rs < n -> ordered_set ls -> ordered_set rs ->
  ordered_set (union ls rs) /\ forall p, in_set (union ls rs) p <-> in_set ls p \/ in_set rs p.
Proof.
  induction n as [|n IH]; intros ls rs Hn Ol Or; [lia|].
  destruct ls as [|l ls].
  { change (union [] rs) with rs. split; [exact Or|]. intros p. rewrite in_set_nil. split; [auto|]. intros [->|H]; [constructor|exact H]. }
  destruct rs as [|r rs].
  { rewrite union_nil_r. split; [exact Ol|]. intros p. rewrite in_set_nil. split; [auto|]. intros [H| ->]; [exact H|constructor]. }
  rewrite union_eq. pose proof Ol as Ol0. pose proof Or as Or0. apply ordered_cons in Ol, Or. destruct Ol as (Ll & Osl & Ol), Or as (Lr & Osr & Or).
  change (lsize (l :: ls)) with (isize l + lsize ls) in Hn. change (lsize (r :: rs)) with (isize r + lsize rs) in Hn.
  rewrite !isize_eq in Hn. destruct (Nat.compare_spec (i_field l) (i_field r)) as [E|L|L].
  - destruct (IH (i_sub l) (i_sub r)) as [Os Ss]; [lia|assumption..|]. destruct (IH ls rs) as [Ou Su]; [lia|assumption..|]. split.
    + apply ordered_cons. cbn [i_field i_sub]. split; [|split; assumption]. intros f If. apply in_set_field, Su in If.
      destruct If as [If|If]; apply in_set_field in If; [exact (Ll _ If)|rewrite E; exact (Lr _ If)].
    + intros p. rewrite !in_set_cons. cbn [i_field i_sub]. rewrite Su, E. split.
      * intros [(p' & -> & H)|[H|H]]; auto. apply Ss in H. destruct H as [H|H]; [left|right]; left; exists p'; split; auto.
      * intros [[(p' & -> & H)|H]|[(p' & -> & H)|H]]; auto; left; exists p'; (split; [reflexivity|]); apply Ss; auto.
  - destruct (IH ls (r :: rs)) as [Ou Su]; [change (lsize (r :: rs)) with (isize r + lsize rs); rewrite isize_eq; lia|assumption..|]. split.
    + apply ordered_cons. split; [|split; assumption]. intros f If. apply in_set_field, Su in If.
      destruct If as [If|If]; apply in_set_field in If; [exact (Ll _ If)|]. destruct If as [<-|If]; [exact L|]. specialize (Lr _ If). lia.
    + intros p. rewrite in_set_cons, Su, (in_set_cons l). tauto.
  - destruct (IH (l :: ls) rs) as [Ou Su]; [change (lsize (l :: ls)) with (isize l + lsize ls); rewrite isize_eq; lia|assumption..|]. split.
    + apply ordered_cons. split; [|split; assumption]. intros f If. apply in_set_field, Su in If.
      destruct If as [If|If]; apply in_set_field in If; [|exact (Lr _ If)]. destruct If as [<-|If]; [exact L|]. specialize (Ll _ If). lia.
    + intros p. rewrite in_set_cons, Su, (in_set_cons r). tauto.
Qed.
Lemma union_ok ls rs : ordered_set ls -> ordered_set rs ->
  ordered_set (union ls rs) /\ forall p, in_set (union ls rs) p <-> in_set ls p \/ in_set rs p.
Proof. exact (union_spec (S (lsize ls + lsize rs)) ls rs (Nat.lt_succ_diag_r _)). Qed.
Lemma unions_ok {A} (set : A -> list item) l : Forall (fun e => ordered_set (set e)) l -> forall s, ordered_set s ->
  ordered_set (fold_left (fun s e => union s (set e)) l s) /\
  forall p, in_set (fold_left (fun s e => union s (set e)) l s) p <-> in_set s p \/ exists e, In e l /\ in_set (set e) p.
Proof.
  induction 1 as [|e l Oe _ IH]; intros s Os; cbn [fold_left].
  - split; [exact Os|]. intros p. split; [auto|]. intros [H|(e & [] & _)]. exact H.
  - destruct (union_ok s (set e) Os Oe) as [Ou Su]. destruct (IH _ Ou) as [O S']. split; [exact O|]. intros p. rewrite S', Su. split.
    + intros [[H|H]|(x & I & H)]; [auto|right; exists e; split; [left; reflexivity|exact H]|right; exists x; split; [right; exact I|exact H]].
    + intros [H|(x & [<-|I] & H)]; [auto|auto|]. right. exists x. split; assumption.
Qed.

(** ** Subsets *)
Lemma in_field_unique s : increasing (map i_field s) -> forall x y, In x s -> In y s -> i_field x = i_field y -> x = y.
Proof.
  induction s as [|z s IH]; intros H x y Ix Iy E; [destruct Ix|]. cbn [map] in H. inversion H as [|? ? L H']. subst. rewrite Forall_forall in L.
  destruct Ix as [->|Ix], Iy as [->|Iy]; [reflexivity| | |exact (IH H' x y Ix Iy E)].
  - specialize (L _ (in_map i_field _ _ Iy)). lia.
  - specialize (L _ (in_map i_field _ _ Ix)). lia.
Qed.
Lemma has_subset : forall n a s r, lsize a < n -> ordered_set a -> has_set r s -> (forall p, in_set a p -> in_set s p) -> has_set r a.
Proof.
  induction n as [|n IH]; intros a s r Hn Oa H Sub; [lia|]. inversion H as [? ? Inc Q]. subst. inversion Oa as [? Ia Fa]. subst.
  constructor; [exact Ia|]. intros i I.
  assert (F1 : In (i_field i) (map i_field s)) by (apply in_set_field, Sub, in_set_field, in_map, I).
  apply in_map_iff in F1. destruct F1 as (j & Ej & J). destruct (Q j J) as (q & [Iq Mq] & Hq). exists q. split; [split; [exact Iq|congruence]|].
  apply (IH (i_sub i) (i_sub j)).
  - assert (isize i <= lsize a).
    { clear - I. unfold lsize. induction a as [|x a IHa]; [destruct I|]. cbn [fold_right]. destruct I as [<-|I]; [lia|]. specialize (IHa I). lia. }
    rewrite isize_eq in H0. lia.
  - rewrite Forall_forall in Fa. apply Fa, in_map, I.
  - exact Hq.
  - intros p Hp. assert (K : in_set s (i_field i :: p)) by (apply Sub; constructor; assumption).
    inversion K as [|? y ? Iy Ky]. subst. rewrite (in_field_unique s Inc j y J Iy) by congruence. exact Ky.
Qed.

(** ** Order of the fields *)
Lemma key_leb_total a b : key_leb a b = false -> key_leb b a = true.
Proof.
  destruct a as [[f|] k], b as [[h|] k']; cbn [key_leb fst snd]; try discriminate; auto.
  - rewrite (Nat.eqb_sym h f). destruct (Nat.eqb_spec f h) as [->|N]; intros H.
    + apply Nat.leb_gt in H. apply Nat.leb_le. lia.
    + apply Nat.ltb_ge in H. apply Nat.ltb_lt. lia.
  - intros H. apply Nat.leb_gt in H. apply Nat.leb_le. lia.
Qed.
Lemma key_leb_select f i k f' i' k' : key_leb (order_key (k, ISelect f i)) (order_key (k', ISelect f' i')) = true -> f <= f'.
Proof. cbn [key_leb order_key fst snd]. destruct (Nat.eqb_spec f f') as [->|N]; [lia|]. rewrite Nat.ltb_lt. lia. Qed.
Lemma key_leb_trans a b c : key_leb a b = true -> key_leb b c = true -> key_leb a c = true.
Proof.
  destruct a as [[f|] k], b as [[h|] k'], c as [[m|] k'']; cbn [key_leb fst snd]; try discriminate; auto.
  - destruct (Nat.eqb_spec f h) as [->|N], (Nat.eqb_spec h m) as [->|N']; rewrite ?Nat.eqb_refl.
    + rewrite !Nat.leb_le. lia.
    + rewrite Nat.leb_le, Nat.ltb_lt. destruct (Nat.eqb_spec h m); [contradiction|]. auto.
    + rewrite Nat.leb_le, Nat.ltb_lt. destruct (Nat.eqb_spec f m); [contradiction|]. rewrite Nat.ltb_lt. lia.
    + rewrite !Nat.ltb_lt. destruct (Nat.eqb_spec f m) as [->|M]; [lia|]. rewrite Nat.ltb_lt. lia.
  - rewrite !Nat.leb_le. lia.
Qed.
Inductive keys_sorted : list (nat * inj) -> Prop :=
| KsNil : keys_sorted []
| KsCons p l : (forall q, In q l -> key_leb (order_key p) (order_key q) = true) -> keys_sorted l -> keys_sorted (p :: l).
Lemma insert_sorted p l : keys_sorted l -> keys_sorted (insert_kv p l).
Proof.
  induction 1 as [|q l L H IH]; cbn [insert_kv]; [constructor; [intros q []|constructor]|].
  destruct (key_leb (order_key p) (order_key q)) eqn:E.
  - constructor; [|constructor; assumption]. intros x [<-|I]; [exact E|]. exact (key_leb_trans _ _ _ E (L x I)).
  - constructor; [|exact IH]. intros x I. apply (Permutation_in _ (Permutation_sym (insert_perm p l))) in I. destruct I as [<-|I]; [apply key_leb_total, E|exact (L x I)].
Qed.
Lemma sort_sorted l : keys_sorted (sort_kvs l).
Proof. induction l as [|p l IH]; [constructor|]. apply insert_sorted, IH. Qed.
Lemma sorted_ordered l : keys_sorted l -> ordered_entries l.
Proof.
  induction 1 as [|[k i] l L _ IH]; constructor; [|exact IH]. intros f next k' f' next' -> I. exact (key_leb_select _ _ _ _ _ _ (L _ I)).
Qed.

(** ** Injections *)
Section BInd.
  Variable P : bvalue -> Prop.
  Variable Q : bentry -> Prop.
  Variable R : bofield -> Prop.
  Hypothesis HV : forall l, Forall Q l -> P (BValue l).
  Hypothesis HI : Q BIdentity.
  Hypothesis HP : forall p, Q (BPath p).
  Hypothesis HO : forall p l, Forall R l -> Q (BObject p l).
  Hypothesis HL : forall p v, P v -> Q (BList p v).
  Hypothesis HS : forall i v, P v -> R (BOField i (BFValue v)).
  Hypothesis HF : forall i f, R (BOField i (BFField f)).
  Hypothesis HD : forall i x, R (BOField i (BFDefault x)).
  Fixpoint bvalue_rec_ (v : bvalue) : P v :=
    match v with
    | BValue l => HV l ((fix go l := match l return Forall Q l with [] => Forall_nil Q | e :: l => Forall_cons e (bentry_rec_ e) (go l) end) l)
    end
  with bentry_rec_ (e : bentry) : Q e :=
    match e with
    | BIdentity => HI
    | BPath p => HP p
    | BObject p l => HO p l ((fix go l := match l return Forall R l with [] => Forall_nil R | f :: l => Forall_cons f (bofield_rec_ f) (go l) end) l)
    | BList p v => HL p v (bvalue_rec_ v)
    end
  with bofield_rec_ (f : bofield) : R f :=
    match f with
    | BOField i (BFValue v) => HS i v (bvalue_rec_ v)
    | BOField i (BFField h) => HF i h
    | BOField i (BFDefault x) => HD i x
    end.
End BInd.

(** What is selected is what is in the set; the set is in order, and having it is enough. *)
Definition exact (s : list item) (i : inj) : Prop :=
  ordered_set s /\ (forall p, selects i p <-> in_set s p) /\ forall r, has_set r s -> within r i.
Lemma exact_default x : exact [] (IDefault x).
Proof.
  split; [apply ordered_nil|]. split; [|intros r _; constructor]. intros p. rewrite in_set_nil. split; [intros H; inversion H; reflexivity|intros ->; constructor].
Qed.
Lemma exact_identity : exact [] IIdentity.
Proof.
  split; [apply ordered_nil|]. split; [|intros r _; constructor]. intros p. rewrite in_set_nil. split; [intros H; inversion H; reflexivity|intros ->; constructor].
Qed.
Lemma exact_select f s i : exact s i -> exact [Item f s] (ISelect f i).
Proof.
  intros (O & S' & W). split; [|split].
  - apply ordered_cons. split; [intros h []|]. split; [exact O|apply ordered_nil].
  - intros p. rewrite in_set_cons, in_set_nil. cbn [i_field i_sub]. split.
    + intros H. inversion H; subst; [right; reflexivity|]. left. eexists. split; [reflexivity|]. apply S'. assumption.
    + intros [(p' & -> & H)| ->]; [|constructor]. constructor. apply S', H.
  - intros r H. inversion H as [? ? _ Q]. subst. destruct (Q _ (or_introl eq_refl)) as (q & [I M] & Hq). apply WiSelect with (q := q); [exact I|exact M|exact (W _ Hq)].
Qed.
Section Create.
  Variable sid key : nat -> nat.
  Lemma exact_path p s i : exact s i -> forall s' i', create_path sid p (s, i) = (s', i') -> exact s' i'.
  Proof.
    intros E. induction p as [|f p IH]; intros s' i'.
    - intros [= <- <-]. exact E.
    - unfold create_path. cbn [fold_right]. change (fold_right _ (s, i) p) with (create_path sid p (s, i)). destruct (create_path sid p (s, i)) as [s1 i1].
      intros [= <- <-]. apply exact_select, IH. reflexivity.
  Qed.
  Lemma exact_object (l : list (nat * (list item * inj))) : Forall (fun e => exact (fst (snd e)) (snd (snd e))) l ->
    exact (fold_left (fun s e => union s (fst (snd e))) l []) (IObject (sort_kvs (map (fun e => (fst e, snd (snd e))) l))).
  Proof.
    intros F. set (kvs := map _ l). assert (Fo : Forall (fun e : nat * (list item * inj) => ordered_set (fst (snd e))) l) by (eapply Forall_impl; [|exact F]; intros e (O & _); exact O).
    destruct (unions_ok (fun e : nat * (list item * inj) => fst (snd e)) l Fo [] ordered_nil) as [O S']. split; [exact O|]. rewrite Forall_forall in F. split.
    - intros p. rewrite S', in_set_nil. split.
      + intros H. inversion H as [| |? k i ? I K]; subst; [left; reflexivity|right].
        apply (Permutation_in _ (Permutation_sym (sort_perm kvs))) in I. unfold kvs in I. apply in_map_iff in I. destruct I as (e & [= <- <-] & I).
        exists e. split; [exact I|]. apply (F e I), K.
      + intros [->|(e & I & H)]; [constructor|]. apply SeObject with (k := fst e) (i := snd (snd e)); [|apply (F e I), H].
        apply (Permutation_in _ (sort_perm kvs)). unfold kvs. apply in_map_iff. exists e. split; [reflexivity|exact I].
    - intros r H. apply WiObject; [apply sorted_ordered, sort_sorted|]. rewrite Forall_forall. intros i I. apply in_map_iff in I. destruct I as ([k j] & <- & I).
      apply (Permutation_in _ (Permutation_sym (sort_perm kvs))) in I. unfold kvs in I. apply in_map_iff in I. destruct I as (e & [= <- <-] & I). cbn [snd].
      destruct (F e I) as (Oe & _ & W). apply W. apply (has_subset (S (lsize (fst (snd e)))) _ _ r (Nat.lt_succ_diag_r _) Oe H).
      intros p Hp. apply S'. right. exists e. split; assumption.
  Qed.
  Lemma exact_all :
    (forall v s i, create_selected sid key v = Some (s, i) -> exact s i) /\
    (forall e s i, create_entry sid key e = Some (s, i) -> exact s i) /\
    (forall f e, create_ofield sid key f = Some e -> exact (fst (snd e)) (snd (snd e))).
  Proof.
    set (P := fun v => forall s i, create_selected sid key v = Some (s, i) -> exact s i).
    set (Q := fun e => forall s i, create_entry sid key e = Some (s, i) -> exact s i).
    set (R := fun f => forall e, create_ofield sid key f = Some e -> exact (fst (snd e)) (snd (snd e))).
    set (Tk := Targets key (fun _ => TyRef (DScalar 0) (Named false)) (fun _ => None) (fun _ => MNone)).
    assert (HV : forall l, Forall Q l -> P (BValue l)).
    { intros [|e [|]] F s i C; try discriminate. inversion F as [|? ? Qe _]. subst. exact (Qe s i C). }
    assert (HI : Q BIdentity) by (intros s i [= <- <-]; apply exact_identity).
    assert (HP : forall p, Q (BPath p)).
    { intros p s i C. cbn [create_entry] in C. injection C as C. exact (exact_path p _ _ exact_identity _ _ C). }
    assert (HO : forall p l, Forall R l -> Q (BObject p l)).
    { intros p l F s i C. rewrite (create_object_eq Tk sid) in C. apply bind_some in C. destruct C as ([s1 i1] & C & E).
      apply create_fields_spec in C. destruct C as (es & Fe & -> & ->). cbn [app] in E.
      assert (X : exact (fold_left (fun s e => union s (fst (snd e))) es []) (IObject (sort_kvs (map (fun e => (fst e, snd (snd e))) es)))).
      { apply exact_object. clear - F Fe. revert F. induction Fe; intros F; [constructor|]. inversion F. subst. constructor; [|auto]. auto. }
      destruct p as [p|]; [injection E as E; exact (exact_path p _ _ X _ _ E)|]. injection E as <- <-. exact X. }
    assert (HL : forall p v, P v -> Q (BList p v)).
    { intros p v Pv s i C. cbn [create_entry] in C. apply bind_some in C. destruct C as ([s1 i1] & C & E). specialize (Pv _ _ C).
      destruct p as [p|]; [injection E as E; exact (exact_path p _ _ Pv _ _ E)|]. injection E as <- <-. exact Pv. }
    assert (HS : forall i v, P v -> R (BOField i (BFValue v))).
    { intros i v Pv e C. apply (create_ofield_some Tk sid) in C. destruct C as [_ C]. cbn [create_field] in C. destruct (snd e) as [s1 i1]. exact (Pv _ _ C). }
    assert (HF : forall i f, R (BOField i (BFField f))).
    { intros i f e C. cbn in C. injection C as <-. apply exact_select, exact_identity. }
    assert (HD : forall i x, R (BOField i (BFDefault x))).
    { intros i x e C. cbn in C. injection C as <-. apply exact_default. }
    split; [exact (bvalue_rec_ P Q R HV HI HP HO HL HS HF HD)|].
    split; [exact (bentry_rec_ P Q R HV HI HP HO HL HS HF HD)|exact (bofield_rec_ P Q R HV HI HP HO HL HS HF HD)].
  Qed.
End Create.
