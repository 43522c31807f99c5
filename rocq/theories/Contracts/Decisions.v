(** Decisions of a contract: what the passes downwards and upwards amount to. *)
From Coq Require Import String List Arith ZArith Bool Lia Sorting.Sorted Sorting.Permutation.
From Verif.Contracts Require Import Model Spec Finalize Complete.
Import ListNotations.
Local Open Scope nat_scope.
Local Open Scope list_scope.

Lemma priority_strength : forall x, i8 x -> priority x = strength x.
Proof.
  intros x [A B]. unfold priority, strength. destruct (Z.ltb_spec x 0).
  - replace (0 <=? x)%Z with false by (symmetry; apply Z.leb_gt; lia). rewrite Z.mod_small; lia.
  - replace (0 <=? x)%Z with true by (symmetry; apply Z.leb_le; lia). rewrite Z.mod_small; lia.
Qed.
Lemma replace_prevailing : forall c n, i8 c -> i8 n -> replace_higher c n = prevailing c n.
Proof.
  intros c n C N. unfold replace_higher, prevailing. rewrite !priority_strength by assumption.
  destruct (strength c <? strength n)%Z; cbv zeta.
  - rewrite Z.land_0_l, Z.lor_0_r. apply (Z.land_m1_l n).
  - change (Z.lnot (-1)) with 0%Z. rewrite Z.land_0_l, Z.lor_0_l. apply Z.land_m1_l.
Qed.
Lemma prevailing_i8 : forall a b, i8 a -> i8 b -> i8 (prevailing a b).
Proof. intros a b A B. unfold prevailing. destruct (_ <? _)%Z; assumption. Qed.
Lemma prevailing_strength : forall a b, strength (prevailing a b) = Z.max (strength a) (strength b).
Proof. intros a b. unfold prevailing. destruct (Z.ltb_spec (strength a) (strength b)); lia. Qed.

(** ** Lists of offers *)
Definition offers (d : decisions) (l : list (site * Z)) : decisions := fold_left (fun d p => offer d (fst p) (snd p)) l d.
Definition to (s : site) (l : list (site * Z)) : list Z := map snd (filter (fun p => site_eqb (fst p) s) l).
Lemma offers_at : forall l d s, offers d l s = fold_left replace_higher (to s l) (d s).
Proof.
  intro l; induction l as [|[x v] l IH]; intros d s; [reflexivity|]. unfold offers in *. cbn [fold_left fst snd]. rewrite IH. unfold to. simpl.
  unfold offer at 1, dset. destruct (site_eqb x s) eqn:E; [|reflexivity].
  apply site_eqb_eq in E; subst x. reflexivity.
Qed.
Lemma to_in : forall s l x, In x (to s l) <-> In (s, x) l.
Proof.
  intros s l x. unfold to. rewrite in_map_iff. split.
  - intros [[a b] [E H]]. apply filter_In in H. destruct H as [H K]. simpl in *. apply site_eqb_eq in K. subst. exact H.
  - intro H. exists (s, x). split; [reflexivity|]. apply filter_In. split; [exact H|]. apply site_eqb_eq; reflexivity.
Qed.

Lemma fold_const : forall l c x, i8 c -> i8 x -> (forall y, In y l -> y = x) -> l <> [] -> fold_left replace_higher l c = prevailing c x.
Proof.
  intros l c x C X. revert c C. induction l as [|y l IH]; intros c C H N; [congruence|].
  rewrite (H y (or_introl eq_refl)). simpl. rewrite replace_prevailing by assumption.
  destruct l as [|z l]; [reflexivity|]. rewrite IH; [|apply prevailing_i8; assumption|intros; apply H; right; assumption|discriminate].
  unfold prevailing at 1. rewrite prevailing_strength. destruct (Z.ltb_spec (Z.max (strength c) (strength x)) (strength x)); [lia|reflexivity].
Qed.
Lemma fold_up : forall l c, i8 c -> (forall x, In x l -> i8 x /\ (0 <= x)%Z) ->
  let r := fold_left replace_higher l c in
  i8 r /\ ((r < 0)%Z <-> (c < 0)%Z /\ forall x, In x l -> (strength x <= strength c)%Z) /\
  ((r = c /\ forall x, In x l -> (strength x <= strength c)%Z) \/ (In r l /\ (strength c < strength r)%Z /\ forall x, In x l -> (strength x <= strength r)%Z)).
Proof.
  intro l; induction l as [|y l IH]; intros c C H; simpl.
  - split; [exact C|]. split; [split; [intro K; split; [exact K|intros x []]|intros [K _]; exact K]|]. left; split; [reflexivity|intros x []].
  - destruct (H y (or_introl eq_refl)) as [Y0 Y1].
    assert (H' : forall x, In x l -> i8 x /\ (0 <= x)%Z) by (intros; apply H; right; assumption).
    rewrite replace_prevailing by assumption. specialize (IH (prevailing c y) (prevailing_i8 _ _ C Y0) H').
    cbv zeta in IH. destruct IH as [A [B D]]. split; [exact A|].
    unfold prevailing in *. destruct (Z.ltb_spec (strength c) (strength y)) as [L|L].
    + assert (R : (0 <= fold_left replace_higher l y)%Z) by (destruct (Z.lt_ge_cases (fold_left replace_higher l y) 0); [lia|lia]).
      split.
      * split; [intro K; lia|]. intros [_ K]. specialize (K y (or_introl eq_refl)). lia.
      * right. destruct D as [[D1 D2]|[D1 [D2 D3]]].
        -- rewrite D1. split; [left; reflexivity|]. split; [exact L|]. intros x [<-|Hx]; [lia|apply D2, Hx].
        -- split; [right; exact D1|]. split; [lia|]. intros x [<-|Hx]; [lia|apply D3, Hx].
    + split.
      * rewrite B. split; intros [K1 K2]; (split; [exact K1|]); [intros x [<-|Hx]; [exact L|apply K2, Hx]|intros; apply K2; right; assumption].
      * destruct D as [[D1 D2]|[D1 [D2 D3]]]; [left|right].
        -- split; [exact D1|]. intros x [<-|Hx]; [exact L|apply D2, Hx].
        -- split; [right; exact D1|]. split; [exact D2|]. intros x [<-|Hx]; [lia|apply D3, Hx].
Qed.

(** ** A loop is a list of offers *)
Lemma loop_offers : forall (source : site -> Prop) (step : decisions -> nat -> decisions) (of : decisions -> nat -> list (site * Z)),
  (forall d id, step d id = offers d (of d id)) ->
  (forall d d' id, (forall s, source s -> d s = d' s) -> of d id = of d' id) ->
  (forall d id p, In p (of d id) -> ~ source (fst p)) ->
  forall l d, fold_left step l d = offers d (flat_map (of d) l).
Proof.
  intros source step of Hs He Ht l; induction l as [|a l IH]; intro d; [reflexivity|]. cbn [fold_left flat_map].
  rewrite IH. unfold offers at 1. unfold offers. rewrite fold_left_app. rewrite (Hs d a).
  replace (flat_map (of (offers d (of d a))) l) with (flat_map (of d) l); [reflexivity|].
  apply flat_map_ext. intro id. apply He. intros s Ss. rewrite offers_at.
  assert (E : to s (of d a) = []).
  { destruct (to s (of d a)) as [|x r] eqn:E; [reflexivity|]. exfalso.
    assert (K : In x (to s (of d a))) by (rewrite E; left; reflexivity). apply to_in in K. apply (Ht d a (s, x) K). exact Ss. }
  rewrite E. reflexivity.
Qed.

(** Downwards. *)
Lemma down_offers : forall parts own d id, ~ In (own id) (parts id) ->
  down parts own d id = offers d (map (fun s => (s, d (own id))) (parts id)).
Proof.
  intros parts own d id N. unfold down, offers.
  assert (K : forall l a, a (own id) = d (own id) -> ~ In (own id) l ->
    fold_left (fun d s => offer d s (d (own id))) l a = fold_left (fun d p => offer d (fst p) (snd p)) (map (fun s => (s, d (own id))) l) a).
  { intro l; induction l as [|s l IH]; intros a A M; [reflexivity|]. cbn [fold_left map fst snd]. rewrite A. apply IH.
    - unfold offer, dset. destruct (site_eqb s (own id)) eqn:E; [|exact A]. apply site_eqb_eq in E. exfalso. apply M. left; exact E.
    - intro H; apply M; right; exact H. }
  apply K; [reflexivity|exact N].
Qed.
Lemma down_loop : forall parts own n d s, (forall a b, ~ In (own a) (parts b)) -> (forall s, i8 (d s)) ->
  let d' := fold_left (down parts own) (seq 0 n) d in
  ((forall id, id < n -> ~ In s (parts id)) -> d' s = d s) /\
  (forall id, id < n -> In s (parts id) -> (forall k, In s (parts k) -> k = id) -> d' s = prevailing (d s) (d (own id))).
Proof.
  intros parts own n d s N I8 d'.
  assert (E : d' = offers d (flat_map (fun id => map (fun s => (s, d (own id))) (parts id)) (seq 0 n))).
  { apply (loop_offers (fun s => exists a, s = own a) (down parts own) (fun d id => map (fun s => (s, d (own id))) (parts id))).
    - intros; apply down_offers, N.
    - intros a b id H. rewrite (H (own id)) by (exists id; reflexivity). reflexivity.
    - intros a id [x v] H [k K]. apply in_map_iff in H. destruct H as [y [H1 H2]]. injection H1 as <- <-. simpl in K. subst y. exact (N k id H2). }
  rewrite E, offers_at. split.
  - intro H. match goal with |- fold_left _ ?l _ = _ => destruct l as [|x r] eqn:L end; [reflexivity|]. exfalso.
    assert (K : In x (x :: r)) by (left; reflexivity). rewrite <- L in K. apply to_in in K. apply in_flat_map in K.
    destruct K as [id [K1 K2]]. apply in_seq in K1. apply in_map_iff in K2. destruct K2 as [y [K2 K3]]. injection K2 as <- _.
    apply (H id); [lia|exact K3].
  - intros id L H U. apply fold_const; [apply I8|apply I8| |].
    + intros y Hy. apply to_in in Hy. apply in_flat_map in Hy. destruct Hy as [k [K1 K2]]. apply in_map_iff in K2.
      destruct K2 as [z [K2 K3]]. injection K2 as -> <-. rewrite (U k K3). reflexivity.
    + intro K. assert (Q : In (d (own id)) (to s (flat_map (fun id => map (fun s => (s, d (own id))) (parts id)) (seq 0 n)))).
      { apply to_in. apply in_flat_map. exists id. split; [apply in_seq; lia|]. apply in_map_iff. exists s. split; [reflexivity|exact H]. }
      rewrite K in Q. destruct Q.
Qed.
Lemma down_loop_i8 : forall parts own n d, (forall s, i8 (d s)) -> forall s, i8 (fold_left (down parts own) (seq 0 n) d s).
Proof.
  intros parts own n d H. apply (fold_inv _ _ (down parts own) (fun d => forall s, i8 (d s))); [exact H|].
  intros a b _ A. unfold down. apply (fold_inv _ _ (fun d s => offer d s (d (own b))) (fun d => forall s, i8 (d s))); [exact A|].
  intros e s _ Es x. unfold offer, dset. destruct (site_eqb s x); [|apply Es]. rewrite replace_prevailing by apply Es. apply prevailing_i8; apply Es.
Qed.

Section Graph.
Variable g : graph.
Hypothesis W : wf g.
Variable d : decisions.
Hypothesis I8 : forall s, i8 (d s).

Lemma enum_in : forall x e, In x (enum_of g e) -> e < List.length (g_enums g).
Proof.
  intros x e H. destruct (Nat.lt_ge_cases e (List.length (g_enums g))) as [A|A]; [exact A|].
  unfold enum_of in H. rewrite nth_overflow in H by exact A. destruct H.
Qed.
Lemma args_in : forall f v, In v (f_args (field_of g f)) -> f < List.length (g_fields g).
Proof.
  intros f v H. destruct (Nat.lt_ge_cases f (List.length (g_fields g))) as [A|A]; [exact A|].
  unfold field_of in H. rewrite nth_overflow in H by exact A. destruct H.
Qed.

Ltac no_site := intros ? ? H; apply in_map_iff in H; destruct H as [? [H _]]; discriminate.

Lemma downwards_at :
  let d' := downwards g d in
  (forall s, i8 (d' s)) /\
  (forall t, d' (SType t) = d (SType t)) /\
  (forall f, f < List.length (g_fields g) -> d' (SField f) = field_decision g d f) /\
  (forall v, v < List.length (g_values g) -> d' (SValue v) = value_decision g d v) /\
  (forall x, x < List.length (g_enum_values g) -> d' (SEnumValue x) = enum_value_decision g d x).
Proof.
  unfold downwards, ids. cbv zeta.
  set (p1 := fun o => map SValue (input_of g o)). set (w1 := fun o => SType (TInput o)). set (n1 := List.length (g_inputs g)).
  set (d1 := fold_left (down p1 w1) (seq 0 n1) d).
  set (p2 := fun o => map SField (o_fields (object_of g o))). set (w2 := fun o => SType (TObject o)). set (n2 := List.length (g_objects g)).
  set (d2 := fold_left (down p2 w2) (seq 0 n2) d1).
  set (p3 := fun o => map SField (i_fields (interface_of g o))). set (w3 := fun o => SType (TInterface o)). set (n3 := List.length (g_interfaces g)).
  set (d3 := fold_left (down p3 w3) (seq 0 n3) d2).
  set (p4 := fun f => map SValue (f_args (field_of g f))). set (n4 := List.length (g_fields g)).
  set (d4 := fold_left (down p4 SField) (seq 0 n4) d3).
  set (p5 := fun e => map SEnumValue (enum_of g e)). set (w5 := fun o => SType (TEnum o)). set (n5 := List.length (g_enums g)).
  set (d5 := fold_left (down p5 w5) (seq 0 n5) d4).
  assert (N1 : forall a b, ~ In (w1 a) (p1 b)) by no_site. assert (N2 : forall a b, ~ In (w2 a) (p2 b)) by no_site.
  assert (N3 : forall a b, ~ In (w3 a) (p3 b)) by no_site. assert (N4 : forall a b, ~ In (SField a) (p4 b)) by no_site.
  assert (N5 : forall a b, ~ In (w5 a) (p5 b)) by no_site.
  assert (Q1 : forall s, i8 (d1 s)) by (apply down_loop_i8; exact I8).
  assert (Q2 : forall s, i8 (d2 s)) by (apply down_loop_i8; exact Q1).
  assert (Q3 : forall s, i8 (d3 s)) by (apply down_loop_i8; exact Q2).
  assert (Q4 : forall s, i8 (d4 s)) by (apply down_loop_i8; exact Q3).
  assert (Q5 : forall s, i8 (d5 s)) by (apply down_loop_i8; exact Q4).
  assert (E1 : forall s, (forall k, s <> SValue k) -> d1 s = d s).
  { intros s H. apply (proj1 (down_loop p1 w1 n1 d s N1 I8)). intros id _ K. apply in_map_iff in K. destruct K as [k [<- _]]. apply (H k); reflexivity. }
  assert (E2 : forall s, (forall k, s <> SField k) -> d2 s = d1 s).
  { intros s H. apply (proj1 (down_loop p2 w2 n2 d1 s N2 Q1)). intros id _ K. apply in_map_iff in K. destruct K as [k [<- _]]. apply (H k); reflexivity. }
  assert (E3 : forall s, (forall k, s <> SField k) -> d3 s = d2 s).
  { intros s H. apply (proj1 (down_loop p3 w3 n3 d2 s N3 Q2)). intros id _ K. apply in_map_iff in K. destruct K as [k [<- _]]. apply (H k); reflexivity. }
  assert (E4 : forall s, (forall k, s <> SValue k) -> d4 s = d3 s).
  { intros s H. apply (proj1 (down_loop p4 SField n4 d3 s N4 Q3)). intros id _ K. apply in_map_iff in K. destruct K as [k [<- _]]. apply (H k); reflexivity. }
  assert (E5 : forall s, (forall k, s <> SEnumValue k) -> d5 s = d4 s).
  { intros s H. apply (proj1 (down_loop p5 w5 n5 d4 s N5 Q4)). intros id _ K. apply in_map_iff in K. destruct K as [k [<- _]]. apply (H k); reflexivity. }
  assert (T : forall t, d5 (SType t) = d (SType t)).
  { intro t. rewrite E5, E4, E3, E2, E1 by discriminate. reflexivity. }
  assert (F3 : forall f, f < n4 -> d3 (SField f) = field_decision g d f).
  { intros f L. pose proof (wf_field_parent g W f L) as P. pose proof (entity_in g W f L) as R. unfold field_decision.
    destruct (f_parent (field_of g f)) as [o|i] eqn:X; simpl in P, R; cbn [entity_type].
    - unfold d3; rewrite (proj1 (down_loop p3 w3 n3 d2 (SField f) N3 Q2)).
      + unfold d2; rewrite (proj2 (down_loop p2 w2 n2 d1 (SField f) N2 Q1) o R).
        * unfold w2. rewrite !E1 by discriminate. reflexivity.
        * apply in_map; exact P.
        * intros k K. apply in_map_iff in K. destruct K as [y [Y K]]. injection Y as ->. destruct (wf_fields g W (EObject k) f K) as [_ Z]. congruence.
      + intros k _ K. apply in_map_iff in K. destruct K as [y [Y K]]. injection Y as ->. destruct (wf_fields g W (EInterface k) f K) as [_ Z]. congruence.
    - unfold d3; rewrite (proj2 (down_loop p3 w3 n3 d2 (SField f) N3 Q2) i R).
      + unfold d2; rewrite (proj1 (down_loop p2 w2 n2 d1 (SField f) N2 Q1)).
        * unfold w3. rewrite E2, !E1 by discriminate. reflexivity.
        * intros k _ K. apply in_map_iff in K. destruct K as [y [Y K]]. injection Y as ->. destruct (wf_fields g W (EObject k) f K) as [_ Z]. congruence.
      + apply in_map; exact P.
      + intros k K. apply in_map_iff in K. destruct K as [y [Y K]]. injection Y as ->. destruct (wf_fields g W (EInterface k) f K) as [_ Z]. congruence. }
  split; [exact Q5|]. split; [exact T|]. split; [|split].
  - intros f L. rewrite E5, E4 by discriminate. apply F3, L.
  - intros v L. rewrite E5 by discriminate. pose proof (wf_value_parent g W v L) as P. unfold value_decision.
    destruct (v_parent (value_of g v)) as [f|o] eqn:X.
    + destruct P as [P0 P]. unfold d4; rewrite (proj2 (down_loop p4 SField n4 d3 (SValue v) N4 Q3) f P0).
      * rewrite F3 by exact P0. rewrite E3, E2 by discriminate. unfold d1; rewrite (proj1 (down_loop p1 w1 n1 d (SValue v) N1 I8)); [reflexivity|].
        intros k _ K. apply in_map_iff in K. destruct K as [y [Y K]]. injection Y as ->. destruct (wf_inputs g W k v K) as [_ Z]. congruence.
      * apply in_map; exact P.
      * intros k K. apply in_map_iff in K. destruct K as [y [Y K]]. injection Y as ->. destruct (wf_args g W k v K) as [_ Z]. congruence.
    + unfold d4; rewrite (proj1 (down_loop p4 SField n4 d3 (SValue v) N4 Q3)).
      * rewrite E3, E2 by discriminate. unfold d1; rewrite (proj2 (down_loop p1 w1 n1 d (SValue v) N1 I8) o (input_in g v o P)); [reflexivity|apply in_map; exact P|].
        intros k K. apply in_map_iff in K. destruct K as [y [Y K]]. injection Y as ->. destruct (wf_inputs g W k v K) as [_ Z]. congruence.
      * intros k _ K. apply in_map_iff in K. destruct K as [y [Y K]]. injection Y as ->. destruct (wf_args g W k v K) as [_ Z]. congruence.
  - intros x L. pose proof (wf_enum_parent g W x L) as P. unfold enum_value_decision.
    unfold d5; rewrite (proj2 (down_loop p5 w5 n5 d4 (SEnumValue x) N5 Q4) (nth x (g_enum_values g) 0) (enum_in x _ P)).
    + unfold w5. rewrite !E4, !E3, !E2, !E1 by discriminate. reflexivity.
    + apply in_map; exact P.
    + intros k K. apply in_map_iff in K. destruct K as [y [Y K]]. injection Y as ->. destruct (wf_enums g W k x K) as [_ Z]. congruence.
Qed.

(** Upwards. *)
Definition up1 (d : decisions) (x : nat) : list (site * Z) :=
  if (0 <=? d (SEnumValue x))%Z then [(SType (TEnum (nth x (g_enum_values g) 0)), d (SEnumValue x))] else [].
Definition up2 (d : decisions) (v : nat) : list (site * Z) :=
  if (0 <=? d (SValue v))%Z then
    match v_parent (value_of g v) with
    | PField f => [(SField f, d (SValue v)); (SType (entity_type (f_parent (field_of g f))), d (SValue v))]
    | PInput o => [(SType (TInput o), d (SValue v))]
    end
  else [].
Definition up3 (d : decisions) (f : nat) : list (site * Z) :=
  if (0 <=? d (SField f))%Z then [(SType (entity_type (f_parent (field_of g f))), d (SField f))] else [].

Lemma upwards_offers : forall e, let e1 := offers e (flat_map (up1 e) (ids (g_enum_values g))) in
  let e2 := offers e1 (flat_map (up2 e1) (ids (g_values g))) in
  upwards g e = offers e2 (flat_map (up3 e2) (ids (g_fields g))).
Proof.
  intros e e1 e2. unfold upwards. cbv zeta.
  rewrite (loop_offers (fun s => match s with SEnumValue _ => True | _ => False end) (up_enum_value g) up1).
  2:{ intros a id. unfold up_enum_value, up1. destruct (0 <=? a (SEnumValue id))%Z; reflexivity. }
  2:{ intros a b id H. unfold up1. rewrite (H (SEnumValue id) Logic.I). reflexivity. }
  2:{ intros a id p. unfold up1. destruct (_ <=? _)%Z; [|intros []]. intros [<-|[]] []. }
  fold e1.
  rewrite (loop_offers (fun s => match s with SValue _ => True | _ => False end) (up_value g) up2).
  2:{ intros a id. unfold up_value, up2. destruct (0 <=? a (SValue id))%Z; [|reflexivity]. destruct (v_parent _); reflexivity. }
  2:{ intros a b id H. unfold up2. rewrite (H (SValue id) Logic.I). reflexivity. }
  2:{ intros a id p. unfold up2. destruct (_ <=? _)%Z; [|intros []]. destruct (v_parent _); [intros [<-|[<-|[]]] []|intros [<-|[]] []]. }
  fold e2.
  rewrite (loop_offers (fun s => match s with SField _ => True | _ => False end) (up_field g) up3); [reflexivity| | |].
  - intros a id. unfold up_field, up3. destruct (0 <=? a (SField id))%Z; reflexivity.
  - intros a b id H. unfold up3. rewrite (H (SField id) Logic.I). reflexivity.
  - intros a id p. unfold up3. destruct (_ <=? _)%Z; [|intros []]. intros [<-|[]]. simpl. tauto.
Qed.

Lemma offers_sign : forall e l s, i8 (e s) -> (forall p, In p l -> i8 (snd p) /\ (0 <= snd p)%Z) ->
  i8 (offers e l s) /\
  ((offers e l s < 0)%Z <-> (e s < 0)%Z /\ forall x, In (s, x) l -> (strength x <= strength (e s))%Z) /\
  ((offers e l s = e s /\ forall x, In (s, x) l -> (strength x <= strength (e s))%Z) \/
   (In (s, offers e l s) l /\ (strength (e s) < strength (offers e l s))%Z)).
Proof.
  intros e l s E H. rewrite offers_at.
  destruct (fold_up (to s l) (e s) E) as [A [B C]].
  { intros x Hx. apply to_in in Hx. exact (H _ Hx). }
  split; [exact A|]. split.
  - rewrite B. split; intros [K1 K2]; (split; [exact K1|]); intros x Hx; apply K2, to_in, Hx.
  - destruct C as [[C1 C2]|[C1 [C2 _]]]; [left|right].
    + split; [exact C1|]. intros x Hx; apply C2, to_in, Hx.
    + split; [apply to_in, C1|exact C2].
Qed.

Lemma prevailing_cases : forall a b, (prevailing a b = a /\ (strength b <= strength a)%Z) \/ (prevailing a b = b /\ (strength a < strength b)%Z).
Proof. intros a b. unfold prevailing. destruct (Z.ltb_spec (strength a) (strength b)); [right|left]; split; try reflexivity; assumption. Qed.

Theorem contract_marks_hides : forall s, exists_site g s -> (contract_marks g d s = true <-> hides g d s).
Proof.
  intros s Rs. unfold contract_marks. rewrite Z.ltb_lt.
  destruct downwards_at as [Q [T [F [V X]]]]. set (e := downwards g d) in *.
  pose proof (upwards_offers e) as U. cbv zeta in U.
  set (l1 := flat_map (up1 e) (ids (g_enum_values g))) in *. set (e1 := offers e l1) in *.
  set (l2 := flat_map (up2 e1) (ids (g_values g))) in *. set (e2 := offers e1 l2) in *.
  set (l3 := flat_map (up3 e2) (ids (g_fields g))) in *. rewrite U. clear U.
  (* the lists *)
  assert (M1 : forall s x, In (s, x) l1 <-> exists k, k < List.length (g_enum_values g) /\ s = SType (TEnum (nth k (g_enum_values g) 0)) /\ x = e (SEnumValue k) /\ (0 <= x)%Z).
  { intros s' x. unfold l1. rewrite in_flat_map. split.
    - intros [k [K1 K2]]. exists k. split; [apply in_ids in K1; exact K1|]. unfold up1 in K2. destruct (Z.leb_spec 0 (e (SEnumValue k))); [|destruct K2].
      destruct K2 as [K2|[]]. injection K2 as <- <-. split; [reflexivity|]. split; [reflexivity|assumption].
    - intros [k [K1 [-> [-> K2]]]]. exists k. split; [apply in_ids; exact K1|]. unfold up1. apply Z.leb_le in K2. rewrite K2. left; reflexivity. }
  assert (P1 : forall p, In p l1 -> i8 (snd p) /\ (0 <= snd p)%Z).
  { intros [s' x] H. apply M1 in H. destruct H as [k [_ [_ [-> H]]]]. split; [apply Q|exact H]. }
  assert (S1 : forall s, i8 (e1 s)) by (intro s'; apply (offers_sign e l1 s' (Q s') P1)).
  assert (O1 : forall s, (forall k, s <> SType (TEnum k)) -> e1 s = e s).
  { intros s' H. unfold e1. rewrite offers_at. destruct (to s' l1) as [|x r] eqn:E; [reflexivity|]. exfalso.
    assert (K : In x (to s' l1)) by (rewrite E; left; reflexivity). apply to_in, M1 in K. destruct K as [k [_ [K _]]]. apply (H _ K). }
  assert (M2 : forall s x, In (s, x) l2 <-> exists v, v < List.length (g_values g) /\ x = e (SValue v) /\ (0 <= x)%Z /\
     match v_parent (value_of g v) with PField f => s = SField f \/ s = SType (entity_type (f_parent (field_of g f))) | PInput o => s = SType (TInput o) end).
  { intros s' x. unfold l2. rewrite in_flat_map. split.
    - intros [k [K1 K2]]. exists k. split; [apply in_ids in K1; exact K1|]. unfold up2 in K2. rewrite O1 in K2 by discriminate.
      destruct (Z.leb_spec 0 (e (SValue k))); [|destruct K2].
      destruct (v_parent (value_of g k)); [destruct K2 as [K2|[K2|[]]]|destruct K2 as [K2|[]]]; injection K2 as <- <-; (split; [reflexivity|]); (split; [assumption|]);
        [left|right|]; reflexivity.
    - intros [k [K1 [-> [K2 K3]]]]. exists k. split; [apply in_ids; exact K1|]. unfold up2. rewrite O1 by discriminate. apply Z.leb_le in K2. rewrite K2.
      destruct (v_parent (value_of g k)); [destruct K3 as [->| ->]; [left|right; left]|rewrite K3; left]; reflexivity. }
  assert (P2 : forall p, In p l2 -> i8 (snd p) /\ (0 <= snd p)%Z).
  { intros [s' x] H. apply M2 in H. destruct H as [k [_ [-> [H _]]]]. split; [apply Q|exact H]. }
  assert (S2 : forall s, i8 (e2 s)) by (intro s'; apply (offers_sign e1 l2 s' (S1 s') P2)).
  assert (O2 : forall s, (forall v f, v < List.length (g_values g) -> v_parent (value_of g v) = PField f -> s <> SField f /\ s <> SType (entity_type (f_parent (field_of g f)))) ->
     (forall o, s <> SType (TInput o)) -> e2 s = e1 s).
  { intros s' H H'. unfold e2. rewrite offers_at. destruct (to s' l2) as [|x r] eqn:E; [reflexivity|]. exfalso.
    assert (K : In x (to s' l2)) by (rewrite E; left; reflexivity). apply to_in, M2 in K. destruct K as [k [K0 [_ [_ K]]]].
    destruct (v_parent (value_of g k)) as [f|o] eqn:Z; [|apply (H' _ K)]. destruct (H k f K0 Z) as [A B]. tauto. }
  assert (M3 : forall s x, In (s, x) l3 <-> exists f, f < List.length (g_fields g) /\ s = SType (entity_type (f_parent (field_of g f))) /\ x = e2 (SField f) /\ (0 <= x)%Z).
  { intros s' x. unfold l3. rewrite in_flat_map. split.
    - intros [k [K1 K2]]. exists k. split; [apply in_ids in K1; exact K1|]. unfold up3 in K2. destruct (Z.leb_spec 0 (e2 (SField k))); [|destruct K2].
      destruct K2 as [K2|[]]. injection K2 as <- <-. split; [reflexivity|]. split; [reflexivity|assumption].
    - intros [k [K1 [-> [-> K2]]]]. exists k. split; [apply in_ids; exact K1|]. unfold up3. apply Z.leb_le in K2. rewrite K2. left; reflexivity. }
  assert (P3 : forall p, In p l3 -> i8 (snd p) /\ (0 <= snd p)%Z).
  { intros [s' x] H. apply M3 in H. destruct H as [k [_ [_ [-> H]]]]. split; [apply S2|exact H]. }
  assert (O3 : forall s, (forall e0, s <> SType (entity_type e0)) -> offers e2 l3 s = e2 s).
  { intros s' H. rewrite offers_at. destruct (to s' l3) as [|x r] eqn:E; [reflexivity|]. exfalso.
    assert (K : In x (to s' l3)) by (rewrite E; left; reflexivity). apply to_in, M3 in K. destruct K as [k [_ [K _]]]. apply (H _ K). }
  (* fields *)
  assert (Fe2 : forall f, f < List.length (g_fields g) ->
     ((e2 (SField f) < 0)%Z <-> (field_decision g d f < 0)%Z /\
        forall v, In v (f_args (field_of g f)) -> (0 <= value_decision g d v)%Z -> (strength (value_decision g d v) <= strength (field_decision g d f))%Z) /\
     ((e2 (SField f) = field_decision g d f) \/
      (exists v, In v (f_args (field_of g f)) /\ e2 (SField f) = value_decision g d v /\ (0 <= value_decision g d v)%Z /\
         (strength (field_decision g d f) < strength (e2 (SField f)))%Z))).
  { intros f L. destruct (offers_sign e1 l2 (SField f) (S1 _) P2) as [_ [A B]]. fold e2 in A, B.
    rewrite O1, (F f L) in A by discriminate. rewrite O1, (F f L) in B by discriminate.
    assert (K : forall x, In (SField f, x) l2 <-> exists v, In v (f_args (field_of g f)) /\ x = value_decision g d v /\ (0 <= x)%Z).
    { intro x. rewrite M2. split.
      - intros [v [L1 [L2 [L3 L4]]]]. pose proof (wf_value_parent g W v L1) as L5. destruct (v_parent (value_of g v)) as [f'|o]; [|discriminate].
        destruct L4 as [L4|L4]; [|discriminate]. injection L4 as <-. exists v. split; [apply L5|]. split; [rewrite L2; apply V, L1|exact L3].
      - intros [v [L1 [L2 L3]]]. destruct (wf_args g W f v L1) as [L4 L5]. exists v. split; [exact L4|]. split; [rewrite V by exact L4; exact L2|].
        split; [exact L3|]. rewrite L5. left; reflexivity. }
    split.
    - rewrite A. split; intros [A1 A2]; (split; [exact A1|]).
      + intros v Hv N. apply A2, K. exists v. split; [exact Hv|]. split; [reflexivity|exact N].
      + intros x Hx. apply K in Hx. destruct Hx as [v [Hv [-> N]]]. apply A2; assumption.
    - destruct B as [[B _]|[B1 B2]]; [left; exact B|]. apply K in B1. destruct B1 as [v [K1 [K2 K3]]]. right. exists v.
      split; [exact K1|]. split; [exact K2|]. split; [rewrite <- K2; exact K3|exact B2]. }
  assert (Ent : forall e0, (offers e2 l3 (SType (entity_type e0)) < 0)%Z <-> hides g d (SType (entity_type e0))).
  { intro e0. set (s0 := SType (entity_type e0)).
    assert (Ne : forall k, s0 <> SType (TEnum k)) by (intros k; unfold s0; destruct e0; discriminate).
    assert (Ni : forall k, s0 <> SType (TInput k)) by (intros k; unfold s0; destruct e0; discriminate).
    destruct (offers_sign e2 l3 s0 (S2 _) P3) as [_ [A _]]. destruct (offers_sign e1 l2 s0 (S1 _) P2) as [_ [B C]]. fold e2 in B, C.
    assert (Ts0 : e s0 = d s0) by apply T. rewrite (O1 s0 Ne), Ts0 in B. rewrite (O1 s0 Ne), Ts0 in C.
    assert (Kv : forall x, In (s0, x) l2 <-> exists f v, In f (entity_fields g e0) /\ In v (f_args (field_of g f)) /\ x = value_decision g d v /\ (0 <= x)%Z).
    { intro x. rewrite M2. split.
      - intros [v [L1 [L2 [L3 L4]]]]. pose proof (wf_value_parent g W v L1) as L5. destruct (v_parent (value_of g v)) as [f|o]; [|exfalso; apply (Ni _ L4)].
        destruct L4 as [L4|L4]; [discriminate|]. injection L4 as L4. apply entity_type_inj in L4. destruct L5 as [L5 L6]. exists f, v.
        split; [rewrite L4; apply wf_field_parent; [exact W|exact L5]|]. split; [exact L6|]. split; [rewrite L2; apply V, L1|exact L3].
      - intros [f [v [L0 [L1 [L2 L3]]]]]. destruct (wf_args g W f v L1) as [L4 L5]. destruct (wf_fields g W e0 f L0) as [_ L6]. exists v.
        split; [exact L4|]. split; [rewrite V by exact L4; exact L2|]. split; [exact L3|]. rewrite L5, L6. right; reflexivity. }
    assert (Kf : forall x, In (s0, x) l3 <-> exists f, In f (entity_fields g e0) /\ x = e2 (SField f) /\ (0 <= x)%Z).
    { intro x. rewrite M3. split.
      - intros [f [L1 [L2 [L3 L4]]]]. injection L2 as L2. apply entity_type_inj in L2. exists f. split; [rewrite L2; apply wf_field_parent; [exact W|exact L1]|]. split; assumption.
      - intros [f [L0 [L1 L2]]]. destruct (wf_fields g W e0 f L0) as [L3 L4]. exists f. split; [exact L3|]. split; [rewrite L4; reflexivity|]. split; assumption. }
    assert (Fd : forall f, In f (entity_fields g e0) -> f < List.length (g_fields g) /\ field_decision g d f = prevailing (d (SField f)) (d s0)).
    { intros f Hf. destruct (wf_fields g W e0 f Hf) as [L1 L2]. split; [exact L1|]. unfold field_decision. rewrite L2. reflexivity. }
    assert (Vd : forall f v, In f (entity_fields g e0) -> In v (f_args (field_of g f)) -> value_decision g d v = prevailing (d (SValue v)) (field_decision g d f)).
    { intros f v _ Hv. destruct (wf_args g W f v Hv) as [_ L]. unfold value_decision. rewrite L. reflexivity. }
    rewrite A. split.
    - intros [A1 A2]. apply B in A1. destruct A1 as [A1 A3].
      assert (E2 : e2 s0 = d s0).
      { destruct C as [[C _]|[C1 C2]]; [exact C|]. apply A3 in C1. lia. }
      rewrite E2 in A2. unfold s0. apply HI_entity; [exact A1| |].
      + intros f Hf [R1 R2]. fold s0 in R2. destruct (Fd f Hf) as [L1 L2]. destruct (Fe2 f L1) as [G1 G2].
        assert (D : field_decision g d f = d (SField f)) by (rewrite L2; unfold prevailing; destruct (Z.ltb_spec (strength (d (SField f))) (strength (d s0))); [lia|reflexivity]).
        assert (N : (0 <= e2 (SField f))%Z) by (destruct (Z.lt_ge_cases (e2 (SField f)) 0) as [Z|Z]; [apply G1 in Z; lia|lia]).
        pose proof (A2 _ (proj2 (Kf _) (ex_intro _ f (conj Hf (conj eq_refl N))))) as K.
        destruct G2 as [G2|[v [_ [_ [_ G2]]]]]; [rewrite G2 in K; rewrite D in K; lia|rewrite D in G2; lia].
      + intros f v Hf Hv [[R1 R2] R3]. fold s0 in R2. destruct (Fd f Hf) as [L1 L2].
        assert (D : value_decision g d v = d (SValue v)).
        { rewrite (Vd f v Hf Hv). unfold prevailing at 1. rewrite L2, prevailing_strength. destruct (Z.ltb_spec (strength (d (SValue v))) (Z.max (strength (d (SField f))) (strength (d s0)))); [lia|reflexivity]. }
        assert (N : (0 <= value_decision g d v)%Z) by (rewrite D; exact R1).
        pose proof (A3 _ (proj2 (Kv _) (ex_intro _ f (ex_intro _ v (conj Hf (conj Hv (conj eq_refl N))))))) as K. rewrite D in K. lia.
    - intro H. assert (H' : (d s0 < 0)%Z /\ (forall f, In f (entity_fields g e0) -> ~ rescues (d (SField f)) (d s0)) /\
        (forall f v, In f (entity_fields g e0) -> In v (f_args (field_of g f)) -> ~ (rescues (d (SValue v)) (d s0) /\ (strength (d (SField f)) <= strength (d (SValue v)))%Z))).
      { unfold s0. inversion H as [| | |e' H1 H2 H3 H4| | |t H1 H2 H4]; subst.
        - match goal with K : entity_type _ = entity_type _ |- _ => apply entity_type_inj in K; subst end. split; [assumption|]. split; assumption.
        - destruct e0; discriminate.
        - destruct e0; discriminate.
        - destruct e0; destruct H1. }
      destruct H' as [H1 [H2 H3]].
      assert (Vs : forall f v, In f (entity_fields g e0) -> In v (f_args (field_of g f)) -> (0 <= value_decision g d v)%Z -> (strength (value_decision g d v) <= strength (d s0))%Z).
      { intros f v Hf Hv N. destruct (Z.le_gt_cases (strength (value_decision g d v)) (strength (d s0))) as [Z|Z]; [exact Z|exfalso].
        destruct (Fd f Hf) as [L1 L2]. rewrite (Vd f v Hf Hv) in N, Z.
        destruct (prevailing_cases (d (SValue v)) (field_decision g d f)) as [[K1 K2]|[K1 K2]]; rewrite K1 in N, Z.
        - apply (H3 f v Hf Hv). split; [split; [exact N|lia]|]. rewrite L2, prevailing_strength in K2. lia.
        - rewrite L2 in N, Z. destruct (prevailing_cases (d (SField f)) (d s0)) as [[K3 K4]|[K3 K4]]; rewrite K3 in N, Z; [|lia].
          apply (H2 f Hf). split; [exact N|lia]. }
      assert (E2 : e2 s0 = d s0).
      { destruct C as [[C _]|[C1 C2]]; [exact C|]. apply Kv in C1. destruct C1 as [f [v [K1 [K2 [K3 K4]]]]]. rewrite K3 in K4, C2.
        specialize (Vs f v K1 K2 K4). lia. }
      split; [rewrite E2; exact H1|]. rewrite E2. intros x Hx. apply Kf in Hx. destruct Hx as [f [Hf [-> N]]].
      destruct (Fd f Hf) as [L1 L2]. destruct (Fe2 f L1) as [_ [G|[v [G1 [G2 [G3 _]]]]]].
      + rewrite G in N. rewrite G. destruct (Z.le_gt_cases (strength (field_decision g d f)) (strength (d s0))) as [Z|Z]; [exact Z|exfalso].
        rewrite L2 in N, Z. destruct (prevailing_cases (d (SField f)) (d s0)) as [[K3 K4]|[K3 K4]]; rewrite K3 in N, Z; [|lia].
        apply (H2 f Hf). split; [exact N|lia].
      + rewrite G2. apply (Vs f v Hf G1 G3). }
  destruct s as [t|f|v|x]; simpl in Rs.
  - destruct t as [n|n|n|n|n|n].
    + rewrite O3 by (intros []; discriminate). rewrite O2 by first [discriminate | intros v f _ _; split; [discriminate|destruct (f_parent (field_of g f)); discriminate]].
      rewrite O1 by discriminate. rewrite T. split; [intro H; apply HI_other; [exact Logic.I|exact H]|intro H].
      inversion H as [| | |e' H1 H2 H3 H4| | |t H1 H2 H4]; subst; [destruct e'; discriminate|exact H2].
    + exact (Ent (EObject n)).
    + exact (Ent (EInterface n)).
    + rewrite O3 by (intros []; discriminate). rewrite O2 by first [discriminate | intros v f _ _; split; [discriminate|destruct (f_parent (field_of g f)); discriminate]].
      rewrite O1 by discriminate. rewrite T. split; [intro H; apply HI_other; [exact Logic.I|exact H]|intro H].
      inversion H as [| | |e' H1 H2 H3 H4| | |t H1 H2 H4]; subst; [destruct e'; discriminate|exact H2].
    + rewrite O3 by (intros []; discriminate). rewrite O2 by first [discriminate | intros v f _ _; split; [discriminate|destruct (f_parent (field_of g f)); discriminate]].
      destruct (offers_sign e l1 (SType (TEnum n)) (Q _) P1) as [_ [A _]]. fold e1 in A. rewrite A, T.
      assert (Kx : forall x, In (SType (TEnum n), x) l1 <-> exists k, In k (enum_of g n) /\ x = enum_value_decision g d k /\ (0 <= x)%Z).
      { intro x. rewrite M1. split.
        - intros [k [K1 [K2 [K3 K4]]]]. injection K2 as ->. exists k. split; [apply (wf_enum_parent g W k K1)|]. split; [rewrite K3; apply X, K1|exact K4].
        - intros [k [K1 [K2 K3]]]. destruct (wf_enums g W n k K1) as [K4 K5]. exists k. split; [exact K4|]. split; [rewrite K5; reflexivity|]. split; [rewrite X by exact K4; exact K2|exact K3]. }
      assert (Xd : forall k, In k (enum_of g n) -> enum_value_decision g d k = prevailing (d (SEnumValue k)) (d (SType (TEnum n)))).
      { intros k Hk. destruct (wf_enums g W n k Hk) as [_ K]. unfold enum_value_decision. rewrite K. reflexivity. }
      split.
      * intros [A1 A2]. apply HI_enum; [exact A1|]. intros k Hk [R1 R2].
        assert (D : enum_value_decision g d k = d (SEnumValue k)) by (rewrite (Xd k Hk); destruct (prevailing_cases (d (SEnumValue k)) (d (SType (TEnum n)))) as [[K _]|[_ K]]; [exact K|lia]).
        assert (K : (strength (enum_value_decision g d k) <= strength (d (SType (TEnum n))))%Z)
          by (apply A2, Kx; exists k; split; [exact Hk|]; split; [reflexivity|rewrite D; exact R1]). rewrite D in K. lia.
      * intro H. inversion H as [| | |e' H1 H2 H3 H4|e' H1 H2 H4| |t H1 H2 H4]; subst; [destruct e'; discriminate| |destruct H1].
        split; [exact H1|]. intros x Hx. apply Kx in Hx. destruct Hx as [k [Hk [-> N]]]. rewrite (Xd k Hk) in *.
        destruct (prevailing_cases (d (SEnumValue k)) (d (SType (TEnum n)))) as [[K1 K2]|[K1 K2]]; rewrite K1 in *; [|lia].
        destruct (Z.le_gt_cases (strength (d (SEnumValue k))) (strength (d (SType (TEnum n))))) as [Z|Z]; [exact Z|exfalso].
        apply (H2 k Hk). split; [exact N|lia].
    + rewrite O3 by (intros []; discriminate).
      destruct (offers_sign e1 l2 (SType (TInput n)) (S1 _) P2) as [_ [A _]]. fold e2 in A. rewrite A, O1, T by discriminate.
      assert (Kx : forall x, In (SType (TInput n), x) l2 <-> exists k, In k (input_of g n) /\ x = value_decision g d k /\ (0 <= x)%Z).
      { intro x. rewrite M2. split.
        - intros [k [K1 [K2 [K3 K4]]]]. pose proof (wf_value_parent g W k K1) as K5. destruct (v_parent (value_of g k)) as [f|o].
          + destruct K4 as [K4|K4]; [discriminate|]. destruct (f_parent (field_of g f)); discriminate.
          + injection K4 as ->. exists k. split; [exact K5|]. split; [rewrite K2; apply V, K1|exact K3].
        - intros [k [K1 [K2 K3]]]. destruct (wf_inputs g W n k K1) as [K4 K5]. exists k. split; [exact K4|]. split; [rewrite V by exact K4; exact K2|].
          split; [exact K3|]. rewrite K5. reflexivity. }
      assert (Xd : forall k, In k (input_of g n) -> value_decision g d k = prevailing (d (SValue k)) (d (SType (TInput n)))).
      { intros k Hk. destruct (wf_inputs g W n k Hk) as [_ K]. unfold value_decision. rewrite K. reflexivity. }
      split.
      * intros [A1 A2]. apply HI_input; [exact A1|]. intros k Hk [R1 R2].
        assert (D : value_decision g d k = d (SValue k)) by (rewrite (Xd k Hk); destruct (prevailing_cases (d (SValue k)) (d (SType (TInput n)))) as [[K _]|[_ K]]; [exact K|lia]).
        assert (K : (strength (value_decision g d k) <= strength (d (SType (TInput n))))%Z)
          by (apply A2, Kx; exists k; split; [exact Hk|]; split; [reflexivity|rewrite D; exact R1]). rewrite D in K. lia.
      * intro H. inversion H as [| | |e' H1 H2 H3 H4| |o' H1 H2 H4|t H1 H2 H4]; subst; [destruct e'; discriminate| |destruct H1].
        split; [exact H1|]. intros x Hx. apply Kx in Hx. destruct Hx as [k [Hk [-> N]]]. rewrite (Xd k Hk) in *.
        destruct (prevailing_cases (d (SValue k)) (d (SType (TInput n)))) as [[K1 K2]|[K1 K2]]; rewrite K1 in *; [|lia].
        destruct (Z.le_gt_cases (strength (d (SValue k))) (strength (d (SType (TInput n))))) as [Z|Z]; [exact Z|exfalso].
        apply (H2 k Hk). split; [exact N|lia].
  - rewrite O3 by discriminate. destruct (Fe2 f Rs) as [A _]. rewrite A.
    assert (Vd : forall v, In v (f_args (field_of g f)) -> value_decision g d v = prevailing (d (SValue v)) (field_decision g d f)).
    { intros v Hv. destruct (wf_args g W f v Hv) as [_ L]. unfold value_decision. rewrite L. reflexivity. }
    split.
    + intros [A1 A2]. apply HI_field; [exact Rs|exact A1|]. intros v Hv [R1 R2].
      assert (D : value_decision g d v = d (SValue v)) by (rewrite (Vd v Hv); destruct (prevailing_cases (d (SValue v)) (field_decision g d f)) as [[K _]|[_ K]]; [exact K|lia]).
      specialize (A2 v Hv). rewrite D in A2. specialize (A2 R1). lia.
    + intro H. inversion H as [| |f' H0 H1 H2 H4|e' H1 H2 H3 H4| | |t H1 H2 H4]; subst. split; [exact H1|].
      intros v Hv N. rewrite (Vd v Hv) in *.
      destruct (prevailing_cases (d (SValue v)) (field_decision g d f)) as [[K1 K2]|[K1 K2]]; rewrite K1 in *; [|lia].
      destruct (Z.le_gt_cases (strength (d (SValue v))) (strength (field_decision g d f))) as [Z|Z]; [exact Z|exfalso].
      apply (H2 v Hv). split; [exact N|lia].
  - rewrite O3 by discriminate. rewrite O2 by first [discriminate | intros v' f _ _; split; discriminate]. rewrite O1 by discriminate. rewrite V by exact Rs.
    split; [intro H; apply HI_value; [exact Rs|exact H]|intro H; inversion H; subst; assumption].
  - rewrite O3 by discriminate. rewrite O2 by first [discriminate | intros v' f _ _; split; discriminate]. rewrite O1 by discriminate. rewrite X by exact Rs.
    split; [intro H; apply HI_enum_value; [exact Rs|exact H]|intro H; inversion H; subst; assumption].
Qed.
End Graph.

(** ** The decision of a site *)
Lemma pad_nth : forall n l i, i < n -> nth i (pad n l) (-1)%Z = nth i l (-1)%Z.
Proof.
  intro n; induction n as [|n IH]; intros l i H; [lia|]. destruct l as [|x l]; destruct i as [|i]; simpl; try reflexivity.
  - rewrite IH by lia. destruct i; reflexivity.
  - apply IH; lia.
Qed.
Lemma pad_length : forall n l, List.length (pad n l) = n.
Proof. intro n; induction n as [|n IH]; intros l; [reflexivity|]. destruct l; simpl; rewrite IH; reflexivity. Qed.

Definition below (a b : Z * list site) : Prop := (priority (fst a) <= priority (fst b))%Z.
Lemma insert_in : forall x l y, In y (insert_result x l) <-> y = x \/ In y l.
Proof.
  intros x l y; induction l as [|z l IH]; simpl; [split; intros [H|H]; [left; auto|destruct H|left; auto|destruct H]|].
  destruct (_ <=? _)%Z; simpl; [split; intros [H|H]; auto|]. rewrite IH. tauto.
Qed.
Lemma sort_in : forall l y, In y (sort_results l) <-> In y l.
Proof. intros l y; induction l as [|x l IH]; simpl; [tauto|]. rewrite insert_in, IH. split; intros [H|H]; auto. Qed.
Lemma insert_sorted : forall x l, StronglySorted below l -> StronglySorted below (insert_result x l).
Proof.
  intros x l; induction l as [|y l IH]; intro H; simpl; [constructor; [constructor|constructor]|].
  inversion H as [|? ? H1 H2]; subst. destruct (Z.leb_spec (priority (fst x)) (priority (fst y))) as [L|L].
  - constructor; [exact H|]. constructor; [exact L|]. rewrite Forall_forall in *. intros z Hz. specialize (H2 z Hz). unfold below in *. lia.
  - constructor; [apply IH, H1|]. apply Forall_forall. intros z Hz. apply insert_in in Hz. destruct Hz as [->|Hz].
    + unfold below. lia.
    + rewrite Forall_forall in H2. apply H2, Hz.
Qed.
Lemma sort_sorted : forall l, StronglySorted below (sort_results l).
Proof. intro l; induction l as [|x l IH]; simpl; [constructor|apply insert_sorted, IH]. Qed.

Lemma site_in_dec : forall (s : site) l, In s l \/ ~ In s l.
Proof.
  intros s l; induction l as [|y l IH]; [right; intros []|]. destruct (site_eqb y s) eqn:E.
  - left; left. apply site_eqb_eq, E.
  - destruct IH as [H|H]; [left; right; exact H|]. right. intros [K|K]; [|contradiction].
    apply (proj2 (site_eqb_eq y s)) in K. congruence.
Qed.
Lemma ingest_at : forall (r : Z * list site) (d : decisions) (s : site), (In s (snd r) -> ingest_result d r s = fst r) /\ (~ In s (snd r) -> ingest_result d r s = d s).
Proof.
  intros [x l] d s. unfold ingest_result. cbn [fst snd]. revert d. induction l as [|y l IH]; intro d; [split; [intros []|reflexivity]|].
  cbn [fold_left]. destruct (IH (dset d y x)) as [A B]. split.
  - intros H. destruct (site_in_dec s l) as [I|I]; [apply A, I|].
    rewrite B by exact I. destruct H as [->|H]; [|contradiction]. unfold dset. replace (site_eqb s s) with true by (symmetry; apply site_eqb_eq; reflexivity). reflexivity.
  - intro H. rewrite B by (intro K; apply H; right; exact K). unfold dset. destruct (site_eqb y s) eqn:E; [|reflexivity].
    apply site_eqb_eq in E. exfalso; apply H; left; exact E.
Qed.
Lemma fold_ingest : forall l d s, StronglySorted below l -> (forall r, In r l -> i8 (fst r)) ->
  (exists r, In r l /\ In s (snd r) /\ fst r = fold_left ingest_result l d s /\
     forall r', In r' l -> In s (snd r') -> (strength (fst r') <= strength (fst r))%Z) \/
  (fold_left ingest_result l d s = d s /\ forall r, In r l -> ~ In s (snd r)).
Proof.
  intro l; induction l as [|r l IH]; intros d s H I8; [right; split; [reflexivity|intros r []]|].
  inversion H as [|? ? H1 H2]; subst. rewrite Forall_forall in H2. cbn [fold_left].
  destruct (IH (ingest_result d r) s H1 (fun x Hx => I8 x (or_intror Hx))) as [[q [A [B [C D]]]]|[A B]].
  - left. exists q. split; [right; exact A|]. split; [exact B|]. split; [exact C|]. intros r' [<-|Hr] K; [|apply D; assumption].
    specialize (H2 q A). unfold below in H2. rewrite (priority_strength (fst r) (I8 r (or_introl eq_refl))), (priority_strength (fst q) (I8 q (or_intror A))) in H2. exact H2.
  - destruct (ingest_at r d s) as [I1 I2]. destruct (site_in_dec s (snd r)) as [K|K].
    + left. exists r. split; [left; reflexivity|]. split; [exact K|]. split; [rewrite A, I1 by exact K; reflexivity|].
      intros r' [<-|Hr] K'; [lia|]. exfalso. exact (B r' Hr K').
    + right. split; [rewrite A; apply I2, K|]. intros r' [<-|Hr]; [exact K|apply B, Hr].
Qed.

Theorem decide_decided : forall (accessible : bool) sites answer l s,
  (forall x, In x answer -> i8 x) ->
  List.length l = List.length sites ->
  (forall i, i < List.length sites -> nth i l (0%Z, []) = (nth i answer (-1)%Z, nth i sites [])) ->
  decided (if accessible then 0%Z else (-1)%Z) l s (decide accessible sites answer s).
Proof.
  intros accessible sites answer l s I8 L H.
  assert (E : l = combine (pad (List.length sites) answer) sites).
  { apply (nth_ext _ _ (0%Z, []) (0%Z, [])).
    - rewrite combine_length, pad_length, Nat.min_id. exact L.
    - intros i Hi. rewrite L in Hi. rewrite H by exact Hi.
      rewrite (nth_indep (combine _ _) _ ((-1)%Z, [])) by (rewrite combine_length, pad_length, Nat.min_id; exact Hi).
      rewrite combine_nth by apply pad_length. rewrite pad_nth by exact Hi. reflexivity. }
  assert (R : forall r, In r l -> i8 (fst r)).
  { intros r Hr. destruct (In_nth _ _ (0%Z, []) Hr) as [i [Hi <-]]. rewrite L in Hi. rewrite H by exact Hi. cbn [fst].
    destruct (nth_in_or_default i answer (-1)%Z) as [K|K]; [apply I8, K|rewrite K; split; lia]. }
  unfold decide. rewrite <- E.
  destruct (fold_ingest (sort_results l) (fun _ => default_decision accessible) s (sort_sorted l)) as [[q [A [B [C D]]]]|[A B]].
  { intros r Hr; apply R, sort_in, Hr. }
  - left. exists q. split; [apply sort_in, A|]. split; [exact B|]. split; [exact C|]. rewrite <- C.
    intros r' Hr K. apply D; [apply sort_in, Hr|exact K].
  - right. split; [rewrite A; reflexivity|]. intros r Hr; apply B, sort_in, Hr.
Qed.

(** Only a tie leaves a choice. *)
Lemma strength_tie : forall a b, strength a = strength b -> a = b \/ a = (- b - 1)%Z.
Proof. intros a b. unfold strength. destruct (Z.ltb_spec a 0), (Z.ltb_spec b 0); lia. Qed.
Theorem decided_tie : forall default l s x y, decided default l s x -> decided default l s y -> x = y \/ x = (- y - 1)%Z.
Proof.
  intros default l s x y [[r [A [B [C D]]]]|[A B]] [[q [A' [B' [C' D']]]]|[A' B']].
  - apply strength_tie. specialize (D q A' B'). specialize (D' r A B). rewrite C in D'. rewrite C' in D. lia.
  - exfalso; exact (B' r A B).
  - exfalso; exact (B q A' B').
  - left; congruence.
Qed.
Theorem decided_perm : forall default l l' s x, (forall r, In r l <-> In r l') -> decided default l s x -> decided default l' s x.
Proof.
  intros default l l' s x P [[r [A [B [C D]]]]|[A B]]; [left|right].
  - exists r. split; [apply P, A|]. split; [exact B|]. split; [exact C|]. intros r' Hr. apply D, P, Hr.
  - split; [exact A|]. intros r Hr. apply B, P, Hr.
Qed.
