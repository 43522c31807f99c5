From Coq Require Import List Arith Bool Lia Sorting.Sorted Sorting.Permutation.
From Verif.ErrorShapes Require Import Model Spec.
Import ListNotations.

Lemma fid_eq_dec : forall a b : fid, {a = b} + {a <> b}.
Proof. decide equality; apply Nat.eq_dec. Qed.

(** * The scan *)
Lemma walk_spec : forall fuel x e cur rest, StronglySorted lt (cur :: rest) -> e - x + length rest < fuel ->
  match walk fuel x e cur rest with
  | Next m c r => (m = true <-> exists id, In id (cur :: rest) /\ x <= id < e) /\ StronglySorted lt (c :: r) /\
      (forall id, In id (c :: r) -> In id (cur :: rest)) /\ (forall id, In id (cur :: rest) -> In id (c :: r) \/ id < e)
  | Stop => forall id, In id (cur :: rest) -> id < x
  | Out_of_fuel => False
  end.
Proof.
  intros fuel. induction fuel as [|fuel IH]; intros x e cur rest S L; [lia|]. cbn [walk].
  assert (Min : forall id, In id (cur :: rest) -> cur <= id).
  { intros id [->|I]; [lia|]. apply StronglySorted_inv in S. destruct S as [_ F]. rewrite Forall_forall in F. specialize (F id I). lia. }
  destruct (x <? e) eqn:Le.
  - apply Nat.ltb_lt in Le. destruct (x <? cur) eqn:Lc.
    + apply Nat.ltb_lt in Lc. specialize (IH (Datatypes.S x) e cur rest S). destruct (walk fuel (Datatypes.S x) e cur rest) as [m c r| |].
      * destruct IH as (A & B & C & D); [lia|]. split; [|auto]. rewrite A. split; intros (id & I & R); exists id; (split; [exact I|]); [lia|].
        specialize (Min id I). lia.
      * intros id I. assert (G : e - Datatypes.S x + length rest < fuel) by lia. specialize (IH G id I). specialize (Min id I). lia.
      * apply IH. lia.
    + apply Nat.ltb_ge in Lc. destruct (x =? cur) eqn:E.
      * apply Nat.eqb_eq in E. subst x. split; [|split; [exact S|split; [auto|auto]]]. split; [|reflexivity]. intros _. exists cur. split; [left; reflexivity|lia].
      * apply Nat.eqb_neq in E. destruct rest as [|n rest'].
        -- intros id [->|[]]. lia.
        -- apply StronglySorted_inv in S. destruct S as [S F]. specialize (IH x e n rest' S). cbn [length] in L.
           destruct (walk fuel x e n rest') as [m c r| |].
           ++ destruct IH as (A & B & C & D); [lia|]. split; [|split; [exact B|split]].
              ** rewrite A. split; intros (id & I & R); exists id; [split; [right; exact I|lia]|].
                 destruct I as [->|I]; [lia|]. split; [exact I|lia].
              ** intros id I. right. apply C. exact I.
              ** intros id [->|I]; [right; lia|apply D; exact I].
           ++ intros id [->|I]; [lia|]. apply IH; [lia|exact I].
           ++ apply IH. lia.
  - apply Nat.ltb_ge in Le. split; [|auto]. split; [discriminate|]. intros (id & _ & R). lia.
Qed.

(** Ranges in ascending order, between [lo] and [hi]. *)
Fixpoint asc (lo : nat) (l : list (nat * nat)) (hi : nat) : Prop :=
  match l with [] => lo <= hi | (s, e) :: l' => lo <= s /\ s <= e /\ asc e l' hi end.
Definition in_range (r : nat * nat) (ids : list nat) : Prop := exists id, In id ids /\ fst r <= id < snd r.
Lemma asc_lo : forall l lo hi r, asc lo l hi -> In r l -> lo <= fst r.
Proof.
  intros l. induction l as [|[s e] l IH]; intros lo hi r A I; [destruct I|]. destruct A as (A1 & A2 & A3). destruct I as [<-|I]; [exact A1|].
  specialize (IH e hi r A3 I). lia.
Qed.
Lemma scan_spec : forall shapes lo hi cur rest, asc lo shapes hi -> StronglySorted lt (cur :: rest) ->
  exists marks, scan shapes cur rest = Some marks /\ Forall2 (fun r m => m = true <-> in_range r (cur :: rest)) shapes marks.
Proof.
  intros shapes. induction shapes as [|[s e] shapes IH]; intros lo hi cur rest A S; [exists []; split; [reflexivity|constructor]|].
  destruct A as (A1 & A2 & A3). cbn [scan].
  assert (Min : forall id, In id (cur :: rest) -> cur <= id).
  { intros id [->|I]; [lia|]. apply StronglySorted_inv in S. destruct S as [_ F]. rewrite Forall_forall in F. specialize (F id I). lia. }
  destruct (cur <? e) eqn:Lc.
  - pose proof (walk_spec (Datatypes.S (e - s + length rest)) s e cur rest S) as W.
    destruct (walk (Datatypes.S (e - s + length rest)) s e cur rest) as [m c r| |].
    + destruct W as (B & C & D & E); [lia|]. destruct (IH e hi c r A3 C) as (marks & Em & F). exists (m :: marks). rewrite Em. split; [reflexivity|].
      constructor; [exact B|]. clear - F A3 D E. revert marks F. assert (G : forall r0, In r0 shapes -> e <= fst r0) by (intros r0; apply asc_lo with (hi := hi); exact A3).
      clear A3. induction shapes as [|r0 shapes IH]; intros marks F; inversion F as [|? m' ? marks' Fm Ft]; subst; constructor.
      * rewrite Fm. specialize (G r0 (or_introl eq_refl)). split; intros (id & I & R); exists id; [split; [apply D; exact I|exact R]|].
        destruct (E id I) as [I'|L]; [split; [exact I'|exact R]|lia].
      * apply IH; [intros r1 I; apply G; right; exact I|exact Ft].
    + assert (W' : forall id, In id (cur :: rest) -> id < s) by (apply W; lia). clear W.
      exists (map (fun _ => false) ((s, e) :: shapes)). split; [reflexivity|].
      assert (G : forall r0, In r0 ((s, e) :: shapes) -> s <= fst r0).
      { intros r0 [<-|I]; [cbn [fst]; lia|]. pose proof (asc_lo _ _ _ _ A3 I). lia. }
      clear - W' G. induction ((s, e) :: shapes) as [|r0 l IH]; constructor.
      * split; [discriminate|]. intros (id & I & R). specialize (G r0 (or_introl eq_refl)). specialize (W' id I). lia.
      * apply IH. intros r1 I. apply G. right; exact I.
    + exfalso. apply W. lia.
  - apply Nat.ltb_ge in Lc. destruct (IH e hi cur rest A3 S) as (marks & Em & F). exists (false :: marks). rewrite Em. split; [reflexivity|].
    constructor; [|exact F]. split; [discriminate|]. intros (id & I & R). cbn [fst snd] in R. specialize (Min id I). lia.
Qed.
Lemma mark_spec : forall shapes ids hi, asc 0 shapes hi -> StronglySorted lt ids ->
  exists marks, mark shapes ids = Some marks /\ Forall2 (fun r m => m = true <-> in_range r ids) shapes marks.
Proof.
  intros shapes [|c rest] hi A S; [|apply scan_spec with (lo := 0) (hi := hi); assumption].
  exists (map (fun _ => false) shapes). split; [reflexivity|]. clear. induction shapes as [|r l IH]; constructor; [|exact IH].
  split; [discriminate|]. intros (id & [] & _).
Qed.

(** * Sorted ids of the shapes with errors *)
Lemma insert_pair_perm : forall p l, Permutation (insert_pair p l) (p :: l).
Proof.
  intros p l. induction l as [|x l IH]; [apply Permutation_refl|]. cbn [insert_pair]. destruct (fst p <=? fst x); [apply Permutation_refl|].
  eapply perm_trans; [apply perm_skip; exact IH|apply perm_swap].
Qed.
Lemma sort_pairs_perm : forall l, Permutation (sort_pairs l) l.
Proof.
  intros l. induction l as [|p l IH]; [apply Permutation_refl|]. cbn [sort_pairs fold_right]. fold (sort_pairs l).
  eapply perm_trans; [apply insert_pair_perm|apply perm_skip; exact IH].
Qed.
Lemma insert_pair_sorted : forall p l, StronglySorted (fun a b => fst a <= fst b) l -> StronglySorted (fun a b => fst a <= fst b) (insert_pair p l).
Proof.
  intros p l S. induction S as [|x l S IH F]; [constructor; [constructor|constructor]|]. cbn [insert_pair]. destruct (fst p <=? fst x) eqn:E.
  - apply Nat.leb_le in E. constructor; [constructor; assumption|]. constructor; [exact E|]. eapply Forall_impl; [|exact F]. cbn. lia.
  - apply Nat.leb_gt in E. constructor; [exact IH|]. apply (Permutation_Forall (Permutation_sym (insert_pair_perm p l))). constructor; [lia|exact F].
Qed.
Lemma sort_pairs_sorted : forall l, StronglySorted le (map fst (sort_pairs l)).
Proof.
  intros l. assert (S : StronglySorted (fun a b => fst a <= fst b) (sort_pairs l)).
  { induction l as [|p l IH]; [constructor|]. cbn [sort_pairs fold_right]. apply insert_pair_sorted. exact IH. }
  induction S as [|x m S IH F]; [constructor|]. cbn [map]. constructor; [exact IH|]. rewrite Forall_map. exact F.
Qed.
Lemma dedup_cons : forall x y l, dedup (x :: y :: l) = if x =? y then dedup (y :: l) else x :: dedup (y :: l).
Proof. reflexivity. Qed.
Lemma dedup_spec : forall l, StronglySorted le l -> StronglySorted lt (dedup l) /\ forall x, In x (dedup l) <-> In x l.
Proof.
  intros l S. induction S as [|x l S [IH1 IH2] F]; [split; [constructor|reflexivity]|].
  destruct l as [|y l]; [split; [constructor; constructor|reflexivity]|]. rewrite dedup_cons. destruct (x =? y) eqn:E.
  - apply Nat.eqb_eq in E. subst y. split; [exact IH1|]. intros z. rewrite IH2. cbn [In]. tauto.
  - apply Nat.eqb_neq in E. split.
    + constructor; [exact IH1|]. apply Forall_forall. intros z I. apply IH2 in I. rewrite Forall_forall in F.
      pose proof (F y (or_introl eq_refl)). destruct I as [->|I]; [lia|].
      apply StronglySorted_inv in S. destruct S as [_ F']. rewrite Forall_forall in F'. specialize (F' z I). lia.
    + intros z. cbn [In]. rewrite IH2. cbn [In]. tauto.
Qed.

(** * The builder *)
Lemma shape_ind' : forall P : shape -> Prop, P Leaf -> (forall gs, P (Derived gs)) ->
  (forall os, (forall gs g, In gs os -> In g gs -> P (snd g)) -> P (Objects os)) -> forall s, P s.
Proof.
  intros P HL HD HO. fix IH 1. intros [|gs|os]; [exact HL|apply HD|]. apply HO.
  induction os as [|gs os IHos]; [intros gs' g []|].
  assert (G : forall g, In g gs -> P (snd g)).
  { clear IHos. induction gs as [|[k s] gs IHg]; intros g J; [destruct J|]. destruct J as [<-|J]; [exact (IH s)|exact (IHg g J)]. }
  intros gs' g [<-|I] J; [exact (G g J)|exact (IHos gs' g I J)].
Qed.

Definition occ (l : list fid) (f : nat) : nat := count_occ fid_eq_dec l (Data f).
Definition firsts (gs : list group) : list fid := map (fun g => fst (fst g)) gs.
Record rep (nf : nat) (st : state) (objs : list (list group)) : Prop :=
  { rep_objs : Forall2 (fun r gs => fst r <= snd r /\ snd r <= length (st_fields st) /\
      forall f, (exists i, fst r <= i < snd r /\ nth_error (st_fields st) i = Some f) <-> In f (firsts gs)) (st_concrete st) objs;
    rep_asc : asc 0 (st_concrete st) (length (st_fields st));
    rep_count : forall f, occ (st_fields st) f <= st_count st f;
    rep_bound : forall f, In (Data f) (st_fields st) -> f < nf }.

Lemma asc_app : forall l lo hi s e, asc lo l hi -> hi <= s -> s <= e -> asc lo (l ++ [(s, e)]) e.
Proof.
  intros l. induction l as [|[a b] l IH]; intros lo hi s e A H L; cbn [app asc] in *; [lia|].
  destruct A as (A1 & A2 & A3). split; [exact A1|split; [exact A2|]]. eapply IH; eassumption.
Qed.
Lemma asc_hi : forall l lo hi hi', asc lo l hi -> hi <= hi' -> asc lo l hi'.
Proof.
  intros l. induction l as [|[a b] l IH]; intros lo hi hi' A H; cbn [asc] in *; [lia|].
  destruct A as (A1 & A2 & A3). split; [exact A1|split; [exact A2|]]. eapply IH; eassumption.
Qed.
Lemma insert_group_perm : forall p l, Permutation (insert_group p l) (p :: l).
Proof.
  intros p l. induction l as [|x l IH]; [apply Permutation_refl|]. cbn [insert_group]. destruct (group_leb p x); [apply Permutation_refl|].
  eapply perm_trans; [apply perm_skip; exact IH|apply perm_swap].
Qed.
Lemma sort_groups_perm : forall l, Permutation (sort_groups l) l.
Proof.
  intros l. induction l as [|p l IH]; [apply Permutation_refl|]. cbn [sort_groups fold_right]. fold (sort_groups l).
  eapply perm_trans; [apply insert_group_perm|apply perm_skip; exact IH].
Qed.

(** Appending field shapes keeps what is known about the objects. *)
Lemma objs_append : forall fields own (l : list (nat * nat)) (objs : list (list group)),
  Forall2 (fun r gs => fst r <= snd r /\ snd r <= length fields /\
      forall f, (exists i, fst r <= i < snd r /\ nth_error fields i = Some f) <-> In f (firsts gs)) l objs ->
  Forall2 (fun r gs => fst r <= snd r /\ snd r <= length (fields ++ own) /\
      forall f, (exists i, fst r <= i < snd r /\ nth_error (fields ++ own) i = Some f) <-> In f (firsts gs)) l objs.
Proof.
  intros fields own l objs F. induction F as [|r gs l objs (A & B & C) F IH]; [constructor|]. constructor; [|exact IH].
  split; [exact A|]. rewrite app_length. split; [lia|]. intros f. rewrite <- C. split; intros (i & R & E); exists i; (split; [exact R|]).
  - rewrite nth_error_app1 in E by lia. exact E.
  - rewrite nth_error_app1 by lia. exact E.
Qed.
Lemma bump_ge : forall c f g, c g <= bump c f g.
Proof. intros c f g. unfold bump. destruct (g =? f); lia. Qed.
Lemma bumps_ge : forall l c g, c g <= fold_left bump l c g.
Proof. intros l. induction l as [|f l IH]; intros c g; [cbn; lia|]. cbn [fold_left]. specialize (IH (bump c f) g). pose proof (bump_ge c f g). lia. Qed.
Lemma occ_cons : forall x l f, occ (x :: l) f = (if fid_eq_dec x (Data f) then 1 else 0) + occ l f.
Proof. intros x l f. unfold occ. cbn [count_occ]. destruct (fid_eq_dec x (Data f)); reflexivity. Qed.
Lemma bump_groups : forall gs c f, c f + occ (firsts gs) f <= fold_left bump_group gs c f.
Proof.
  intros gs. induction gs as [|[[g rest] s] gs IH]; intros c f; [cbn; lia|]. cbn [fold_left firsts map]. fold (firsts gs). cbn [fst].
  rewrite occ_cons. specialize (IH (bump_group c (g, rest, s)) f). unfold bump_group in IH at 1. cbn [fst snd] in IH.
  pose proof (bumps_ge rest (bump_fid c g) f) as B.
  assert (C : c f + (if fid_eq_dec g (Data f) then 1 else 0) <= bump_fid c g f).
  { destruct g as [h|h]; cbn [bump_fid].
    - unfold bump. destruct (fid_eq_dec (Data h) (Data f)) as [E|N]; [injection E as ->; rewrite Nat.eqb_refl; lia|]. destruct (f =? h); lia.
    - destruct (fid_eq_dec (Lookup h) (Data f)) as [E|N]; [discriminate E|lia]. }
  lia.
Qed.
Lemma bump_derived : forall (gs : list (nat * list nat)) c f, c f + occ (map (fun g => Data (fst g)) gs) f <= fold_left (fun c g => bump c (fst g)) gs c f.
Proof.
  intros gs. induction gs as [|[g rest] gs IH]; intros c f; [cbn; lia|]. cbn [fold_left map fst]. rewrite occ_cons. specialize (IH (bump c g) f).
  assert (C : c f + (if fid_eq_dec (Data g) (Data f) then 1 else 0) <= bump c g f).
  { unfold bump. destruct (fid_eq_dec (Data g) (Data f)) as [E|N]; [injection E as ->; rewrite Nat.eqb_refl; lia|]. destruct (f =? g); lia. }
  lia.
Qed.
Lemma occ_app : forall a b f, occ (a ++ b) f = occ a f + occ b f.
Proof. intros a b f. unfold occ. apply count_occ_app. Qed.
Lemma occ_perm : forall a b f, Permutation a b -> occ a f = occ b f.
Proof. intros a b f P. unfold occ. apply (Permutation_count_occ fid_eq_dec). exact P. Qed.

Lemma own_perm : forall gs, Permutation (own_fields gs) (firsts gs).
Proof. intros gs. unfold own_fields. eapply perm_trans; [apply Permutation_map; apply sort_groups_perm|]. rewrite map_map. apply Permutation_refl. Qed.
Lemma derived_perm : forall gs : list (nat * list nat), Permutation (map snd (sort_groups (map (fun g => (false, Data (fst g))) gs))) (map (fun g => Data (fst g)) gs).
Proof. intros gs. eapply perm_trans; [apply Permutation_map; apply sort_groups_perm|]. rewrite map_map. apply Permutation_refl. Qed.

Lemma push_concrete_rep : forall nf st objs gs, rep nf st objs -> (forall f, In (Data f) (firsts gs) -> f < nf) ->
  rep nf (push_concrete st gs) (objs ++ [gs]).
Proof.
  intros nf st objs gs [R1 R2 R3 R4] B. unfold push_concrete. pose proof (own_perm gs) as P.
  set (own := own_fields gs) in *.
  cbv zeta. constructor; cbn [st_fields st_concrete st_count].
  - apply Forall2_app; [apply objs_append; exact R1|]. constructor; [|constructor]. cbn [fst snd]. rewrite app_length.
    split; [lia|split; [lia|]]. intros f. split.
    + intros (i & R & E). rewrite nth_error_app2 in E by lia. apply (Permutation_in _ P). eapply nth_error_In; exact E.
    + intros I. apply (Permutation_in _ (Permutation_sym P)) in I. apply In_nth_error in I. destruct I as (j & E).
      assert (j < length own) by (apply nth_error_Some; congruence).
      exists (length (st_fields st) + j). split; [lia|]. rewrite nth_error_app2 by lia. rewrite <- E. f_equal. lia.
  - rewrite app_length. eapply asc_app; [exact R2|lia|lia].
  - intros f. rewrite occ_app. rewrite (occ_perm own (firsts gs) f P). pose proof (bump_groups gs (st_count st) f). specialize (R3 f). lia.
  - intros f I. apply in_app_or in I. destruct I as [I|I]; [apply R4; exact I|apply B; apply (Permutation_in _ P); exact I].
Qed.
Lemma push_derived_rep : forall nf st objs gs, rep nf st objs -> (forall g, In g gs -> fst g < nf) ->
  rep nf (push_derived st gs) objs.
Proof.
  intros nf st objs gs [R1 R2 R3 R4] B. unfold push_derived. pose proof (derived_perm gs) as P.
  match type of P with Permutation ?o _ => set (own := o) in * end.
  constructor; cbn [st_fields st_concrete st_count].
  - apply objs_append; exact R1.
  - rewrite app_length. eapply asc_hi; [exact R2|lia].
  - intros f. rewrite occ_app. rewrite (occ_perm own _ f P). pose proof (bump_derived gs (st_count st) f). specialize (R3 f). lia.
  - intros f I. apply in_app_or in I. destruct I as [I|I]; [apply R4; exact I|]. apply (Permutation_in _ P) in I. apply in_map_iff in I.
    destruct I as (g & E & I). injection E as <-. apply B; exact I.
Qed.

Lemma build_rep : forall nf s st objs, all_fields (fun f => f < nf) s -> rep nf st objs -> rep nf (build st s) (objs ++ objects s).
Proof.
  intros nf s. induction s as [|gs|os IH] using shape_ind'; intros st objs A R.
  - cbn [build objects]. rewrite app_nil_r. exact R.
  - cbn [build objects]. rewrite app_nil_r. apply push_derived_rep; [exact R|]. inversion A as [|gs' H|]; subst. intros g I. exact (proj1 (H g I)).
  - inversion A as [| |? H]; subst. clear A. cbn [build objects]. revert st objs R. induction os as [|gs os IHos]; intros st objs R.
    + cbn [fold_left flat_map]. rewrite app_nil_r. exact R.
    + cbn [fold_left flat_map]. rewrite app_assoc. apply IHos; [intros gs' g I J; apply (IH gs' g (or_intror I) J)|intros gs' g I J; apply (H gs' g (or_intror I) J)|].
      assert (IHg : forall l, incl l gs -> forall st objs, rep nf st objs ->
        rep nf (fold_left (fun st g => build st (snd g)) l st) (objs ++ flat_map (fun g => objects (snd g)) l)).
      { intros l. induction l as [|g l IHl]; intros Hl st' objs' R'; [cbn [fold_left flat_map]; rewrite app_nil_r; exact R'|].
        cbn [fold_left flat_map]. rewrite app_assoc. apply IHl; [intros x I; apply Hl; right; exact I|].
        assert (J : In g gs) by (apply Hl; left; reflexivity).
        apply (IH gs g (or_introl eq_refl) J); [apply (H gs g (or_introl eq_refl) J)|exact R']. }
      rewrite app_assoc. apply push_concrete_rep; [apply IHg; [apply incl_refl|exact R]|].
      intros f I. unfold firsts in I. apply in_map_iff in I. destruct I as (g & E & J). destruct (H gs g (or_introl eq_refl) J) as (_ & B & _). apply B. exact E.
Qed.
Lemma build_all_rep : forall nf partitions, Forall (all_fields (fun f => f < nf)) partitions ->
  rep nf (build_all partitions) (flat_map objects partitions).
Proof.
  intros nf ps F. unfold build_all.
  assert (G : forall st objs, rep nf st objs -> rep nf (fold_left build ps st) (objs ++ flat_map objects ps)).
  { induction F as [|s ps A F IH]; intros st objs R; [cbn [fold_left flat_map]; rewrite app_nil_r; exact R|].
    cbn [fold_left flat_map]. rewrite app_assoc. apply IH. apply build_rep; assumption. }
  apply (G _ []). constructor; cbn [st_fields st_concrete st_count].
  - constructor.
  - cbn [asc]. lia.
  - intros f. reflexivity.
  - intros f [].
Qed.

(** * The counting sort *)
Definition start (count : nat -> nat) (f : nat) : nat := list_sum (map count (seq 0 f)).
Lemma start_S : forall c f, start c (S f) = start c f + c f.
Proof. intros c f. unfold start. rewrite seq_S, map_app, list_sum_app. cbn [map Nat.add]. unfold list_sum at 2. cbn [fold_right]. lia. Qed.
Lemma start_mono : forall c f g, f < g -> start c f + c f <= start c g.
Proof. intros c f g L. induction L as [|g L IH]; [rewrite start_S; lia|]. rewrite start_S. lia. Qed.
Lemma allocate_spec : forall nf c, allocate nf c = (map (start c) (seq 0 nf), start c nf).
Proof.
  intros nf c. unfold allocate. induction nf as [|nf IH]; [reflexivity|]. rewrite seq_S, fold_left_app, IH. cbn [fold_left fst snd Nat.add].
  rewrite map_app, start_S. reflexivity.
Qed.
Lemma update_length : forall l i v, length (update l i v) = length l.
Proof. intros l. induction l as [|x l IH]; intros [|i] v; cbn [update length]; auto. Qed.
Lemma update_same : forall l i v, i < length l -> nth_error (update l i v) i = Some v.
Proof. intros l. induction l as [|x l IH]; intros [|i] v L; cbn [update length nth_error] in *; [lia|lia|reflexivity|apply IH; lia]. Qed.
Lemma update_other : forall l i v j, i <> j -> nth_error (update l i v) j = nth_error l j.
Proof. intros l. induction l as [|x l IH]; intros [|i] v [|j] N; cbn [update nth_error]; try reflexivity; [congruence|apply IH; congruence]. Qed.

Definition is_data (f : nat) (p : nat * fid) : bool := match snd p with Data g => g =? f | Lookup _ => false end.
Definition idx (ps : list (nat * fid)) (f : nat) : list nat := map fst (filter (is_data f) ps).
Lemma idx_app : forall a b f, idx (a ++ b) f = idx a f ++ idx b f.
Proof.
  intros a b f. unfold idx. rewrite <- map_app. f_equal. induction a as [|x a IH]; [reflexivity|]. cbn [app filter]. destruct (is_data f x); rewrite IH; reflexivity.
Qed.
Lemma idx_length : forall ps f, length (idx ps f) = occ (map snd ps) f.
Proof.
  intros ps f. induction ps as [|[i x] ps IH]; [reflexivity|]. cbn [map snd]. rewrite occ_cons, <- IH. unfold idx. cbn [filter]. unfold is_data at 1. cbn [snd].
  destruct x as [g|g].
  - destruct (fid_eq_dec (Data g) (Data f)) as [E|N]; [injection E as ->; rewrite Nat.eqb_refl; reflexivity|].
    destruct (g =? f) eqn:E; [apply Nat.eqb_eq in E; congruence|reflexivity].
  - destruct (fid_eq_dec (Lookup g) (Data f)) as [E|N]; [discriminate E|reflexivity].
Qed.

Lemma fill_spec : forall nf c ps, (forall f, length (idx ps f) <= c f) -> (forall p f, In p ps -> snd p = Data f -> f < nf) ->
  exists ends refs, fold_left fill1 ps (Some (map (start c) (seq 0 nf), repeat 0 (start c nf))) = Some (ends, refs) /\
  length refs = start c nf /\ length ends = nf /\
  forall f, f < nf -> nth_error ends f = Some (start c f + length (idx ps f)) /\
    forall j, j < length (idx ps f) -> nth_error refs (start c f + j) = nth_error (idx ps f) j.
Proof.
  intros nf c ps. induction ps as [|p ps IH] using rev_ind; intros Hc Hb.
  - exists (map (start c) (seq 0 nf)), (repeat 0 (start c nf)). split; [reflexivity|]. split; [apply repeat_length|].
    split; [rewrite map_length, seq_length; reflexivity|]. intros f L. split; [|intros j Lj; unfold idx in Lj; cbn in Lj; lia].
    unfold idx. cbn [filter map length]. rewrite Nat.add_0_r. apply map_nth_error.
    rewrite (nth_error_nth' _ 0) by (rewrite seq_length; exact L). rewrite seq_nth by exact L. reflexivity.
  - destruct IH as (ends & refs & E & Lr & Le & H).
    { intros f. specialize (Hc f). rewrite idx_app, app_length in Hc. lia. }
    { intros q f I. apply Hb. apply in_or_app. auto. }
    rewrite fold_left_app, E. cbn [fold_left]. unfold fill1. destruct p as [i [g|g]]; cbn [fst snd].
    + assert (Lg : g < nf) by (apply (Hb (i, Data g) g); [apply in_or_app; right; left; reflexivity|reflexivity]).
      destruct (H g Lg) as [En Hj]. rewrite En. specialize (Hc g) as Hcg. rewrite idx_app, app_length in Hcg. unfold idx at 2 in Hcg. cbn [filter] in Hcg.
      unfold is_data in Hcg at 1. cbn [snd] in Hcg. rewrite Nat.eqb_refl in Hcg. cbn [map length] in Hcg.
      set (pos := start c g + length (idx ps g)) in *.
      assert (Lp : pos < start c nf) by (pose proof (start_mono c g nf Lg); unfold pos; lia).
      rewrite Lr. destruct (pos <? start c nf) eqn:Ep; [|apply Nat.ltb_ge in Ep; lia].
      exists (update ends g (S pos)), (update refs pos i). split; [reflexivity|]. split; [rewrite update_length; exact Lr|].
      split; [rewrite update_length; exact Le|]. intros f Lf. destruct (H f Lf) as [En' Hj'].
      assert (Ix : idx (ps ++ [(i, Data g)]) f = idx ps f ++ (if g =? f then [i] else [])).
      { rewrite idx_app. f_equal. unfold idx. cbn [filter]. unfold is_data. cbn [snd]. destruct (g =? f); reflexivity. }
      rewrite Ix. destruct (g =? f) eqn:Eg.
      * apply Nat.eqb_eq in Eg. subst f. rewrite app_length. cbn [length]. split.
        -- rewrite update_same by lia. f_equal. unfold pos. lia.
        -- intros j Lj. destruct (Nat.eq_dec j (length (idx ps g))) as [->|Nj].
           ++ fold pos. rewrite update_same by lia. rewrite nth_error_app2 by lia. rewrite Nat.sub_diag. reflexivity.
           ++ rewrite update_other by (unfold pos; lia). rewrite nth_error_app1 by lia. apply Hj'. lia.
      * apply Nat.eqb_neq in Eg. rewrite app_nil_r. split; [rewrite update_other by congruence; exact En'|].
        intros j Lj. rewrite update_other; [apply Hj'; exact Lj|].
        pose proof (Hc f) as Hcf. rewrite Ix in Hcf. destruct (g =? f) eqn:Eg'; [apply Nat.eqb_eq in Eg'; congruence|]. rewrite app_nil_r in Hcf.
        unfold pos. destruct (Nat.lt_total f g) as [L|[->|L]]; [|congruence|].
        -- pose proof (start_mono c f g L). lia.
        -- pose proof (start_mono c g f L). lia.
    + exists ends, refs. split; [reflexivity|]. split; [exact Lr|]. split; [exact Le|]. intros f Lf.
      assert (Ix : idx (ps ++ [(i, Lookup g)]) f = idx ps f) by (rewrite idx_app; unfold idx at 2; cbn; apply app_nil_r).
      rewrite Ix. apply H. exact Lf.
Qed.

Lemma nth_error_skipn : forall (A : Type) (l : list A) s j, nth_error (skipn s l) j = nth_error l (s + j).
Proof.
  intros A l. induction l as [|x l IH]; intros [|s] j; cbn [skipn Nat.add nth_error]; try reflexivity; [destruct j; reflexivity|apply IH].
Qed.
Lemma slice_eq : forall refs s l, (forall j, j < length l -> nth_error refs (s + j) = nth_error l j) -> slice refs s (s + length l) = l.
Proof.
  intros refs s l H. unfold slice. replace (s + length l - s) with (length l) by lia.
  assert (G : forall m (r : list nat), (forall j, j < length m -> nth_error r j = nth_error m j) -> firstn (length m) r = m).
  { intros m. induction m as [|x m IH]; intros r Hr; [reflexivity|]. cbn [length firstn].
    pose proof (Hr 0) as H0. cbn [length nth_error] in H0. destruct r as [|y r]; [discriminate H0; lia|].
    assert (E : Some y = Some x) by (apply H0; lia). injection E as ->. f_equal. apply IH. intros j Lj. apply (Hr (S j)). cbn [length]. lia. }
  apply G. intros j Lj. rewrite nth_error_skipn. apply H. exact Lj.
Qed.

Lemma combine_seq_snd : forall (A : Type) (l : list A) a, map snd (combine (seq a (length l)) l) = l.
Proof. intros A l. induction l as [|x l IH]; intros a; [reflexivity|]. cbn [length seq combine map snd]. rewrite IH. reflexivity. Qed.
Lemma combine_seq_in : forall (A : Type) (l : list A) a i x, In (i, x) (combine (seq a (length l)) l) <-> a <= i /\ nth_error l (i - a) = Some x.
Proof.
  intros A l. induction l as [|y l IH]; intros a i x; cbn [length seq combine].
  - split; [intros []|]. intros [_ E]. destruct (i - a); discriminate E.
  - cbn [In]. rewrite IH. split.
    + intros [E|[L E]]; [injection E as -> ->; split; [lia|]; rewrite Nat.sub_diag; reflexivity|].
      split; [lia|]. replace (i - a) with (S (i - S a)) by lia. exact E.
    + intros [L E]. destruct (Nat.eq_dec a i) as [->|N].
      * left. rewrite Nat.sub_diag in E. cbn [nth_error] in E. congruence.
      * right. split; [lia|]. replace (i - a) with (S (i - S a)) in E by lia. exact E.
Qed.
Lemma shape_ids_spec : forall nf st objs, rep nf st objs -> exists ids, shape_ids nf st = Some ids /\
  forall f i, In i (nth f ids []) <-> nth_error (st_fields st) i = Some (Data f).
Proof.
  intros nf st objs R. unfold shape_ids. rewrite allocate_spec. cbn [fst snd]. unfold fill.
  set (ps := combine (seq 0 (length (st_fields st))) (st_fields st)).
  destruct (fill_spec nf (st_count st) ps) as (ends & refs & E & Lr & Le & H).
  - intros f. rewrite idx_length. unfold ps. rewrite combine_seq_snd. apply (rep_count _ _ _ R).
  - intros [i x] f I Ex. cbn [snd] in Ex. subst x. apply combine_seq_in in I. destruct I as [_ I]. apply (rep_bound _ _ _ R). eapply nth_error_In; exact I.
  - rewrite E. eexists. split; [reflexivity|].
    assert (N : forall f, f < nf -> nth f (map (fun p => slice refs (fst p) (snd p)) (combine (map (start (st_count st)) (seq 0 nf)) ends)) [] = idx ps f).
    { intros f Lf. destruct (H f Lf) as [En Hj]. apply nth_error_nth.
      rewrite (map_nth_error _ _ _ (d := (start (st_count st) f, start (st_count st) f + length (idx ps f)))).
      - cbn [fst snd]. f_equal. apply slice_eq. exact Hj.
      - assert (G : forall (a b : list nat) k x y, nth_error a k = Some x -> nth_error b k = Some y -> nth_error (combine a b) k = Some (x, y)).
        { intros a. induction a as [|a0 a IH]; intros [|b0 b] [|k] x y A B; cbn [nth_error combine] in *; try discriminate; [congruence|apply IH; assumption]. }
        apply G; [|exact En]. apply map_nth_error. rewrite (nth_error_nth' _ 0) by (rewrite seq_length; exact Lf). rewrite seq_nth by exact Lf. reflexivity. }
    intros f i. destruct (Nat.lt_ge_cases f nf) as [Lf|Lf].
    + rewrite N by exact Lf. unfold idx. rewrite in_map_iff. split.
      * intros ([j x] & Ej & I). cbn [fst] in Ej. subst j. apply filter_In in I. destruct I as [I D]. apply combine_seq_in in I. destruct I as [_ I].
        rewrite Nat.sub_0_r in I. rewrite I. unfold is_data in D. cbn [snd] in D. destruct x as [g|g]; [|discriminate D]. apply Nat.eqb_eq in D. congruence.
      * intros I. exists (i, Data f). split; [reflexivity|]. apply filter_In. split; [apply combine_seq_in; split; [lia|rewrite Nat.sub_0_r; exact I]|].
        unfold is_data. cbn [snd]. apply Nat.eqb_refl.
    + rewrite nth_overflow by (rewrite map_length, combine_length, map_length, seq_length; lia). split; [intros []|].
      intros I. exfalso. apply nth_error_In in I. apply (rep_bound _ _ _ R) in I. lia.
Qed.

Lemma has_error_spec : forall nf partitions errors, Forall (all_fields (fun f => f < nf)) partitions ->
  exists marks, has_error nf partitions errors = Some marks /\
  Forall2 (fun gs m => m = true <-> exists f e, In (f, e) errors /\ In (Data f) (firsts gs)) (flat_map objects partitions) marks.
Proof.
  intros nf ps errors F. unfold has_error. pose proof (build_all_rep nf ps F) as R. set (st := build_all ps) in *.
  destruct (shape_ids_spec nf st _ R) as (ids & E & Hi). rewrite E.
  set (sorted := map fst (sort_pairs (error_pairs ids errors))).
  destruct (dedup_spec sorted (sort_pairs_sorted _)) as [S D].
  assert (M : forall i, In i (dedup sorted) <-> exists f e, In (f, e) errors /\ nth_error (st_fields st) i = Some (Data f)).
  { intros i. rewrite D. unfold sorted. rewrite in_map_iff. split.
    - intros ([j e] & Ej & I). cbn [fst] in Ej. subst j. apply (Permutation_in _ (sort_pairs_perm _)) in I. unfold error_pairs in I. apply in_flat_map in I.
      destruct I as ([f e'] & If & I). cbn [fst snd] in I. apply in_map_iff in I. destruct I as (k & Ek & I). injection Ek as -> ->. exists f, e.
      split; [exact If|]. apply Hi. exact I.
    - intros (f & e & I & N). exists (i, e). split; [reflexivity|]. apply (Permutation_in _ (Permutation_sym (sort_pairs_perm _))). unfold error_pairs.
      apply in_flat_map. exists (f, e). split; [exact I|]. cbn [fst snd]. apply in_map_iff. exists i. split; [reflexivity|]. apply Hi. exact N. }
  destruct (mark_spec (st_concrete st) (dedup sorted) _ (rep_asc _ _ _ R) S) as (marks & Em & Fm). exists marks. split; [exact Em|].
  pose proof (rep_objs _ _ _ R) as Fo. clear - Fm Fo M. revert marks Fm. induction Fo as [|r gs l objs (A & B & C) Fo IH]; intros marks Fm; inversion Fm as [|? m ? marks' Hm Ft]; subst; constructor.
  - rewrite Hm. split.
    + intros (id & I & Ri). apply M in I. destruct I as (f & e & I & N). exists f, e. split; [exact I|]. apply C. exists id. split; [exact Ri|exact N].
    + intros (f & e & I & N). apply C in N. destruct N as (id & Ri & N). exists id. split; [|exact Ri]. apply M. eauto.
  - apply IH. exact Ft.
Qed.
