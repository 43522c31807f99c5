(** The responses of the subgraphs queried at the root, ingested one after the
    other, and the proofs about the data they make (C19, C20). *)

From Coq Require Import List Arith ZArith String Bool Sorted Permutation Lia.
From Verif Require Import Response.Model Response.Deserialize Response.Spec Response.Conform.
From Verif Require Import Response.Merge Response.Nulls Response.DeserBase Response.DeserList Response.DeserVisit.
From Verif Require Import Response.DeserObj Response.DeserAll.
Import ListNotations.
Local Open Scope nat_scope.

(** ** Trees in a larger store *)

Lemma rep_mono : forall ps ps',
  (forall i o, get_obj ps i = Some o -> get_obj ps' i = Some o) ->
  (forall i o, get_list ps i = Some o -> get_list ps' i = Some o) ->
  (forall i o, get_inacc ps i = Some o -> get_inacc ps' i = Some o) ->
  forall t v, rep ps v t -> rep ps' v t.
Proof.
  intros ps ps' HO HL HI t. induction t as [x|i l IH|i d fs IH|i t IH] using tree_ind2; intros v R; inversion R; subst.
  - constructor. assumption.
  - econstructor; [apply HL; eassumption|].
    match goal with H : Forall2 (rep ps) _ _ |- _ => rename H into F end. clear - IH F.
    induction F; inversion IH; subst; constructor; auto.
  - econstructor; [apply HO; eassumption|assumption|].
    match goal with H : Forall2 (rep ps) _ _ |- _ => rename H into F end. clear - IH F.
    revert IH. induction F; intros IH; inversion IH; subst; constructor; auto.
  - econstructor; [apply HI; eassumption|auto].
Qed.

Lemma rep_app : forall ps l v t, rep ps v t -> rep (ps ++ l) v t.
Proof.
  intros ps l v t. apply rep_mono; intros [p n] o; unfold get_obj, get_list, get_inacc; cbn [fst snd];
    (destruct (nth_error ps p) as [pt|] eqn:E; [|discriminate]);
    rewrite nth_error_app1 by (apply nth_error_Some; congruence); rewrite E; auto.
Qed.

(** The lists of a tree. *)
Fixpoint lids (t : tree) : list id :=
  match t with
  | TLeaf _ => []
  | TList i l => i :: flat_map lids l
  | TObj _ _ fs => flat_map (fun f => lids (snd f)) fs
  | TInacc _ t => lids t
  end.

Lemma rep_objs : forall ps t v i, rep ps v t -> In i (objs t) -> exists o, get_obj ps i = Some o.
Proof.
  intros ps t. induction t as [x|j l IH|j d fs IH|j t IH] using tree_ind2; intros v i R I; inversion R; subst; cbn [objs] in I.
  - contradiction.
  - apply in_flat_map in I. destruct I as (t & It & I). rewrite Forall_forall in IH.
    match goal with H : Forall2 (rep ps) _ _ |- _ => rename H into F end.
    assert (E : exists v, rep ps v t) by (clear - F It; induction F; [contradiction|destruct It as [<-|It]; eauto]).
    destruct E as (v & E). eapply IH; eassumption.
  - destruct I as [<-|I]; [eauto|]. apply in_flat_map in I. destruct I as (f & If & I). rewrite Forall_forall in IH.
    match goal with H : Forall2 (rep ps) _ _ |- _ => rename H into F end.
    assert (It : In (snd f) (map snd fs)) by (apply in_map; exact If).
    assert (E : exists v, rep ps v (snd f)).
    { clear - F It. induction F; [contradiction|destruct It as [<-|It]; eauto]. }
    destruct E as (v & E). eapply IH; eassumption.
  - eapply IH; eassumption.
Qed.

Lemma rep_lids : forall ps t v i, rep ps v t -> In i (lids t) -> exists o, get_list ps i = Some o.
Proof.
  intros ps t. induction t as [x|j l IH|j d fs IH|j t IH] using tree_ind2; intros v i R I; inversion R; subst; cbn [lids] in I.
  - contradiction.
  - destruct I as [<-|I]; [eauto|]. apply in_flat_map in I. destruct I as (t & It & I). rewrite Forall_forall in IH.
    match goal with H : Forall2 (rep ps) _ _ |- _ => rename H into F end.
    assert (E : exists v, rep ps v t) by (clear - F It; induction F; [contradiction|destruct It as [<-|It]; eauto]).
    destruct E as (v & E). eapply IH; eassumption.
  - apply in_flat_map in I. destruct I as (f & If & I). rewrite Forall_forall in IH.
    match goal with H : Forall2 (rep ps) _ _ |- _ => rename H into F end.
    assert (It : In (snd f) (map snd fs)) by (apply in_map; exact If).
    assert (E : exists v, rep ps v (snd f)).
    { clear - F It. induction F; [contradiction|destruct It as [<-|It]; eauto]. }
    destruct E as (v & E). eapply IH; eassumption.
  - eapply IH; eassumption.
Qed.

Lemma okN_apart : forall N t, (forall i k nb, In (IField i k nb) N -> ~ In i (objs t)) -> okN N t.
Proof.
  intros N t. induction t as [x|j l IH|j d fs IH|j t IH] using tree_ind2; intros H; cbn [objs] in H.
  - constructor.
  - constructor. rewrite Forall_forall in *. intros t It. apply IH; [exact It|]. intros i k nb I J.
    apply (H i k nb I). apply in_flat_map. eauto.
  - constructor.
    + intros k nb I. exfalso. apply (H j k nb I). left. reflexivity.
    + rewrite Forall_forall in *. intros t It. apply IH; [exact It|]. intros i k nb I J.
      apply (H i k nb I). right. apply in_map_iff in It. destruct It as (f & <- & If). apply in_flat_map. eauto.
  - constructor. auto.
Qed.

Lemma hitf_none : forall N i k, (forall nb, ~ In (IField i k nb) N) -> hitf N i k = false.
Proof.
  intros N i k H. destruct (hitf N i k) eqn:E; [|reflexivity]. apply hitf_spec in E. destruct E as (nb & I).
  exfalso. exact (H nb I).
Qed.

Lemma hiti_none : forall N i k, (forall nb, ~ In (IIndex i k nb) N) -> hiti N i k = false.
Proof.
  intros N i k H. destruct (hiti N i k) eqn:E; [|reflexivity]. apply hiti_spec in E. destruct E as (nb & I).
  exfalso. exact (H nb I).
Qed.

Lemma shown_apart : forall N t, (forall i k nb, In (IField i k nb) N -> ~ In i (objs t)) ->
  (forall i k nb, In (IIndex i k nb) N -> ~ In i (lids t)) -> shown N t = show t.
Proof.
  intros N t. induction t as [x|j l IH|j d fs IH|j t IH] using tree_ind2; intros HO HL; cbn [objs lids] in *.
  - reflexivity.
  - rewrite shown_list_eq. cbn [show]. f_equal. assert (HJ : forall n nb, ~ In (IIndex j n nb) N).
    { intros n nb I. apply (HL j n nb I). left. reflexivity. }
    assert (G : forall l', incl l' l -> forall n, shown_list N j l' n = map show l'); [|apply G; apply incl_refl].
    rewrite Forall_forall in IH. induction l' as [|x l' IHl]; intros Il n; [reflexivity|]. cbn [shown_list map].
    rewrite (hiti_none N j n) by (apply HJ). rewrite IHl by (intros y Iy; apply Il; right; exact Iy).
    f_equal. assert (Ix : In x l) by (apply Il; left; reflexivity).
    apply IH; [exact Ix| |].
    + intros i k nb I J. apply (HO i k nb I). apply in_flat_map. eauto.
    + intros i k nb I J. apply (HL i k nb I). right. apply in_flat_map. eauto.
  - cbn [shown show]. f_equal. assert (HJ : forall n nb, ~ In (IField j n nb) N).
    { intros n nb I. apply (HO j n nb I). left. reflexivity. }
    assert (G : forall fs', incl fs' fs ->
      flat_map (fun f => if fst (fst f) =? 0 then [] else [(snd (fst f), if hitf N j (fst f) then ONull else shown N (snd f))]) fs'
      = flat_map (fun f => if fst (fst f) =? 0 then [] else [(snd (fst f), show (snd f))]) fs'); [|apply G; apply incl_refl].
    rewrite Forall_forall in IH. induction fs' as [|x fs' IHl]; intros Il; [reflexivity|]. cbn [flat_map].
    rewrite IHl by (intros y Iy; apply Il; right; exact Iy). f_equal.
    rewrite (hitf_none N j (fst x)) by (apply HJ). assert (Ix : In x fs) by (apply Il; left; reflexivity).
    rewrite (IH (snd x)); [reflexivity|apply in_map; exact Ix| |].
    + intros i k nb I J. apply (HO i k nb I). right. apply in_flat_map. eauto.
    + intros i k nb I J. apply (HL i k nb I). apply in_flat_map. eauto.
  - reflexivity.
Qed.

(** ** Merging fields with keys of their own *)

Lemma merge_loop_disjoint : forall mv new ps ex pushed,
  (forall k, In k (map fst ex) -> ~ In k (map fst new)) ->
  merge_loop mv ps ex new pushed = Ok (ps, pushed ++ new).
Proof.
  intros mv new. induction new as [|f rest IH]; intros ps ex pushed D; cbn [merge_loop]; [rewrite app_nil_r; reflexivity|].
  induction ex as [|e ex IHe]; [reflexivity|].
  destruct (kcmp (fst e) (fst f)) eqn:C.
  - exfalso. apply kcmp_eq in C. apply (D (fst e)); [left; reflexivity|]. rewrite C. left. reflexivity.
  - apply IHe. intros k I. apply D. right. exact I.
  - rewrite IH; [rewrite <- app_assoc; reflexivity|]. intros k I J. apply (D k I). right. exact J.
Qed.

Lemma nth_set_fields : forall ps i fs q, q <> fst i -> nth_error (set_fields ps i fs) q = nth_error ps q.
Proof.
  intros ps i fs q N. unfold set_fields. destruct (nth_error ps (fst i)) as [p|]; [|reflexivity].
  destruct (nth_error (p_objs p) (snd i)) as [o|]; [|reflexivity]. rewrite nth_set_nth.
  destruct (q =? fst i) eqn:E; [apply Nat.eqb_eq in E; contradiction|reflexivity].
Qed.

Lemma length_set_fields : forall ps i fs, List.length (set_fields ps i fs) = List.length ps.
Proof.
  intros ps i fs. unfold set_fields. destruct (nth_error ps (fst i)) as [p|]; [|reflexivity].
  destruct (nth_error (p_objs p) (snd i)) as [o|]; [|reflexivity]. apply length_set_nth.
Qed.

Lemma merge_disjoint : forall mv ps i o new, get_obj ps i = Some o ->
  ordered (o_fields o) -> NoDup (map fst new) ->
  (forall k, In k (map fst (o_fields o)) -> ~ In k (map fst new)) ->
  exists ps1 fs1, merge_obj mv ps i new = Ok ps1 /\ get_obj ps1 i = Some (MkObj (o_def o) fs1) /\
    Permutation (o_fields o ++ new) fs1 /\ ordered fs1 /\ frame [i] ps ps1 /\
    (forall q, q <> fst i -> nth_error ps1 q = nth_error ps q) /\ List.length ps1 = List.length ps.
Proof.
  intros mv ps i o new G O ND D. unfold merge_obj. destruct new as [|f rest].
  - exists ps, (o_fields o). split; [reflexivity|]. split; [rewrite G; destruct o; reflexivity|].
    split; [rewrite app_nil_r; reflexivity|]. split; [exact O|]. split; [apply frame_refl|]. split; auto.
  - set (new := f :: rest) in *. rewrite G. rewrite merge_loop_disjoint by exact D. cbn [bind fst snd app].
    pose proof (get_set_fields ps i [] o G) as G1.
    assert (Gi : get_obj (set_fields ps i []) i = Some (MkObj (o_def o) [])).
    { rewrite G1, (proj2 (ideqb_eq i i) eq_refl). reflexivity. }
    pose proof (get_set_fields (set_fields ps i []) i (sort_fields (o_fields o ++ new)) _ Gi) as G2.
    eexists _, _. split; [reflexivity|]. split; [rewrite G2, (proj2 (ideqb_eq i i) eq_refl); reflexivity|].
    split; [apply sort_perm|]. split.
    + apply sort_ordered. rewrite map_app. apply nodup_app; [apply ordered_nodup; exact O|exact ND|exact D].
    + split; [|split].
      * eapply frame_trans; [eapply frame_set; exact G|eapply frame_set; exact Gi].
      * intros q N. rewrite !nth_set_fields by exact N. reflexivity.
      * rewrite !length_set_fields. reflexivity.
Qed.

Lemma freps_perm : forall ps fs fs', Permutation fs fs' -> forall ts, freps ps fs ts ->
  exists ts', freps ps fs' ts' /\ Permutation ts ts'.
Proof.
  intros ps fs fs' P. induction P as [|x l l' P IH|x y l|l1 l2 l3 P1 IH1 P2 IH2]; intros ts R.
  - exists ts. split; [exact R|reflexivity].
  - destruct ts as [|[k t] ts]; [destruct R as [X _]; discriminate|].
    apply freps_cons in R. destruct R as [Rx R]. destruct (IH ts R) as (ts' & R' & P').
    exists ((k, t) :: ts'). split; [apply freps_cons; auto|]. apply perm_skip. exact P'.
  - destruct ts as [|[k t] [|[k2 t2] ts]]; [destruct R as [X _]; discriminate|destruct R as [X _]; discriminate|].
    apply freps_cons in R. destruct R as [Rx R]. apply freps_cons in R. destruct R as [Ry R].
    exists ((k2, t2) :: (k, t) :: ts). split; [|apply perm_swap]. apply freps_cons. split; [exact Ry|].
    apply freps_cons. auto.
  - destruct (IH1 ts R) as (ts' & R' & P'). destruct (IH2 ts' R') as (ts'' & R'' & P'').
    exists ts''. split; [exact R''|]. eapply perm_trans; eassumption.
Qed.

(** What is shown of fields. *)
Definition show_fields (ts : list (rkey * tree)) : list (nat * out) :=
  flat_map (fun f => if fst (fst f) =? 0 then [] else [(snd (fst f), show (snd f))]) ts.

Section Schema.
  Variable obj_name : nat -> string.
  Variable obj_by_name : string -> option nat.
  Variable obj_inaccessible : nat -> bool.
  Variable possible : nat -> list nat.
  Variable round_f64 : Z -> Z.

  Notation conf_obj := (conf_obj obj_name obj_inaccessible possible).
  Notation shows_obj := (shows_obj obj_name obj_by_name possible round_f64).
  Notation calm := (calm obj_inaccessible).
  Notation deser := (deser obj_name obj_by_name obj_inaccessible possible round_f64).
  Notation deser_root := (deser_root obj_name obj_by_name obj_inaccessible possible round_f64).
  Notation object_map := (object_map obj_name possible).

  (** ** The model: the plans of the root fields *)

  (** A plan: the shape of its fields and the data of the subgraph response.
      The part [n] is created for the root object, of type [d], with an empty
      parent path (ResponseBuilder::root_response_object, write/mod.rs 48-58). *)
  Definition root_part (d n : nat) (p : concrete * json) : builder :=
    deser_root n [] (fst p) (0, 0) d (snd p) new_builder.

  Fixpoint root_parts (d n : nat) (plans : list (concrete * json)) : list builder :=
    match plans with
    | [] => []
    | p :: r => root_part d n p :: root_parts d (S n) r
    end.

  Fixpoint ingest_all (fuel : nat) (r : response) (bs : list builder) : res response :=
    match bs with
    | [] => Ok r
    | b :: rest => bind (ingest fuel r b) (fun r' => ingest_all fuel r' rest)
    end.

  (** ** One plan *)

  Definition ckeys (c : concrete) : list rkey := map f_key (c_fields c) ++ map t_key (c_typenames c).

  Lemma object_map_known : forall pid pp ds oid c d entries ok skip lp b b1 r,
    object_map pid pp ds oid c (Some d) entries ok skip lp b = (b1, Some r) -> exists acc, r = OFSome (Some d) acc.
  Proof.
    intros pid pp ds oid c d entries ok skip lp b b1 r E. unfold Deserialize.object_map in E. cbn [effective] in E.
    destruct (visit obj_name possible ds oid (c_fields c) None entries ok 0 skip None [] lp b) as [b2 [[tn acc]|]]; [|discriminate].
    cbn [object_end] in E. destruct (finalize pid pp c acc lp b2) as [b3 acc1].
    destruct (c_typenames c); inversion E; eauto.
  Qed.

  Record rooted (ps : list part) (ts : list (rkey * tree)) : Prop := MkRooted {
    q_rep : exists d0, rep ps (VObj (0, 0)) (TObj (0, 0) d0 ts);
    q_ord : ordered ts;
    q_tidy : Forall tidy (map snd ts);
    q_apart : ~ In (0, 0) (fobjs ts)
  }.

  Lemma get_lt : forall ps i o, get_obj ps i = Some o -> fst i < List.length ps.
  Proof.
    intros ps i o G. unfold get_obj in G. apply nth_error_Some. destruct (nth_error ps (fst i)); [discriminate|discriminate].
  Qed.

  Lemma get_list_lt : forall ps i o, get_list ps i = Some o -> fst i < List.length ps.
  Proof.
    intros ps i o G. unfold get_list in G. apply nth_error_Some. destruct (nth_error ps (fst i)); [discriminate|discriminate].
  Qed.

  Lemma root_step : forall fuel d r c entries ok ts,
    rooted (r_parts r) ts ->
    wf_concrete c -> distinct_keys (JMap entries ok) ->
    (forall k, In k (map fst ts) -> ~ In k (ckeys c)) ->
    let b := root_part d (List.length (r_parts r)) (c, JMap entries ok) in
    b_bub b = false ->
    (b_errs b = [] -> (forall g, In g (c_fields c) -> calm (f_shape g)) -> b_up b = false) /\
    exists r' ts',
      ingest fuel r b = Ok r' /\ r_errs r' = r_errs r ++ b_errs b /\
      List.length (r_parts r') = S (List.length (r_parts r)) /\
      r_root r' = (if b_up b then None else r_root r) /\
      rooted (r_parts r') ts' /\
      (forall k, In k (map fst ts') -> In k (map fst ts) \/ In k (ckeys c)) /\
      (b_up b = false -> exists ks,
         Permutation (show_fields ts ++ ks) (show_fields ts') /\ conf_obj d c ks /\
         (b_errs b = [] -> (forall g, In g (c_fields c) -> calm (f_shape g)) -> shows_obj d c entries ks)).
  Proof.
    intros fuel d r c entries ok ts Q Wf Dk Dj b Bub.
    set (n := List.length (r_parts r)) in *. destruct Q as [(d0 & Rq) Oq Tq Aq].
    apply rep_obj_inv in Rq. destruct Rq as (_ & fs & Gq & Fq).
    assert (Hn : 0 < n) by (apply get_lt in Gq; exact Gq).
    inversion Dk as [| | | | | |l k NDk Dv|]; subst l k.
    assert (Rd : ready n [] [] new_builder) by (split; constructor).
    assert (Ob : forall k nb, below n (b_part new_builder) (IField (0, 0) k nb)) by (intros k nb; cbn; lia).
    unfold b, root_part, Deserialize.deser_root in Bub. cbn [fst snd] in Bub.
    destruct (object_map n [] (deser n []) (0, 0) c (Some d) entries ok false [] new_builder) as [b1 [r0|]] eqn:Om.
    2: { exfalso. destruct (b_bub b1) eqn:Bb.
         - unfold insert_propagated_empty_update in Bub. destruct (root_on_error obj_name c); cbn in Bub; congruence.
         - unfold insert_error_update, propagate_parent in Bub. destruct (root_on_error obj_name c); cbn in Bub; discriminate. }
    destruct (object_map_known _ _ _ _ _ _ _ _ _ _ _ _ _ Om) as (acc & ->).
    assert (Eb : b = push_update (UFields (0, 0) acc) b1).
    { unfold b, root_part, Deserialize.deser_root. cbn [fst snd]. rewrite Om. reflexivity. }
    assert (Rf : Forall (reads_fine obj_name obj_by_name obj_inaccessible possible round_f64 n [] (deser n [])) (map snd entries)).
    { apply Forall_forall. intros j _. apply deser_fine. }
    destruct (object_map_spec obj_name obj_by_name obj_inaccessible possible round_f64 n [] (0, 0) c [] entries new_builder Wf Rd
                (deser n []) (Some d) ok false b1 _ NDk Dv Rf Ob Om) as (_ & V1 & Q1 & M & Ea & Om').
    pose proof Om' as (Nm & Sm & Gm & Tm & Cm).
    assert (Ic : incl (map i_f M) (c_fields c)) by (eapply slots_in; exact Sm).
    assert (Up : b_up b = b_up b1) by (rewrite Eb; reflexivity).
    assert (Er : b_errs b = b_errs b1) by (rewrite Eb; reflexivity).
    assert (Nu : b_nulls b = b_nulls b1) by (rewrite Eb; reflexivity).
    assert (Pt : b_part b = b_part b1) by (rewrite Eb; reflexivity).
    assert (Ud : b_updates b = [UFields (0, 0) acc]).
    { rewrite Eb. cbn. rewrite (g_upd _ _ _ _ Gm). reflexivity. }
    assert (Calm0 : b_errs b = [] -> (forall g, In g (c_fields c) -> calm (f_shape g)) -> b_nulls b1 = [] /\ b_up b1 = false).
    { intros X Cc. rewrite Er in X. exact (Q1 Cc X). }
    split; [intros X Cc; rewrite Up; apply (Calm0 X Cc)|].
    set (ps := r_parts r) in *. set (ps0 := ps ++ [b_part b1]).
    assert (F0 : freps ps0 fs ts).
    { destruct Fq as [K F]. split; [exact K|]. clear - F. induction F; constructor; auto. apply rep_app. assumption. }
    assert (G0 : get_obj ps0 (0, 0) = Some (MkObj d0 fs)).
    { unfold ps0, get_obj in *. cbn [fst snd] in *. rewrite nth_error_app1 by exact Hn. exact Gq. }
    destruct (b_up b1) eqn:Ub.
    - exists (MkR None ps0 (r_errs r ++ b_errs b)), ts. unfold ingest. rewrite Up, Pt.
      split; [reflexivity|]. split; [reflexivity|].
      split; [cbn; unfold ps0; rewrite app_length; cbn; lia|]. split; [reflexivity|]. split.
      + constructor; auto. exists d0. destruct F0. econstructor; eassumption.
      + split; [auto|discriminate].
    - (* the fields *)
      assert (NDa : NoDup (map fst (sort_fields acc))).
      { apply ordered_nodup. apply sort_ordered. rewrite Ea, map_map.
        change (fun x => fst (e_field x)) with e_key. apply ents_keys; assumption. }
      assert (Ka : forall k, In k (map fst (sort_fields acc)) -> In k (ckeys c)).
      { intros k I. apply (Permutation_in _ (Permutation_map fst (Permutation_sym (sort_perm acc)))) in I.
        rewrite Ea, map_map in I. change (fun x => fst (e_field x)) with e_key in I. unfold ents in I.
        rewrite map_app, !map_map in I. apply in_app_iff in I. unfold ckeys. apply in_or_app.
        destruct I as [I|I]; apply in_map_iff in I; destruct I as (x & <- & I); [left|right].
        - cbn. apply in_map. apply Ic. apply in_map. exact I.
        - cbn. apply in_map. exact I. }
      assert (Ofs : ordered fs) by (unfold ordered in *; destruct Fq as [K _]; rewrite K; exact Oq).
      destruct (merge_disjoint (merge_value fuel) ps0 (0, 0) (MkObj d0 fs) (sort_fields acc) G0 Ofs NDa)
        as (ps1 & fs1 & E1 & G1 & P1 & O1 & Fr1 & Nth1 & L1).
      { cbn [o_fields]. intros k I J. destruct Fq as [K _]. rewrite K in I. exact (Dj k I (Ka k J)). }
      cbn [o_fields o_def] in *.
      assert (PE : exists E', sort_fields acc = map e_field E' /\ Permutation (ents obj_name c M (Some d)) E').
      { apply Permutation_map_inv. rewrite Ea. apply Permutation_sym. apply sort_perm. }
      destruct PE as (Es & Esort & PE).
      assert (InE : forall e, In e Es -> (exists it, In it M /\ e = of_item it) \/ exists t, e = of_typename obj_name (Some d) t).
      { intros e I. apply (Permutation_in _ (Permutation_sym PE)) in I. unfold DeserObj.ents in I.
        apply in_app_iff in I. destruct I as [I|I]; apply in_map_iff in I; destruct I as (x & <- & I); eauto. }
      assert (Wn : forall ps', nth_error ps' n = Some (b_part b1) -> within n (b_part new_builder) (b_part b1) ps').
      { intros ps' X. exists (b_part b1). split; [exact X|]. split; [|split]; intros m _; reflexivity. }
      assert (W1 : within n (b_part new_builder) (b_part b1) ps1).
      { apply Wn. rewrite Nth1 by (cbn; lia). unfold ps0. rewrite nth_error_app2 by (unfold n, ps; lia).
        replace (n - List.length ps) with 0 by (unfold n, ps; lia). reflexivity. }
      assert (ER : forall e ps', In e Es -> within n (b_part new_builder) (b_part b1) ps' -> rep ps' (e_v e) (e_t e)).
      { intros e ps' I W. destruct (InE e I) as [(it & Ii & ->)|(t & ->)]; cbn [of_item of_typename e_v e_t].
        - rewrite Forall_forall in Sm. eapply k_rep; [apply Sm; exact Ii|exact W].
        - constructor. reflexivity. }
      assert (Enew : freps ps1 (sort_fields acc) (map e_tree Es)).
      { rewrite Esort. split; [rewrite !map_map; reflexivity|]. rewrite !map_map. cbn [e_field e_tree snd].
        assert (ER1 : forall e, In e Es -> rep ps1 (e_v e) (e_t e)) by (intros e I; apply ER; assumption).
        clear - ER1. induction Es as [|e Es IH]; cbn [map]; constructor; [apply ER1; left; reflexivity|].
        apply IH. intros x I. apply ER1. right. exact I. }
      assert (Eold : freps ps1 fs ts).
      { apply (freps_frame [(0, 0)] ps0 ps1 Fr1); [|exact F0]. intros i [<-|[]]. exact Aq. }
      destruct (freps_perm ps1 _ _ P1 _ (freps_app _ _ _ _ _ Eold Enew)) as (ts1 & R1 & PT).
      assert (Apart_new : ~ In (0, 0) (fobjs (map e_tree Es))).
      { intros I. unfold fobjs in I. rewrite map_map in I. cbn [e_tree snd] in I. apply in_flat_map in I.
        destruct I as (t & It & I). apply in_map_iff in It. destruct It as (e & <- & Ie).
        set (psx := repeat empty_part n ++ [b_part b1]).
        assert (Wx : within n (b_part new_builder) (b_part b1) psx).
        { apply Wn. unfold psx. rewrite nth_error_app2 by (rewrite repeat_length; lia).
          rewrite repeat_length, Nat.sub_diag. reflexivity. }
        destruct (rep_objs psx _ _ _ (ER e psx Ie Wx) I) as (o & Go). unfold get_obj, psx in Go. cbn [fst snd] in Go.
        rewrite nth_error_app1 in Go by (rewrite repeat_length; lia). destruct n as [|m]; [lia|]. cbn in Go. discriminate. }
      assert (Apart1 : ~ In (0, 0) (fobjs ts1)).
      { intros I. unfold fobjs in I. apply (Permutation_in _ (Permutation_flat_map objs (Permutation_map snd (Permutation_sym PT)))) in I.
        fold (fobjs (ts ++ map e_tree Es)) in I. rewrite fobjs_app in I. apply in_app_iff in I. tauto. }
      assert (Ot1 : ordered ts1) by (unfold ordered in *; destruct R1 as [K _]; rewrite <- K; exact O1).
      assert (Tn : Forall tidy (map snd (map e_tree Es))).
      { rewrite map_map. cbn [e_tree snd]. apply Forall_forall. intros t I. apply in_map_iff in I. destruct I as (e & <- & I).
        destruct (InE e I) as [(it & Ii & ->)|(t & ->)]; cbn [of_item of_typename e_v e_t]; [|constructor].
        rewrite Forall_forall in Sm. eapply k_tidy. apply Sm. exact Ii. }
      assert (Tt1 : Forall tidy (map snd ts1)).
      { eapply Permutation_Forall; [apply Permutation_map; exact PT|]. rewrite map_app. apply Forall_app. split; assumption. }
      (* the nulls *)
      set (N := b_nulls b1).
      assert (HN : forall u, In u N -> (exists it, In it M /\ u = onfield (0, 0) (i_f it) /\ vid_nullable u = true) \/
                                       fresh n (b_part new_builder) (b_part b1) u).
      { intros u I. destruct (g_nulls _ _ _ _ Gm) as (new & X & Fn). unfold N in I. rewrite X in I. cbn [new_builder b_nulls app] in I.
        rewrite Forall_forall in Fn. destruct (Fn u I) as [Nn [[[]|(it & Ii & Eu)]|Fu]]; [left|right; exact Fu].
        exists it. auto. }
      assert (VN : Forall (valid ps1) N).
      { apply Forall_forall. intros u I. destruct (HN u I) as [(it & _ & -> & _)|Fu].
        - cbn. eauto.
        - apply (V1 ps1 W1 u I Fu). }
      destruct (rep_null_all N ps1 VN) as (ps2 & E2 & _ & R2).
      assert (OldO : forall i k nb, In (IField i k nb) N -> forall f, In f ts -> ~ In i (objs (snd f))).
      { intros i k nb I f If Io. destruct (HN _ I) as [(it & _ & Eu & _)|Fu].
        - inversion Eu; subst i. apply Aq. unfold fobjs. apply in_flat_map. exists (snd f). split; [apply in_map; exact If|exact Io].
        - cbn in Fu. assert (Rv : exists v, rep ps v (snd f)).
          { destruct Fq as [_ F]. assert (It : In (snd f) (map snd ts)) by (apply in_map; exact If).
            clear - F It. induction F; [contradiction|destruct It as [<-|It]; eauto]. }
          destruct Rv as (v & Rv). destruct (rep_objs _ _ _ _ Rv Io) as (o & Go). apply get_lt in Go. unfold n, ps in *. lia. }
      assert (OldL : forall i k nb, In (IIndex i k nb) N -> forall f, In f ts -> ~ In i (lids (snd f))).
      { intros i k nb I f If Io. destruct (HN _ I) as [(it & _ & Eu & _)|Fu].
        - discriminate.
        - cbn in Fu. assert (Rv : exists v, rep ps v (snd f)).
          { destruct Fq as [_ F]. assert (It : In (snd f) (map snd ts)) by (apply in_map; exact If).
            clear - F It. induction F; [contradiction|destruct It as [<-|It]; eauto]. }
          destruct Rv as (v & Rv). destruct (rep_lids _ _ _ _ Rv Io) as (o & Go). apply get_list_lt in Go. unfold n, ps in *. lia. }
      assert (Ag : agreeN n new_builder b1 N) by (intros u _; reflexivity).
      assert (RootN : forall k nb, In (IField (0, 0) k nb) N ->
                exists g, In g (map i_f M) /\ k = f_key g /\ wnullable (f_wrap g) = true).
      { intros k nb I. destruct (HN _ I) as [(it & Ii & Eu & Nn)|Fu].
        - unfold onfield in Eu. inversion Eu; subst k nb. exists (i_f it). split; [apply in_map; exact Ii|]. split; [reflexivity|exact Nn].
        - cbn in Fu. lia. }
      assert (KeyNew : forall g, In g (map i_f M) -> In (f_key g) (map fst (map e_tree Es))).
      { intros g I. rewrite map_map. change (fun x => fst (e_tree x)) with e_key.
        apply (Permutation_in _ (Permutation_map e_key PE)). unfold DeserObj.ents. rewrite map_app, map_map.
        apply in_or_app. left. apply in_map_iff in I. destruct I as (it & <- & Ii). apply in_map_iff. exists it. auto. }
      assert (OkR : okN N (TObj (0, 0) d0 ts1)).
      { constructor.
        - intros k nb I. destruct (RootN k nb I) as (g & Ig & -> & _).
          apply (Permutation_in _ (Permutation_map fst PT)). rewrite map_app. apply in_or_app. right. apply KeyNew. exact Ig.
        - eapply Permutation_Forall; [apply Permutation_map; exact PT|]. rewrite map_app. apply Forall_app. split.
          + apply Forall_forall. intros t I. apply in_map_iff in I. destruct I as (f & <- & If).
            apply okN_apart. intros i k nb I. apply (OldO i k nb I f If).
          + rewrite map_map. cbn [e_tree snd]. apply Forall_forall. intros t I. apply in_map_iff in I. destruct I as (e & <- & I).
            destruct (InE e I) as [(it & Ii & ->)|(t & ->)]; cbn [of_item of_typename e_v e_t]; [|constructor].
            rewrite Forall_forall in Sm. eapply k_ok; [apply Sm; exact Ii|exact Ag]. }
      destruct (R2 (TObj (0, 0) d0 ts1) (VObj (0, 0))) as (t' & R' & T' & S' & O' & K').
      { destruct R1. econstructor; eassumption. }
      { constructor; assumption. }
      { exact OkR. }
      inversion R' as [? Lf| |i d1 fs2 ts' Gi Ki Fi|]; subst; [discriminate|].
      exists (MkR (r_root r) ps2 (r_errs r ++ b_errs b)), ts'. unfold ingest. rewrite Up, Pt, Ud, Nu.
      cbn [apply_updates apply_update]. unfold merge_object. fold ps ps0. rewrite E1. cbn [bind]. fold N. rewrite E2. cbn [bind].
      split; [reflexivity|]. split; [reflexivity|]. split.
      { cbn. assert (LN : forall N ps ps', null_all ps N = Ok ps' -> List.length ps' = List.length ps).
        { clear. induction N as [|v N IH]; intros ps ps' E; cbn [null_all] in E; [congruence|].
          destruct (null_at ps v) as [p1| |] eqn:X; try discriminate. cbn [bind] in E. rewrite (IH _ _ E).
          unfold null_at in X. destruct (nth_error ps (vid_part v)) as [p|]; [|discriminate].
          destruct (make_inaccessible (vid_part v) p v); inversion X. apply length_set_nth. }
        rewrite (LN _ _ _ E2), L1. unfold ps0. rewrite app_length. cbn. unfold n. lia. }
      split; [reflexivity|]. split.
      { inversion T' as [| |? ? ? Ot' Tt'|]; subst. constructor; auto.
        - exists d1. exact R'.
        - rewrite !objs_obj in O'. inversion O' as [O'']. unfold fobjs. rewrite O''. exact Apart1. }
      split.
      { intros k I. cbn [keys_of] in K'. rewrite K' in I. apply (Permutation_in _ (Permutation_map fst (Permutation_sym PT))) in I.
        rewrite map_app in I. apply in_app_iff in I. destruct I as [I|I]; [left; exact I|right]. apply Ka.
        rewrite Esort, map_map. rewrite map_map in I. exact I. }
      intros _. exists (shown_fields (0, 0) N (map e_tree Es)).
      split; [|split].
      + cbn [show shown] in S'. inversion S' as [S'']. unfold show_fields. rewrite S''.
        rewrite <- (Permutation_flat_map _ PT). rewrite flat_map_app. apply Permutation_app; [|reflexivity].
        assert (X : forall l, incl l ts ->
          flat_map (fun f => if fst (fst f) =? 0 then [] else [(snd (fst f), show (snd f))]) l =
          flat_map (fun f => if fst (fst f) =? 0 then []
                             else [(snd (fst f), if hitf N (0, 0) (fst f) then ONull else shown N (snd f))]) l).
        { induction l as [|f l IH]; intros Il; [reflexivity|]. cbn [flat_map].
          rewrite IH by (intros y Iy; apply Il; right; exact Iy). f_equal. assert (If : In f ts) by (apply Il; left; reflexivity).
          rewrite (shown_apart N (snd f)); [|intros i k nb I; apply (OldO i k nb I f If)|intros i k nb I; apply (OldL i k nb I f If)].
          rewrite (hitf_none N (0, 0) (fst f)); [reflexivity|].
          intros nb I. destruct (RootN _ _ I) as (g & Ig & Ek & _). apply (Dj (fst f)); [apply in_map; exact If|].
          rewrite Ek. unfold ckeys. apply in_or_app. left. apply in_map. apply Ic. exact Ig. }
        rewrite X by apply incl_refl. reflexivity.
      + eapply (conf_entries obj_name obj_by_name obj_inaccessible possible round_f64 n [] (0, 0) c [] entries new_builder Wf (Some d) b1 (Some d) d M);
          [exact Om'|auto|exact PE| |exact Ag|exact RootN|].
        * unfold DeserBase.covered. cbn. congruence.
        * intros g Ig Wg Cv. apply covered_here in Cv; [|exact Wg]. apply hitf_spec. eexists. exact Cv.
      + intros X Cc. destruct (Calm0 X Cc) as [N0 _]. unfold N. rewrite N0.
        assert (Y : shown_fields (0, 0) [] (map e_tree Es) = show_fields (map e_tree Es)).
        { unfold shown_fields, show_fields. clear. induction (map e_tree Es) as [|f l IH]; [reflexivity|]. cbn [flat_map].
          rewrite IH, shown_nil. reflexivity. }
        rewrite Y. unfold show_fields.
        eapply (shows_entries obj_name obj_by_name obj_inaccessible possible round_f64 n [] (0, 0) c [] entries new_builder Wf (Some d) b1 (Some d) d M);
          [exact Om'|auto|exact PE|exact Cc|]. rewrite Er in X. exact X.
  Qed.

  (** ** All the plans *)

  Definition calm_plan (c : concrete) : Prop := forall g, In g (c_fields c) -> calm (f_shape g).

  (** A plan that is well formed, whose data is an object; or has a required
      field, and data that is not an object. *)
  Definition plan_ok (p : concrete * json) : Prop :=
    wf_concrete (fst p) /\ distinct_keys (snd p) /\
    ((exists entries ok, snd p = JMap entries ok) \/
     exists k, root_on_error obj_name (fst p) = OnPropagate k).

  Lemma rooted_app : forall ps l ts, rooted ps ts -> rooted (ps ++ l) ts.
  Proof.
    intros ps l ts [(d0 & R) O T A]. constructor; auto. exists d0. apply rep_app. exact R.
  Qed.

  Lemma other_part : forall d n c j k, root_on_error obj_name c = OnPropagate k ->
    (forall entries ok, j <> JMap entries ok) ->
    b_bub (root_part d n (c, j)) = false -> b_up (root_part d n (c, j)) = true.
  Proof.
    intros d n c j k Oe Nm. unfold root_part, Deserialize.deser_root. cbn [fst snd]. rewrite Oe.
    destruct j as [|x|z|x|s|l ok|l ok|]; cbn; intros H; try reflexivity; try discriminate.
    - cbn [object_other] in *. destruct (readable (JList l ok)); cbn in *; [reflexivity|discriminate].
    - exfalso. exact (Nm l ok eq_refl).
  Qed.

  Lemma run_spec : forall fuel d plans r ts,
    rooted (r_parts r) ts ->
    (forall k, In k (map fst ts) -> ~ In k (flat_map (fun p => ckeys (fst p)) plans)) ->
    NoDup (flat_map (fun p => ckeys (fst p)) plans) ->
    Forall plan_ok plans ->
    Forall (fun b => b_bub b = false) (root_parts d (List.length (r_parts r)) plans) ->
    exists r' ts',
      ingest_all fuel r (root_parts d (List.length (r_parts r)) plans) = Ok r' /\
      rooted (r_parts r') ts' /\
      r_errs r' = r_errs r ++ flat_map b_errs (root_parts d (List.length (r_parts r)) plans) /\
      r_root r' = (if existsb b_up (root_parts d (List.length (r_parts r)) plans) then None else r_root r) /\
      (existsb b_up (root_parts d (List.length (r_parts r)) plans) = false -> exists kss,
         Permutation (show_fields ts ++ List.concat kss) (show_fields ts') /\
         Forall2 (fun p ks => conf_obj d (fst p) ks) plans kss) /\
      ((forall p, In p plans -> (exists entries ok, snd p = JMap entries ok) /\ calm_plan (fst p)) ->
       flat_map b_errs (root_parts d (List.length (r_parts r)) plans) = [] ->
       existsb b_up (root_parts d (List.length (r_parts r)) plans) = false /\
       exists kss, Permutation (show_fields ts ++ List.concat kss) (show_fields ts') /\
         Forall2 (fun p ks => exists entries ok, snd p = JMap entries ok /\ shows_obj d (fst p) entries ks) plans kss).
  Proof.
    intros fuel d plans. induction plans as [|[c j] plans IH]; intros r ts Q Dj ND Opl Bub.
    - exists r, ts. cbn. split; [reflexivity|]. split; [exact Q|]. split; [rewrite app_nil_r; reflexivity|].
      split; [reflexivity|].
      assert (X : Permutation (show_fields ts ++ []) (show_fields ts)) by (rewrite app_nil_r; reflexivity).
      split; [intros _|intros _ _; split; [reflexivity|]]; exists []; split; try exact X; constructor.
    - cbn [root_parts] in *. set (b := root_part d (List.length (r_parts r)) (c, j)) in *.
      cbn [flat_map fst] in ND, Dj. inversion Opl as [|? ? (Wf & Dk & Hj) Okr]; subst. cbn [fst snd] in Wf, Dk, Hj.
      inversion Bub as [|? ? Bb Br]; subst.
      assert (Step : (exists entries ok, j = JMap entries ok) \/ ((forall entries ok, j <> JMap entries ok) /\ b_up b = true)).
      { destruct j; try (left; eauto; fail); right; (split; [intros ? ? X; discriminate|]);
          (destruct Hj as [(e & k & X)|(k & X)]; [discriminate|]; eapply other_part; [exact X|intros ? ? Y; discriminate|exact Bb]). }
      assert (S1 : exists r' ts',
        ingest fuel r b = Ok r' /\ r_errs r' = r_errs r ++ b_errs b /\
        List.length (r_parts r') = S (List.length (r_parts r)) /\
        r_root r' = (if b_up b then None else r_root r) /\
        rooted (r_parts r') ts' /\
        (forall k, In k (map fst ts') -> In k (map fst ts) \/ In k (ckeys c)) /\
        (b_up b = false -> exists ks,
           Permutation (show_fields ts ++ ks) (show_fields ts') /\ conf_obj d c ks /\
           forall entries ok, j = JMap entries ok -> b_errs b = [] -> calm_plan c -> shows_obj d c entries ks) /\
        ((exists entries ok, j = JMap entries ok) -> b_errs b = [] -> calm_plan c -> b_up b = false)).
      { destruct Step as [(entries & ok & ->)|(Nm & Up)].
        - destruct (root_step fuel d r c entries ok ts Q Wf Dk) as (U & r' & ts' & E & X1 & X2 & X3 & X4 & X5 & X6).
          + intros k I J. apply (Dj k I). apply in_or_app. left. exact J.
          + exact Bb.
          + exists r', ts'. split; [exact E|]. split; [exact X1|]. split; [exact X2|]. split; [exact X3|]. split; [exact X4|].
            split; [exact X5|]. split.
            * intros Y. destruct (X6 Y) as (ks & P & C & S). exists ks. split; [exact P|]. split; [exact C|].
              intros entries' ok' Z. inversion Z; subst. exact S.
            * intros _ Y Z. apply U; assumption.
        - exists (MkR None (r_parts r ++ [b_part b]) (r_errs r ++ b_errs b)), ts. unfold ingest. rewrite Up.
          split; [reflexivity|]. split; [reflexivity|]. split; [cbn; rewrite app_length; cbn; lia|]. split; [reflexivity|].
          split; [apply rooted_app; exact Q|]. split; [auto|]. split; [discriminate|].
          intros (e & k & X). exfalso. exact (Nm _ _ X). }
      destruct S1 as (r1 & ts1 & E1 & Er1 & L1 & Rt1 & Q1 & K1 & C1 & U1).
      rewrite <- L1 in Br.
      destruct (IH r1 ts1 Q1) as (r' & ts' & E & Q' & Er & Rt & C & Sh).
      + intros k I J. destruct (K1 k I) as [I'|I'].
        * apply (Dj k I'). apply in_or_app. right. exact J.
        * exact (nodup_app_disjoint _ _ _ _ ND I' J).
      + apply nodup_app_r in ND. exact ND.
      + exact Okr.
      + exact Br.
      + rewrite L1 in *. exists r', ts'. cbn [ingest_all]. fold b. rewrite E1. cbn [bind].
        split; [exact E|]. split; [exact Q'|].
        split; [cbn [flat_map]; rewrite Er, Er1, app_assoc; reflexivity|].
        split; [cbn [existsb]; rewrite Rt, Rt1; destruct (b_up b); [destruct (existsb b_up _); reflexivity|reflexivity]|].
        split.
        * cbn [existsb]. intros X. apply orb_false_iff in X. destruct X as [X1 X2].
          destruct (C1 X1) as (ks & P1 & Cf & _). destruct (C X2) as (kss & P2 & F2). exists (ks :: kss).
          split; [|constructor; assumption]. cbn [List.concat]. rewrite app_assoc, P1. exact P2.
        * intros All X. cbn [flat_map] in X. apply app_eq_nil in X. destruct X as [X1 X2].
          destruct (All (c, j) (or_introl eq_refl)) as ((entries & ok & Ej) & Cc). cbn [fst snd] in Ej, Cc.
          assert (Up : b_up b = false) by (apply U1; eauto). destruct (C1 Up) as (ks & P1 & _ & Sw).
          destruct Sh as (Ex & kss & P2 & F2); [intros p I; apply All; right; exact I|exact X2|].
          split; [cbn [existsb]; rewrite Up, Ex; reflexivity|]. exists (ks :: kss).
          split; [cbn [List.concat]; rewrite app_assoc, P1; exact P2|]. constructor; [|exact F2].
          exists entries, ok. split; [exact Ej|]. eapply Sw; eauto.
  Qed.

  Lemma rooted_new : rooted (r_parts new_response) [].
  Proof.
    constructor; [|constructor|constructor|intros []]. exists None. econstructor; [reflexivity|reflexivity|constructor].
  Qed.

  (** The data sent to the client. *)
  Lemma data_shown : forall r ts, rooted (r_parts r) ts -> r_root r = Some (0, 0) ->
    exists n0, forall n, n0 <= n -> ser_data n r = Some (OObj (show_fields ts)).
  Proof.
    intros r ts [(d0 & R) O T A] Rt. exists (depth (TObj (0, 0) d0 ts)). intros n L. unfold ser_data. rewrite Rt.
    rewrite (ser_show _ _ _ n R); [reflexivity|constructor; assumption|exact L].
  Qed.
End Schema.
