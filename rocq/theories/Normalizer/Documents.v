(** Normal forms of documents (C45). *)

From Coq Require Import String Ascii List Bool Permutation Sorted.
From Verif Require Import Normalizer.Model Normalizer.Sort Normalizer.Spec Normalizer.Normal.
Import ListNotations.
Local Open Scope list_scope.

(** *** The map of used fragments *)

Definition all_true (u : used) : Prop := forall n b, used_get u n = Some b -> b = true.
Definition known (u : used) (n : string) : Prop := used_get u n = Some true.

Lemma mark_get : forall u n m, all_true u ->
  all_true (used_mark u n true) /\ (known (used_mark u n true) m <-> m = n \/ known u m).
Proof.
  intros u n m A. unfold used_mark, known.
  destruct (used_get u n) as [b|] eqn:E.
  - split; [exact A|]. split; [auto|]. intros [->|H]; [|exact H]. rewrite E. f_equal. eapply A; eauto.
  - split.
    + intros k b. cbn [used_get]. destruct (String.eqb n k); [congruence|apply A].
    + cbn [used_get]. destruct (String.eqb_spec n m); [subst; tauto|].
      split; [auto|]. intros [->|H]; [congruence|exact H].
Qed.

Lemma marks_get : forall l u, all_true u ->
  all_true (marks u true l) /\ forall m, known (marks u true l) m <-> In m l \/ known u m.
Proof.
  induction l as [|n l IH]; intros u A; [split; [exact A|cbn; tauto]|].
  change (marks u true (n :: l)) with (marks (used_mark u n true) true l).
  destruct (mark_get u n n A) as [A' _]. destruct (IH _ A') as [A2 H2].
  split; [exact A2|]. intros m. rewrite H2. destruct (mark_get u n m A) as [_ ->]. cbn [In]. intuition congruence.
Qed.

(** *** The passes *)

Definition nf_frag (f : fragment) : fragment :=
  Fragment (frag_name f) (frag_cond f) (norm_dirs (frag_dirs f)) (nf_sels (frag_sels f)).

Definition nf_op (d : definition) : definition :=
  match d with
  | DOp o => DOp (Operation (op_type o) (op_name o)
                   (sort_by (fun a b => String.compare (var_name a) (var_name b)) (op_vars o))
                   (norm_dirs (op_dirs o)) (nf_sels (op_sels o)))
  | DSet s => DSet (nf_sels s)
  | DFrag f => DFrag f
  end.

Definition is_frag (d : definition) : bool := match d with DFrag _ => true | _ => false end.

Definition op_spreads (ds : document) : list string :=
  flat_map (fun d => if is_frag d then [] else def_spreads d) ds.

Lemma norm_ops_eq : forall ds u, norm_ops u ds = (map nf_op ds, marks u true (op_spreads ds)).
Proof.
  induction ds as [|[o|s|f] r IH]; intros u; [reflexivity| | |].
  - cbn [norm_ops]. unfold norm_op. rewrite norm_set_eq. cbv beta iota zeta. rewrite IH.
    unfold op_spreads. cbn [map flat_map is_frag def_spreads]. rewrite marks_app. reflexivity.
  - cbn [norm_ops]. rewrite norm_set_eq. cbv beta iota zeta. rewrite IH.
    unfold op_spreads. cbn [map flat_map is_frag def_spreads]. rewrite marks_app. reflexivity.
  - cbn [norm_ops]. rewrite IH. reflexivity.
Qed.

(** The pass over the fragments: what becomes known, and the new definitions. *)
Fixpoint walk (u : used) (ds : document) : used :=
  match ds with
  | [] => u
  | DFrag f :: r =>
      walk (match used_get u (frag_name f) with None => u | Some _ => marks u true (def_spreads (DFrag f)) end) r
  | _ :: r => walk u r
  end.

Fixpoint walked (u : used) (ds : document) : document :=
  match ds with
  | [] => []
  | DFrag f :: r =>
      match used_get u (frag_name f) with
      | None => DFrag f :: walked u r
      | Some _ => DFrag (nf_frag f) :: walked (marks u true (def_spreads (DFrag f))) r
      end
  | d :: r => d :: walked u r
  end.

Lemma norm_frags_eq : forall ds u, norm_frags u ds = (walked u ds, walk u ds).
Proof.
  induction ds as [|[o|s|f] r IH]; intros u; [reflexivity| | |]; cbn [norm_frags walked walk].
  - rewrite IH. reflexivity.
  - rewrite IH. reflexivity.
  - destruct (used_get u (frag_name f)); rewrite ?norm_set_eq; cbv beta iota zeta; rewrite IH; reflexivity.
Qed.

Lemma walk_app : forall l m u, walk u (l ++ m) = walk (walk u l) m.
Proof. induction l as [|[o|s|f] r IH]; intros m u; cbn [app walk]; auto. Qed.

Lemma walk_mono : forall ds u, all_true u -> all_true (walk u ds) /\ forall n, known u n -> known (walk u ds) n.
Proof.
  induction ds as [|[o|s|f] r IH]; intros u A; cbn [walk]; auto.
  destruct (used_get u (frag_name f)) eqn:E; [|auto].
  destruct (marks_get (def_spreads (DFrag f)) u A) as [A' H'].
  destruct (IH _ A') as [A2 H2]. split; [exact A2|]. intros n Hn. apply H2, H'. auto.
Qed.

(** *** Splitting the sorted definitions *)

Lemma sort_definition_total : total sort_definition.
Proof.
  split.
  - intros [o|s|f] [o'|s'|f']; cbn; try reflexivity. apply String.compare_antisym.
  - intros [o|s|f] [o'|s'|f'] [o''|s''|f'']; cbn; try congruence. apply string_compare_lt_trans.
Qed.

Lemma insert_op : forall d F O, is_frag d = false -> Forall (fun x => is_frag x = true) F ->
  Forall (fun x => is_frag x = false) O -> insert_by sort_definition d (F ++ O) = F ++ d :: O.
Proof.
  intros d F O Hd HF HO. induction HF as [|x F Hx _ IH]; cbn [app].
  - destruct O as [|y O]; [reflexivity|]. cbn [insert_by].
    apply Forall_inv in HO. destruct d, y; cbn in *; try discriminate; reflexivity.
  - cbn [insert_by]. rewrite IH. destruct d, x; cbn in *; try discriminate; reflexivity.
Qed.

Lemma insert_frag : forall d F O, is_frag d = true -> Forall (fun x => is_frag x = true) F ->
  Forall (fun x => is_frag x = false) O -> insert_by sort_definition d (F ++ O) = insert_by sort_definition d F ++ O.
Proof.
  intros d F O Hd HF HO. induction HF as [|x F Hx _ IH]; cbn [app].
  - destruct O as [|y O]; [reflexivity|]. cbn [insert_by app].
    apply Forall_inv in HO. destruct d, y; cbn in *; try discriminate; reflexivity.
  - cbn [insert_by]. rewrite IH. destruct (sort_definition d x); reflexivity.
Qed.

Lemma filter_all {A} (p : A -> bool) (b : bool) : forall l, Forall (fun x => p x = b) (filter (fun x => Bool.eqb (p x) b) l).
Proof.
  intros l. apply Forall_forall. intros x H. apply filter_In in H. destruct H as [_ H]. apply eqb_prop in H. exact H.
Qed.

Definition frags (ds : document) : document := filter (fun d => Bool.eqb (is_frag d) true) ds.
Definition ops (ds : document) : document := filter (fun d => Bool.eqb (is_frag d) false) ds.

Lemma sort_frags : forall ds, Forall (fun x => is_frag x = true) (sort_by sort_definition (frags ds)).
Proof. intros ds. eapply Permutation_Forall; [apply sort_perm|]. apply filter_all. Qed.

Lemma sort_split : forall ds, sort_by sort_definition ds = sort_by sort_definition (frags ds) ++ ops ds.
Proof.
  induction ds as [|d r IH]; [reflexivity|].
  change (sort_by sort_definition (d :: r)) with (insert_by sort_definition d (sort_by sort_definition r)).
  rewrite IH. unfold frags, ops. cbn [filter]. fold (frags r). fold (ops r).
  destruct (is_frag d) eqn:E; cbn [Bool.eqb].
  - rewrite insert_frag; [reflexivity|exact E|apply sort_frags|apply filter_all].
  - apply insert_op; [exact E|apply sort_frags|apply filter_all].
Qed.

(** *** What the result contains *)

Definition start (name : option string) (ds : document) : used := marks [] true (op_spreads (filter (selected name) ds)).
Definition final (name : option string) (ds : document) : used := walk (start name ds) ds.

Definition result (name : option string) (ds : document) : document :=
  sort_by sort_definition
    (filter (retained (final name ds)) (walked (start name ds) (map nf_op (filter (selected name) ds)))).

Lemma walk_ignores : forall name ds u, walk u (map nf_op (filter (selected name) ds)) = walk u ds.
Proof.
  intros name. induction ds as [|d r IH]; intros u; [reflexivity|].
  cbn [filter]. destruct d as [o|s|f].
  - destruct (selected name (DOp o)); cbn [map nf_op walk]; apply IH.
  - destruct (selected name (DSet s)); cbn [map nf_op walk]; apply IH.
  - replace (selected name (DFrag f)) with true by (destruct name; reflexivity).
    cbn [map nf_op walk]. apply IH.
Qed.

Lemma normalize_result : forall name ds,
  normalize name ds = match result name ds with [] => None | r => Some r end.
Proof.
  intros name ds. unfold normalize. rewrite norm_ops_eq. fold (start name ds).
  rewrite norm_frags_eq, walk_ignores. fold (final name ds). reflexivity.
Qed.

Lemma normalize_eq : forall name d1 d2, normalize name d1 = normalize name d2 <-> result name d1 = result name d2.
Proof.
  intros. rewrite !normalize_result.
  destruct (result name d1), (result name d2); split; congruence.
Qed.

Lemma ops_filter_retained : forall u ds, ops (filter (retained u) ds) = ops ds.
Proof.
  intros u. induction ds as [|d r IH]; [reflexivity|]. unfold ops in *. cbn [filter].
  destruct (retained u d) eqn:E; cbn [filter]; rewrite IH; [reflexivity|].
  destruct d; cbn in E; try discriminate. reflexivity.
Qed.

Lemma ops_walked : forall ds u, ops (walked u ds) = ops ds.
Proof.
  unfold ops. induction ds as [|[o|s|f] r IH]; intros u; cbn [walked filter is_frag Bool.eqb]; [reflexivity| | |].
  - f_equal. apply IH.
  - f_equal. apply IH.
  - destruct (used_get u (frag_name f)); cbn [filter is_frag Bool.eqb]; apply IH.
Qed.

Lemma asked_selected : forall name d, asked name d = (selected name d && negb (is_frag d))%bool.
Proof. intros [n|] [o|s|f]; cbn; try reflexivity. destruct (op_name o); [|reflexivity]. rewrite andb_true_r. reflexivity. Qed.

Lemma ops_result : forall name ds, ops (map nf_op (filter (selected name) ds)) = map nf_op (filter (asked name) ds).
Proof.
  intros name. unfold ops. induction ds as [|d r IH]; [reflexivity|]. cbn [filter].
  rewrite asked_selected. destruct (selected name d); cbn [andb map filter]; [|exact IH].
  destruct d; cbn [nf_op is_frag negb Bool.eqb map]; rewrite IH; reflexivity.
Qed.

Lemma start_known : forall name ds, all_true (start name ds) /\
  forall n, known (start name ds) n <-> exists d, In d ds /\ asked name d = true /\ In n (def_spreads d).
Proof.
  intros name ds. unfold start.
  destruct (marks_get (op_spreads (filter (selected name) ds)) []) as [A H]; [intros n b; discriminate|].
  split; [exact A|]. intros n. rewrite H. unfold op_spreads. rewrite in_flat_map. split.
  - intros [(d & Hd & Hn)|C]; [|discriminate]. apply filter_In in Hd. destruct Hd as [Hd Hs].
    exists d. rewrite asked_selected, Hs. destruct (is_frag d); cbn in Hn |- *; [contradiction|auto].
  - intros (d & Hd & Ha & Hn). left. exists d. rewrite asked_selected in Ha. apply andb_prop in Ha. destruct Ha as [Hs Hf].
    split; [apply filter_In; auto|]. destruct (is_frag d); [discriminate|exact Hn].
Qed.

(** Only what the operations reach becomes known. *)
Lemma walk_reached : forall name ds l u, (forall d, In d l -> In d ds) -> all_true u ->
  (forall n, known u n -> reached name ds n) -> forall n, known (walk u l) n -> reached name ds n.
Proof.
  intros name ds. induction l as [|d l IH]; intros u Hl A Hu n Hn; [apply Hu, Hn|].
  assert (Hl' : forall d, In d l -> In d ds) by (intros; apply Hl; right; assumption).
  destruct d as [o|s|f]; cbn [walk] in Hn; try (apply (IH u); assumption).
  destruct (used_get u (frag_name f)) eqn:E; [|apply (IH u); assumption].
  destruct (marks_get (def_spreads (DFrag f)) u A) as [A' H'].
  eapply IH; [exact Hl'|exact A'| |exact Hn].
  intros m Hm. apply H' in Hm. destruct Hm as [Hm|Hm]; [|auto].
  eapply re_frag; [apply Hl; left; reflexivity| |exact Hm].
  apply Hu. unfold known. rewrite E. f_equal. eapply A; eauto.
Qed.

Lemma final_reached : forall name ds n, known (final name ds) n -> reached name ds n.
Proof.
  intros name ds n H. destruct (start_known name ds) as [A K].
  eapply walk_reached; [| | |exact H]; auto.
  intros m Hm. apply K in Hm. destruct Hm as (d & Hd & Ha & Hi). eapply re_op; eauto.
Qed.

Lemma frag_names_in : forall ds n, In n (frag_names ds) <-> exists f, In (DFrag f) ds /\ frag_name f = n.
Proof.
  intros ds n. unfold frag_names. rewrite in_flat_map. split.
  - intros ([o|s|f] & Hd & Hn); cbn in Hn; try contradiction. destruct Hn as [Hn|[]]. eauto.
  - intros (f & Hf & Hn). exists (DFrag f). split; [exact Hf|left; exact Hn].
Qed.

Lemma frag_names_app : forall l m, frag_names (l ++ m) = frag_names l ++ frag_names m.
Proof. intros. apply flat_map_app. Qed.

(** With unique names, a fragment is at one place. *)
Lemma unique_split : forall f g l1 l2 m1 m2, unique_frags (l1 ++ DFrag f :: l2) ->
  l1 ++ DFrag f :: l2 = m1 ++ DFrag g :: m2 -> frag_name f = frag_name g -> l1 = m1 /\ f = g /\ l2 = m2.
Proof.
  intros f g. induction l1 as [|d l1 IH]; intros l2 m1 m2 U E N.
  - destruct m1 as [|d' m1]; cbn in E; [injection E; auto|].
    exfalso. injection E as <- ->. unfold unique_frags in U.
    cbn [app] in U. change (frag_names (DFrag f :: m1 ++ DFrag g :: m2)) with
      (frag_name f :: frag_names (m1 ++ DFrag g :: m2)) in U.
    apply NoDup_cons_iff in U. destruct U as [U _]. apply U. apply frag_names_in. exists g.
    split; [apply in_or_app; right; left; reflexivity|congruence].
  - destruct m1 as [|d' m1]; cbn in E.
    + exfalso. injection E as -> <-. unfold unique_frags in U. cbn [app] in U.
      change (frag_names (DFrag g :: l1 ++ DFrag f :: l2)) with (frag_name g :: frag_names (l1 ++ DFrag f :: l2)) in U.
      apply NoDup_cons_iff in U. destruct U as [U _]. apply U. apply frag_names_in. exists f.
      split; [apply in_or_app; right; left; reflexivity|congruence].
    + injection E as <- E. apply IH in E; [destruct E as (-> & -> & ->); auto| |exact N].
      unfold unique_frags in *. change ((d :: l1) ++ DFrag f :: l2) with ([d] ++ l1 ++ DFrag f :: l2) in U.
      rewrite frag_names_app in U.
      clear -U. induction (frag_names [d]) as [|x xs IH]; [exact U|]. cbn in U. apply NoDup_cons_iff in U. apply IH, U.
Qed.

Lemma unique_in : forall ds f g, unique_frags ds -> In (DFrag f) ds -> In (DFrag g) ds -> frag_name f = frag_name g -> f = g.
Proof.
  intros ds f g U Hf Hg E. apply in_split in Hf, Hg. destruct Hf as (l1 & l2 & ->), Hg as (m1 & m2 & Hm).
  eapply unique_split in Hm; [apply Hm|exact U|exact E].
Qed.

(** When callers come first, a fragment that is reached is known when the pass
    gets to it. *)
Lemma reached_known : forall name ds, unique_frags ds -> callers_first name ds ->
  forall n, reached name ds n ->
    known (final name ds) n /\
    forall f l1 l2, ds = l1 ++ DFrag f :: l2 -> frag_name f = n -> known (walk (start name ds) l1) n.
Proof.
  intros name ds U CF n H. destruct (start_known name ds) as [A K].
  induction H as [d n Hd Ha Hn|f n Hf Hr [IH1 IH2] Hn].
  - assert (Kn : known (start name ds) n) by (apply K; eauto).
    split; [apply walk_mono; assumption|]. intros. apply walk_mono; assumption.
  - assert (after : forall l1 l2, ds = l1 ++ DFrag f :: l2 -> known (walk (start name ds) (l1 ++ [DFrag f])) n).
    { intros l1 l2 E. specialize (IH2 f l1 l2 E eq_refl). rewrite walk_app. cbn [walk].
      unfold known in IH2. rewrite IH2. apply marks_get; [apply walk_mono; exact A|]. left. exact Hn. }
    split.
    + destruct (in_split _ _ Hf) as (l1 & l2 & E). specialize (after _ _ E).
      unfold final. rewrite E at 2. replace (l1 ++ DFrag f :: l2) with ((l1 ++ [DFrag f]) ++ l2) by (rewrite <- app_assoc; reflexivity).
      rewrite walk_app. apply walk_mono; [apply walk_mono; exact A|exact after].
    + intros g l1 l2 E N.
      destruct (CF f g) as (x & y & z & E'); [exact Hf| |exact Hr|rewrite N; exact Hn|].
      { rewrite E. apply in_or_app. right. left. reflexivity. }
      assert (E2 : l1 ++ DFrag g :: l2 = (x ++ DFrag f :: y) ++ DFrag g :: z) by (rewrite <- E, E', <- app_assoc; reflexivity).
      apply unique_split in E2; [|rewrite <- E; exact U|reflexivity]. destruct E2 as (-> & _ & _).
      specialize (after x (y ++ DFrag g :: z)). rewrite <- app_assoc in E. cbn [app] in E.
      assert (E3 : ds = x ++ DFrag f :: y ++ DFrag g :: z) by exact E'.
      specialize (after E3).
      replace (x ++ DFrag f :: y) with ((x ++ [DFrag f]) ++ y) by (rewrite <- app_assoc; reflexivity).
      rewrite walk_app. apply walk_mono; [apply walk_mono; exact A|exact after].
Qed.

Lemma known_get : forall u n, all_true u -> (used_get u n = None <-> ~ known u n).
Proof.
  intros u n A. unfold known. destruct (used_get u n) as [b|] eqn:E; [|split; [discriminate|reflexivity]].
  rewrite (A _ _ E). split; [discriminate|]. intros H. exfalso. apply H. reflexivity.
Qed.

(** A fragment of the result is one of the document, changed when it was known
    as the pass got to it. *)
Lemma walked_in : forall ds u f', In (DFrag f') (walked u ds) <->
  exists f l1 l2, ds = l1 ++ DFrag f :: l2 /\
    f' = match used_get (walk u l1) (frag_name f) with None => f | Some _ => nf_frag f end.
Proof.
  induction ds as [|d r IH]; intros u f'.
  - cbn. split; [intros []|]. intros (f & l1 & l2 & E & _). destruct l1; discriminate.
  - assert (IHs : forall u', (forall l, walk u (d :: l) = walk u' l) ->
      In (DFrag f') (walked u' r) <-> exists f l1 l2, d :: r = (d :: l1) ++ DFrag f :: l2 /\
        f' = match used_get (walk u (d :: l1)) (frag_name f) with None => f | Some _ => nf_frag f end).
    { intros u' W. rewrite IH. split; intros (f & l1 & l2 & E & F); exists f, l1, l2; rewrite W in *.
      - rewrite E. auto.
      - injection E as E. auto. }
    destruct d as [o|s|f].
    + cbn [walked In]. rewrite (IHs u) by reflexivity. split.
      * intros [C|(f & l1 & l2 & E & F)]; [discriminate|]. exists f, (DOp o :: l1), l2. auto.
      * intros (f & l1 & l2 & E & F). right. destruct l1 as [|d l1]; [discriminate|].
        injection E as <- E. exists f, l1, l2. rewrite E. auto.
    + cbn [walked In]. rewrite (IHs u) by reflexivity. split.
      * intros [C|(f & l1 & l2 & E & F)]; [discriminate|]. exists f, (DSet s :: l1), l2. auto.
      * intros (f & l1 & l2 & E & F). right. destruct l1 as [|d l1]; [discriminate|].
        injection E as <- E. exists f, l1, l2. rewrite E. auto.
    + set (u' := match used_get u (frag_name f) with None => u | Some _ => marks u true (def_spreads (DFrag f)) end).
      specialize (IHs u' (fun _ => eq_refl)).
      assert (W : walked u (DFrag f :: r) =
        DFrag (match used_get u (frag_name f) with None => f | Some _ => nf_frag f end) :: walked u' r).
      { cbn [walked]. subst u'. destruct (used_get u (frag_name f)); reflexivity. }
      rewrite W. cbn [In]. rewrite IHs. split.
      * intros [C|(g & l1 & l2 & E & F)].
        -- injection C as <-. exists f, [], r. split; [reflexivity|]. reflexivity.
        -- exists g, (DFrag f :: l1), l2. auto.
      * intros (g & l1 & l2 & E & F). destruct l1 as [|d l1].
        -- left. injection E as <- <-. rewrite F. reflexivity.
        -- right. injection E as <- E. exists g, l1, l2. rewrite E. auto.
Qed.

Lemma in_passes : forall name ds u f', In (DFrag f') (walked u (map nf_op (filter (selected name) ds))) <-> In (DFrag f') (walked u ds).
Proof.
  intros name. induction ds as [|d r IH]; intros u f'; [reflexivity|]. cbn [filter].
  destruct d as [o|s|f].
  - destruct (selected name (DOp o)); cbn [map nf_op walked In]; rewrite IH; intuition discriminate.
  - destruct (selected name (DSet s)); cbn [map nf_op walked In]; rewrite IH; intuition discriminate.
  - replace (selected name (DFrag f)) with true by (destruct name; reflexivity).
    cbn [map nf_op walked]. destruct (used_get u (frag_name f)); cbn [In]; rewrite IH; reflexivity.
Qed.

Lemma frag_in_result : forall name ds f', In (DFrag f') (result name ds) <->
  retained (final name ds) (DFrag f') = true /\ In (DFrag f') (walked (start name ds) ds).
Proof.
  intros name ds f'. unfold result.
  rewrite <- (in_passes name ds). rewrite and_comm, <- filter_In.
  split; apply Permutation_in; [apply Permutation_sym|]; apply sort_perm.
Qed.

(** In general: a fragment of the result has the name of a fragment that the
    operations reach, and is that fragment or its normal form. *)
Lemma frag_in_result_reached : forall name ds f', In (DFrag f') (result name ds) ->
  exists f, In (DFrag f) ds /\ reached name ds (frag_name f) /\ (f' = f \/ f' = nf_frag f).
Proof.
  intros name ds f' H. apply frag_in_result in H. destruct H as [Hr Hw].
  apply walked_in in Hw. destruct Hw as (f & l1 & l2 & E & F).
  assert (N : frag_name f' = frag_name f) by (rewrite F; destruct (used_get _ _); reflexivity).
  exists f. split; [rewrite E; apply in_or_app; right; left; reflexivity|].
  split; [|rewrite F; destruct (used_get _ _); auto].
  apply final_reached. unfold known. cbn in Hr. rewrite N in Hr.
  destruct (used_get (final name ds) (frag_name f)) as [b|]; [congruence|discriminate].
Qed.

(** With callers first: the normal forms of the fragments reached. *)
Lemma frag_in_result_first : forall name ds, unique_frags ds -> callers_first name ds ->
  forall f', In (DFrag f') (result name ds) <->
    exists f, In (DFrag f) ds /\ reached name ds (frag_name f) /\ f' = nf_frag f.
Proof.
  intros name ds U CF f'. destruct (start_known name ds) as [A _]. split.
  - intros H. pose proof H as H0. apply frag_in_result in H0. destruct H0 as [_ Hw].
    apply frag_in_result_reached in H. destruct H as (f & Hf & Hr & Hor).
    exists f. split; [exact Hf|]. split; [exact Hr|].
    apply walked_in in Hw. destruct Hw as (g & l1 & l2 & E & F).
    assert (N : frag_name f' = frag_name g) by (rewrite F; destruct (used_get _ _); reflexivity).
    assert (N' : frag_name f' = frag_name f) by (destruct Hor as [->| ->]; reflexivity).
    assert (g = f).
    { eapply unique_in; [exact U| |exact Hf|congruence]. rewrite E. apply in_or_app. right. left. reflexivity. }
    subst g. destruct (reached_known name ds U CF _ Hr) as [_ Hk]. specialize (Hk f l1 l2 E eq_refl).
    unfold known in Hk. rewrite Hk in F. exact F.
  - intros (f & Hf & Hr & ->). apply frag_in_result.
    destruct (reached_known name ds U CF _ Hr) as [Hk Hw]. split.
    + cbn. unfold known in Hk. rewrite Hk. reflexivity.
    + destruct (in_split _ _ Hf) as (l1 & l2 & E). apply walked_in. exists f, l1, l2. split; [exact E|].
      specialize (Hw f l1 l2 E eq_refl). unfold known in Hw. rewrite Hw. reflexivity.
Qed.

Lemma frag_names_walked : forall ds u, frag_names (walked u ds) = frag_names ds.
Proof.
  induction ds as [|[o|s|f] r IH]; intros u; cbn [walked]; [reflexivity| | |].
  - apply IH.
  - apply IH.
  - unfold frag_names in *. destruct (used_get u (frag_name f)); cbn [flat_map app]; rewrite IH; reflexivity.
Qed.

Lemma frag_names_sel : forall name ds, frag_names (map nf_op (filter (selected name) ds)) = frag_names ds.
Proof.
  intros name. induction ds as [|d r IH]; [reflexivity|]. cbn [filter]. destruct d as [o|s|f].
  - destruct (selected name (DOp o)); cbn [map nf_op]; apply IH.
  - destruct (selected name (DSet s)); cbn [map nf_op]; apply IH.
  - replace (selected name (DFrag f)) with true by (destruct name; reflexivity).
    unfold frag_names in *. cbn [map nf_op flat_map]. rewrite IH. reflexivity.
Qed.

Lemma frag_names_filter : forall p ds, NoDup (frag_names ds) -> NoDup (frag_names (filter p ds)).
Proof.
  intros p. induction ds as [|d r IH]; intros H; [constructor|]. cbn [filter].
  assert (Hr : NoDup (frag_names r)).
  { destruct d; [exact H|exact H|]. change (NoDup (frag_name f :: frag_names r)) in H. apply NoDup_cons_iff in H. apply H. }
  destruct (p d); [|apply IH, Hr].
  destruct d as [o|s|f]; [apply IH, Hr|apply IH, Hr|].
  change (NoDup (frag_name f :: frag_names (filter p r))).
  change (NoDup (frag_name f :: frag_names r)) in H. apply NoDup_cons_iff in H. destruct H as [H1 _].
  constructor; [|apply IH, Hr]. intros C. apply H1. apply frag_names_in in C. destruct C as (g & Hg & N).
  apply frag_names_in. exists g. split; [|exact N]. apply filter_In in Hg. apply Hg.
Qed.

Lemma frags_nodup : forall ds, NoDup (frag_names ds) ->
  NoDup (frags ds) /\ forall x y, In x (frags ds) -> In y (frags ds) -> sort_definition x y = Eq -> x = y.
Proof.
  intros ds H. split.
  - unfold frags. induction ds as [|d r IH]; [constructor|]. cbn [filter].
    destruct d as [o|s|f]; cbn [is_frag Bool.eqb]; try (apply IH, H).
    change (NoDup (frag_name f :: frag_names r)) in H. apply NoDup_cons_iff in H. destruct H as [H1 H2].
    constructor; [|apply IH, H2]. intros C. apply filter_In in C. apply H1, frag_names_in. exists f. split; [apply C|reflexivity].
  - intros x y Hx Hy E. apply filter_In in Hx, Hy. destruct Hx as [Hx Fx], Hy as [Hy Fy].
    destruct x as [o|s|f], y as [o'|s'|g]; try discriminate. cbn in E. apply compare_eq in E.
    f_equal. eapply unique_in; [exact H|exact Hx|exact Hy|exact E].
Qed.

Definition body (name : option string) (ds : document) : document :=
  filter (retained (final name ds)) (walked (start name ds) (map nf_op (filter (selected name) ds))).

Lemma body_unique : forall name ds, unique_frags ds -> NoDup (frag_names (body name ds)).
Proof.
  intros name ds U. unfold body. apply frag_names_filter. rewrite frag_names_walked, frag_names_sel. exact U.
Qed.

Lemma result_split : forall name ds,
  result name ds = sort_by sort_definition (frags (body name ds)) ++ map nf_op (filter (asked name) ds).
Proof.
  intros name ds. unfold result. fold (body name ds). rewrite sort_split. f_equal.
  unfold body. rewrite ops_filter_retained, ops_walked. apply ops_result.
Qed.

(** *** Comparing results *)

Lemma app_parts : forall F1 F2 O1 O2, Forall (fun x => is_frag x = true) F1 -> Forall (fun x => is_frag x = true) F2 ->
  Forall (fun x => is_frag x = false) O1 -> Forall (fun x => is_frag x = false) O2 ->
  F1 ++ O1 = F2 ++ O2 -> F1 = F2 /\ O1 = O2.
Proof.
  induction F1 as [|x F1 IH]; intros [|y F2] O1 O2 H1 H2 H3 H4 E; cbn in E.
  - auto.
  - exfalso. subst O1. apply Forall_inv in H2, H3. congruence.
  - exfalso. subst O2. apply Forall_inv in H1, H4. congruence.
  - injection E as <- E. apply Forall_cons_iff in H1, H2. destruct H1, H2.
    destruct (IH F2 O1 O2) as [-> ->]; auto.
Qed.

Lemma asked_nf_ops : forall name ds, Forall (fun x => is_frag x = false) (map nf_op (filter (asked name) ds)).
Proof.
  intros name ds. apply Forall_forall. intros x H. apply in_map_iff in H. destruct H as (d & <- & Hd).
  apply filter_In in Hd. destruct Hd as [_ Hd]. destruct d; cbn in *; congruence.
Qed.

Lemma result_eq : forall name d1 d2, unique_frags d1 -> unique_frags d2 ->
  result name d1 = result name d2 <->
  map nf_op (filter (asked name) d1) = map nf_op (filter (asked name) d2) /\
  forall f, In (DFrag f) (result name d1) <-> In (DFrag f) (result name d2).
Proof.
  intros name d1 d2 U1 U2. split.
  - intros E. split; [|rewrite E; reflexivity]. rewrite !result_split in E.
    apply app_parts in E; auto using sort_frags, asked_nf_ops. apply E.
  - intros [EO EF]. rewrite !result_split, EO. f_equal.
    destruct (frags_nodup _ (body_unique name d1 U1)) as [N1 D1].
    destruct (frags_nodup _ (body_unique name d2 U2)) as [N2 D2].
    assert (inr : forall name ds f, In (DFrag f) (result name ds) <-> In (DFrag f) (frags (body name ds))).
    { clear. intros name ds f. unfold result. fold (body name ds). unfold frags. rewrite filter_In. cbn [is_frag Bool.eqb].
      split.
      - intros H. split; [|reflexivity]. eapply Permutation_in; [apply Permutation_sym, sort_perm|exact H].
      - intros [H _]. eapply Permutation_in; [apply sort_perm|exact H]. }
    assert (P : Permutation (frags (body name d1)) (frags (body name d2))).
    { apply NoDup_Permutation; [exact N1|exact N2|]. intros x. split; intros H.
      - destruct x as [o|s|f]; [apply filter_In in H; destruct H; discriminate|apply filter_In in H; destruct H; discriminate|].
        apply inr, EF, inr, H.
      - destruct x as [o|s|f]; [apply filter_In in H; destruct H; discriminate|apply filter_In in H; destruct H; discriminate|].
        apply inr, EF, inr, H. }
    eapply sorted_unique with (cmp := sort_definition).
    + apply sort_definition_total.
    + apply sort_sorted, sort_definition_total.
    + apply sort_sorted, sort_definition_total.
    + rewrite <- !sort_perm. exact P.
    + intros x y Hx Hy. apply D1; (eapply Permutation_in; [apply Permutation_sym, (sort_perm sort_definition)|]; assumption).
Qed.

Lemma same_vars_nf : forall l m, reordered var_name eq l m <->
  sort_by (fun a b => String.compare (var_name a) (var_name b)) l = sort_by (fun a b => String.compare (var_name a) (var_name b)) m.
Proof.
  assert (self : forall l, reordered var_name eq l (sort_by (fun a b => String.compare (var_name a) (var_name b)) l)).
  { intros l. apply sort_reorders; [reflexivity|]. intros x y. apply (name_gt var_name). }
  intros l m. split; intros H.
  - rewrite <- (map_id l), <- (map_id m). eapply reordered_sort with (key := var_name) (R := eq).
    + apply (total_on var_name), string_total.
    + auto.
    + intros x y Hk. apply name_neq. exact Hk.
    + exact H.
  - eapply ro_trans; [apply self|]. rewrite H. apply reordered_sym; [auto|apply self].
Qed.

Lemma same_op_nf : forall name a b, asked name a = true -> asked name b = true -> (same_op a b <-> nf_op a = nf_op b).
Proof.
  intros name [o|s|f] [p|t|g] Ha Hb; try discriminate; cbn [same_op nf_op]; try (split; [intros []|discriminate]).
  - rewrite same_vars_nf, same_dirs_norm, same_sels_nf. destruct o, p; cbn. split.
    + intros (-> & -> & -> & -> & ->). reflexivity.
    + intros H. injection H as -> -> -> -> ->. auto.
  - rewrite same_sels_nf. split; congruence.
Qed.

Lemma same_ops_nf : forall name l m, Forall (fun d => asked name d = true) l -> Forall (fun d => asked name d = true) m ->
  (Forall2 same_op l m <-> map nf_op l = map nf_op m).
Proof.
  intros name. induction l as [|x l IH]; intros [|y m] Hl Hm; cbn [map].
  - split; [reflexivity|constructor].
  - split; [intros H; inversion H|discriminate].
  - split; [intros H; inversion H|discriminate].
  - apply Forall_cons_iff in Hl, Hm. destruct Hl as [Hx Hl], Hm as [Hy Hm].
    split.
    + intros H. inversion H as [|? ? ? ? H1 H2]; subst. f_equal; [eapply same_op_nf; eauto|].
      apply (IH m); assumption.
    + intros H. injection H as E1 E2. constructor; [eapply same_op_nf; eauto|apply (IH m); assumption].
Qed.

Lemma asked_forall : forall name ds, Forall (fun d => asked name d = true) (filter (asked name) ds).
Proof. intros. apply Forall_forall. intros x H. apply filter_In in H. apply H. Qed.

Lemma same_frag_nf : forall f g, same_frag f g <-> nf_frag f = nf_frag g.
Proof.
  intros f g. unfold same_frag, nf_frag. rewrite same_dirs_norm, same_sels_nf. split.
  - intros (-> & -> & -> & ->). reflexivity.
  - intros H. injection H as -> -> -> ->. auto.
Qed.

Lemma nf_frag_spreads : forall f n, In n (def_spreads (DFrag (nf_frag f))) <-> In n (def_spreads (DFrag f)).
Proof. intros. cbn. apply spreads_nf_sels. Qed.

Lemma nf_op_spreads : forall d n, is_frag d = false -> (In n (def_spreads (nf_op d)) <-> In n (def_spreads d)).
Proof. intros [o|s|f] n H; try discriminate; cbn; apply spreads_nf_sels. Qed.

Lemma ops_reach : forall name d1 d2, map nf_op (filter (asked name) d1) = map nf_op (filter (asked name) d2) ->
  forall d n, In d d1 -> asked name d = true -> In n (def_spreads d) ->
  exists d', In d' d2 /\ asked name d' = true /\ In n (def_spreads d').
Proof.
  intros name d1 d2 E d n Hd Ha Hn.
  assert (H : In (nf_op d) (map nf_op (filter (asked name) d2))) by (rewrite <- E; apply in_map, filter_In; auto).
  apply in_map_iff in H. destruct H as (d' & Ed & Hd'). apply filter_In in Hd'. destruct Hd' as [Hd' Ha'].
  assert (F : forall x, asked name x = true -> is_frag x = false) by (intros []; cbn; congruence).
  exists d'. split; [exact Hd'|]. split; [exact Ha'|]. rewrite <- nf_op_spreads by (apply F, Ha'). rewrite Ed.
  apply nf_op_spreads; [apply F, Ha|exact Hn].
Qed.

(** *** C45 *)

(** For documents whose fragments come before those they spread, the normal form
    is the same exactly for the same query. *)
Theorem C45_same_form_partial : forall name d1 d2,
  unique_frags d1 -> unique_frags d2 -> callers_first name d1 -> callers_first name d2 ->
  (normalize name d1 = normalize name d2 <-> same_query name d1 d2).
Proof.
  intros name d1 d2 U1 U2 C1 C2. rewrite normalize_eq, result_eq by assumption.
  unfold same_query. rewrite (same_ops_nf name) by apply asked_forall.
  split; intros [EO EF]; (split; [exact EO|]).
  - assert (RR : forall n, reached name d1 n -> reached name d2 n).
    { intros n H. induction H as [d n Hd Ha Hn|f n Hf Hr IH Hn].
      - destruct (ops_reach name d1 d2 EO d n Hd Ha Hn) as (d' & ? & ? & ?). eapply re_op; eauto.
      - assert (In (DFrag (nf_frag f)) (result name d1)) as H by (apply frag_in_result_first; eauto).
        apply EF, frag_in_result_first in H; auto. destruct H as (g & Hg & Hr' & E).
        eapply re_frag; [exact Hg|exact Hr'|]. rewrite <- nf_frag_spreads, <- E. apply nf_frag_spreads, Hn. }
    intros n Hn. destruct (in_dec string_dec n (frag_names d1)) as [I1|I1].
    + left. apply frag_names_in in I1. destruct I1 as (f & Hf & <-).
      assert (In (DFrag (nf_frag f)) (result name d1)) as H by (apply frag_in_result_first; eauto).
      apply EF, frag_in_result_first in H; auto. destruct H as (g & Hg & Hr' & E).
      exists f, g. split; [exact Hf|]. split; [exact Hg|]. split; [reflexivity|]. apply same_frag_nf, E.
    + right. split; [exact I1|]. intros I2. apply frag_names_in in I2. destruct I2 as (f & Hf & <-).
      apply I1, frag_names_in. apply RR in Hn.
      assert (In (DFrag (nf_frag f)) (result name d2)) as H by (apply frag_in_result_first; eauto).
      apply EF, frag_in_result_first in H; auto. destruct H as (g & Hg & Hr' & E).
      exists g. split; [exact Hg|]. apply (f_equal frag_name) in E. cbn in E. congruence.
  - assert (R12 : forall n, reached name d1 n -> reached name d2 n).
    { intros n H. induction H as [d n Hd Ha Hn|f n Hf Hr IH Hn].
      - destruct (ops_reach name d1 d2 EO d n Hd Ha Hn) as (d' & ? & ? & ?). eapply re_op; eauto.
      - destruct (EF _ Hr) as [(f1 & f2 & H1 & H2 & N & S)|[I1 _]].
        + assert (f1 = f) by (eapply unique_in; [exact U1|exact H1|exact Hf|exact N]). subst f1.
          apply same_frag_nf in S. eapply re_frag; [exact H2| |].
          * apply (f_equal frag_name) in S. cbn in S. rewrite <- S. exact IH.
          * rewrite <- nf_frag_spreads, <- S. apply nf_frag_spreads, Hn.
        + exfalso. apply I1, frag_names_in. eauto. }
    assert (R21 : forall n, reached name d2 n -> reached name d1 n).
    { intros n H. induction H as [d n Hd Ha Hn|f n Hf Hr IH Hn].
      - destruct (ops_reach name d2 d1 (eq_sym EO) d n Hd Ha Hn) as (d' & ? & ? & ?). eapply re_op; eauto.
      - destruct (EF _ IH) as [(f1 & f2 & H1 & H2 & N & S)|[_ I2]].
        + apply same_frag_nf in S.
          assert (N2 : frag_name f1 = frag_name f2) by (apply (f_equal frag_name) in S; exact S).
          assert (f2 = f) by (eapply unique_in; [exact U2|exact H2|exact Hf|congruence]). subst f2.
          eapply re_frag; [exact H1|rewrite N; exact IH|].
          rewrite <- nf_frag_spreads, S. apply nf_frag_spreads, Hn.
        + exfalso. apply I2, frag_names_in. eauto. }
    intros f'. rewrite !frag_in_result_first by assumption. split.
    + intros (f & Hf & Hr & ->). destruct (EF _ Hr) as [(f1 & f2 & H1 & H2 & N & S)|[I1 _]].
      * assert (f1 = f) by (eapply unique_in; [exact U1|exact H1|exact Hf|exact N]). subst f1. apply same_frag_nf in S.
        exists f2. split; [exact H2|]. split; [|exact S].
        apply (f_equal frag_name) in S. cbn in S. rewrite <- S. apply R12, Hr.
      * exfalso. apply I1, frag_names_in. eauto.
    + intros (f & Hf & Hr & ->). pose proof (R21 _ Hr) as Hr1. destruct (EF _ Hr1) as [(f1 & f2 & H1 & H2 & N & S)|[_ I2]].
      * apply same_frag_nf in S.
        assert (N2 : frag_name f1 = frag_name f2) by (apply (f_equal frag_name) in S; exact S).
        assert (f2 = f) by (eapply unique_in; [exact U2|exact H2|exact Hf|congruence]). subst f2.
        exists f1. split; [exact H1|]. split; [rewrite N; exact Hr1|]. symmetry. exact S.
      * exfalso. apply I2, frag_names_in. eauto.
Qed.

(** Whatever the order: the operations of the result are those asked for, the
    same up to aliases, literals and order, and no fragment is kept that they
    don't reach. *)
Theorem C45_kept : forall name ds r, normalize name ds = Some r ->
  Forall2 same_op (filter (asked name) ds) (filter (fun d => negb (is_frag d)) r) /\
  forall f', In (DFrag f') r ->
    exists f, In (DFrag f) ds /\ reached name ds (frag_name f) /\ same_frag f f'.
Proof.
  intros name ds r H. rewrite normalize_result in H.
  assert (E : result name ds = r) by (destruct (result name ds); congruence). clear H. split.
  - rewrite <- E, result_split, filter_app.
    assert (F0 : forall l, Forall (fun x => is_frag x = true) l -> filter (fun d => negb (is_frag d)) l = []).
    { intros l H. induction H as [|x l Hx _ IH]; [reflexivity|]. cbn [filter]. rewrite Hx. exact IH. }
    rewrite F0 by apply sort_frags. cbn [app].
    assert (F1 : forall l, Forall (fun x => is_frag x = false) l -> filter (fun d => negb (is_frag d)) l = l).
    { intros l H. induction H as [|x l Hx _ IH]; [reflexivity|]. cbn [filter]. rewrite Hx. cbn. congruence. }
    rewrite F1 by apply asked_nf_ops.
    generalize (asked_forall name ds). intros HA. induction HA as [|x l Hx _ IH]; cbn [map]; constructor; [|exact IH].
    destruct x as [o|s|f]; [| |discriminate]; cbn [nf_op same_op].
    + cbn [op_type op_name op_vars op_dirs op_sels]. split; [reflexivity|]. split; [reflexivity|].
      split; [|split; [apply same_dirs_self|apply same_sels_self]].
      apply sort_reorders; [reflexivity|]. intros x y. apply (name_gt var_name).
    + apply same_sels_self.
  - intros f' H. rewrite <- E in H. apply frag_in_result_reached in H. destruct H as (f & Hf & Hr & Hor).
    exists f. split; [exact Hf|]. split; [exact Hr|]. destruct Hor as [->| ->].
    + apply same_frag_nf. reflexivity.
    + split; [reflexivity|]. split; [reflexivity|].
      split; [apply same_dirs_self|apply (same_sels_self (frag_sels f))].
Qed.

(** With callers first, exactly the fragments reached are kept. *)
Theorem C45_fragments_partial : forall name ds r, unique_frags ds -> callers_first name ds ->
  normalize name ds = Some r ->
  forall n, In n (frag_names r) <-> reached name ds n /\ In n (frag_names ds).
Proof.
  intros name ds r U CF H n. rewrite normalize_result in H.
  assert (E : result name ds = r) by (destruct (result name ds); congruence).
  rewrite !frag_names_in. rewrite <- E. split.
  - intros (f' & Hf & <-). apply frag_in_result_first in Hf; auto. destruct Hf as (f & Hf & Hr & ->). cbn. eauto.
  - intros (Hr & f & Hf & <-). exists (nf_frag f). split; [|reflexivity]. apply frag_in_result_first; eauto.
Qed.

(** Without an operation of the name there is no normal form, and only then. *)
Theorem C45_error : forall name ds, normalize name ds = None <-> filter (asked name) ds = [].
Proof.
  intros name ds. rewrite normalize_result. split.
  - destruct (result name ds) as [|d r] eqn:E; [|discriminate]. intros _.
    rewrite result_split in E. apply app_eq_nil in E. destruct E as [_ E]. apply map_eq_nil in E. exact E.
  - intros E. assert (NR : forall n, ~ reached name ds n).
    { intros n H. induction H as [d n Hd Ha Hn|]; [|assumption].
      assert (In d (filter (asked name) ds)) as H by (apply filter_In; auto). rewrite E in H. exact H. }
    destruct (result name ds) as [|d r] eqn:R; [reflexivity|]. exfalso.
    assert (Hd : In d (result name ds)) by (rewrite R; left; reflexivity).
    destruct d as [o|s|f].
    + rewrite result_split, E, app_nil_r in Hd. pose proof (sort_frags (body name ds)) as F.
      rewrite Forall_forall in F. apply F in Hd. discriminate.
    + rewrite result_split, E, app_nil_r in Hd. pose proof (sort_frags (body name ds)) as F.
      rewrite Forall_forall in F. apply F in Hd. discriminate.
    + apply frag_in_result_reached in Hd. destruct Hd as (g & _ & Hr & _). apply (NR _ Hr).
Qed.
