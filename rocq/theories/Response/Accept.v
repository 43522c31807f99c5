(** Proofs about deserialisation: JSON that fits the shape is read without
    error. *)

From Coq Require Import List Arith ZArith String Bool Sorted Permutation Lia.
From Verif Require Import Response.Model Response.Deserialize Response.Spec Response.Conform.
From Verif Require Import Response.Merge Response.Nulls Response.DeserBase Response.DeserList Response.DeserVisit.
From Verif Require Import Response.DeserObj Response.DeserAll.
Import ListNotations.
Local Open Scope nat_scope.

Lemma same_read : forall j o, same_json j o -> read_any j = Some o.
Proof.
  induction j as [| | | | |l ok IH|l ok IH|] using json_ind2; intros o H; inversion H; subst; try reflexivity.
  - cbn [read_any]. match goal with H : Forall2 same_json _ _ |- _ => rename H into F end.
    assert (E : all_some (map read_any l) = Some ol).
    { clear - F IH. induction F as [|x y l ol Hx F IHl]; [reflexivity|]. inversion IH; subst. cbn [map all_some].
      match goal with H : forall o, same_json x o -> _ |- _ => rewrite (H y Hx) end. rewrite IHl by assumption. reflexivity. }
    rewrite E. reflexivity.
  - cbn [read_any]. match goal with H : Forall2 same_json _ _ |- _ => rename H into F end.
    match goal with H : map fst _ = map fst _ |- _ => rename H into K end.
    assert (E : all_some (map (fun kv => option_map (pair (fst kv)) (read_any (snd kv))) l) = Some ol).
    { clear H. revert ol F K. induction l as [|[k x] l IHl]; intros [|[k' y] ol] F K; cbn [map fst snd] in *;
        try discriminate; [reflexivity|]. inversion F; subst. inversion K; subst. inversion IH; subst.
      cbn [all_some]. match goal with H : forall o, same_json x o -> _ |- _ => rewrite (H y) by assumption end.
      cbn [option_map]. rewrite (IHl) with (ol := ol) by assumption. reflexivity. }
    rewrite E. reflexivity.
Qed.

Lemma same_readable : forall j o, same_json j o -> readable j = true.
Proof. intros j o H. unfold readable. rewrite (same_read j o H). reflexivity. Qed.

Section Schema.
  Variable obj_name : nat -> string.
  Variable obj_by_name : string -> option nat.
  Variable obj_inaccessible : nat -> bool.
  Variable possible : nat -> list nat.
  Variable round_f64 : Z -> Z.
  Variable pid : nat.
  Variable pp : list vid.

  Notation dres := (builder * option val)%type.
  Notation fits := (fits obj_name obj_by_name possible round_f64).
  Notation fits_obj := (fits_obj obj_name obj_by_name possible round_f64).
  Notation object_map := (object_map obj_name possible pid pp).
  Notation ingest_object := (ingest_object obj_inaccessible pp).
  Notation deser := (deser obj_name obj_by_name obj_inaccessible possible round_f64 pid pp).
  Notation visit := (visit obj_name possible).

  Definition accepted (ds : json -> field -> wtype -> list vid -> builder -> dres) (j : json) : Prop :=
    forall f w lp b, wf_shape (f_shape f) -> distinct_keys j -> fits w (f_shape f) j ->
      exists b' v, ds j f w lp b = (b', Some v) /\ b_errs b' = b_errs b.

  Section Visit.
    Variable ds : json -> field -> wtype -> list vid -> builder -> dres.
    Variable oid : id.
    Variable fs : list field.
    Variable detect : option nat.
    Variable lp : list vid.
    Hypothesis Wfs : forall f, In f fs -> wf_shape (f_shape f).
    Hypothesis Ex : NoDup (map f_expected fs).
    Hypothesis Nt : forall f, In f fs -> f_expected f <> typename_key.

    Lemma expected_inj : forall f g, In f fs -> In g fs -> f_expected f = f_expected g -> f = g.
    Proof.
      clear Wfs Nt. intros f g. induction fs as [|h l IH]; intros If Ig E; [destruct If|].
      cbn [map] in Ex. apply NoDup_cons_iff in Ex. destruct Ex as [NI ND].
      destruct If as [<-|If], Ig as [<-|Ig].
      - reflexivity.
      - exfalso. apply NI. rewrite E. apply in_map. exact Ig.
      - exfalso. apply NI. rewrite <- E. apply in_map. exact If.
      - apply IH; assumption.
    Qed.

    Lemma visit_accepts : forall entries offset skip tn acc b,
      NoDup (map fst entries) -> Forall distinct_keys (map snd entries) -> Forall (accepted ds) (map snd entries) ->
      (forall k j, In (k, j) entries -> exists o, same_json j o) ->
      (forall f j, In f fs -> In (f_expected f, j) entries -> fits (f_wrap f) (f_shape f) j) ->
      (forall i j, detect = Some i -> In (typename_key, j) entries -> exists s, j = JStr s) ->
      (forall g, In g (firstn offset fs) -> ~ In (f_expected g) (map fst entries)) ->
      exists b' tn' acc', visit ds oid fs detect entries true offset skip tn acc lp b = (b', Some (tn', acc')) /\
        b_errs b' = b_errs b /\
        (forall g, In g fs -> In (f_expected g) (map fst entries) -> In (f_key g) (map fst acc')) /\
        (forall k, In k (map fst acc) -> In k (map fst acc')) /\
        (tn <> None -> tn' <> None) /\
        (forall i s, detect = Some i -> skip = false -> In (typename_key, JStr s) entries ->
           find (fun d => String.eqb (obj_name d) s) (possible i) <> None -> tn' <> None).
    Proof.
      intros entries. induction entries as [|[k v] rest IH]; intros offset skip tn acc b ND Dk Ac Rd Ft Tn Of; cbn [Deserialize.visit].
      - eexists _, _, _. split; [reflexivity|]. split; [reflexivity|]. split; [intros g _ []|]. split; [auto|]. split; [auto|].
        intros i s _ _ [].
      - cbn [map fst snd] in ND, Dk, Ac, Of. apply NoDup_cons_iff in ND. destruct ND as [NI ND].
        inversion Dk as [|? ? Dv Dr]; subst. inversion Ac as [|? ? Av Ar]; subst.
        assert (Of' : forall g, In g (firstn offset fs) -> ~ In (f_expected g) (map fst rest)).
        { intros g I X. apply (Of g I). right. exact X. }
        assert (Rd' : forall k j, In (k, j) rest -> exists o, same_json j o) by (intros k0 j I; apply (Rd k0 j); right; exact I).
        assert (Ft' : forall f j, In f fs -> In (f_expected f, j) rest -> fits (f_wrap f) (f_shape f) j).
        { intros f j If I. apply Ft; [exact If|right; exact I]. }
        assert (Tn' : forall i j, detect = Some i -> In (typename_key, j) rest -> exists s, j = JStr s).
        { intros i j X I. apply (Tn i j X). right. exact I. }
        assert (Skip : forall skip' tn1, (forall g, In g fs -> f_expected g <> k) -> (skip = false -> skip' = false) ->
          (tn <> None -> tn1 <> None) ->
          (forall i s, detect = Some i -> skip = false -> k = typename_key -> v = JStr s ->
             find (fun d => String.eqb (obj_name d) s) (possible i) <> None -> tn1 <> None) ->
          exists b' tn' acc', visit ds oid fs detect rest true offset skip' tn1 acc lp b = (b', Some (tn', acc')) /\
            b_errs b' = b_errs b /\
            (forall g, In g fs -> In (f_expected g) (k :: map fst rest) -> In (f_key g) (map fst acc')) /\
            (forall k, In k (map fst acc) -> In k (map fst acc')) /\
            (tn <> None -> tn' <> None) /\
            (forall i s, detect = Some i -> skip = false -> In (typename_key, JStr s) ((k, v) :: rest) ->
               find (fun d => String.eqb (obj_name d) s) (possible i) <> None -> tn' <> None)).
        { intros skip' tn1 Nk Hs Ht Hn.
          destruct (IH offset skip' tn1 acc b ND Dr Ar Rd' Ft' Tn' Of') as (b' & tn' & acc' & E & Er & C & M & T1 & T2).
          exists b', tn', acc'. split; [exact E|]. split; [exact Er|]. split.
          - intros g Ig [X|X]; [exfalso; exact (Nk g Ig (eq_sym X))|apply C; assumption].
          - split; [exact M|]. split; [auto|]. intros i s X1 X2 [X3|X3] X4.
            + inversion X3; subst. apply T1. eapply Hn; eauto.
            + eapply T2; eauto. }
        destruct (skip && (k =? typename_key)) eqn:Sk.
        { apply andb_true_iff in Sk. destruct Sk as [-> Sk]. apply Nat.eqb_eq in Sk. apply Skip.
          - intros g I X. apply (Nt g I). congruence.
          - discriminate.
          - auto.
          - intros i s _ X. discriminate. }
        pose proof (position_spec k (skipn offset fs) 0) as P.
        destruct (position k (skipn offset fs) 0) as [[pos f]|].
        + destruct P as (_ & P & Ek). rewrite Nat.sub_0_r in P.
          assert (If : In f fs).
          { apply nth_error_In in P. rewrite <- (firstn_skipn offset fs). apply in_or_app. right. exact P. }
          destruct (Av f (f_wrap f) (IField oid (f_key f) (wnullable (f_wrap f)) :: lp) b (Wfs f If) Dv) as (b1 & value & D & Er1).
          { apply Ft; [exact If|]. left. rewrite Ek. reflexivity. }
          rewrite D.
          assert (Of1 : forall g, In g (firstn (offset + (if pos =? 0 then 1 else 0)) fs) -> ~ In (f_expected g) (map fst rest)).
          { destruct pos as [|pos]; cbn [Nat.eqb].
            - intros g I. destruct (skipn_head _ _ _ _ P g I) as [I'| ->]; [apply Of'; exact I'|].
              rewrite Ek. exact NI.
            - rewrite Nat.add_0_r. exact Of'. }
          destruct (IH (offset + (if pos =? 0 then 1 else 0)) skip tn (acc ++ [(f_key f, value)]) b1 ND Dr Ar Rd' Ft' Tn' Of1)
            as (b' & tn' & acc' & E & Er & C & M & T1 & T2).
          exists b', tn', acc'. split; [exact E|]. split; [congruence|]. split; [|split; [|split; [exact T1|]]].
          * intros g Ig [X|X]; [|apply C; assumption]. cbn [fst] in X.
            rewrite (expected_inj g f Ig If) by congruence. apply M. rewrite map_app. apply in_or_app. right. left. reflexivity.
          * intros k0 I. apply M. rewrite map_app. apply in_or_app. left. exact I.
          * intros i s X1 X2 [X3|X3] X4; [|eapply T2; eauto]. exfalso. inversion X3; subst. exact (Nt f If H0).
        + assert (Nk : forall g, In g fs -> f_expected g <> k).
          { intros g I X. rewrite <- (firstn_skipn offset fs) in I. apply in_app_iff in I. destruct I as [I|I].
            - apply (Of g I). left. symmetry. exact X.
            - exact (P g I X). }
          assert (Rv : readable v = true).
          { destruct (Rd k v (or_introl eq_refl)) as (o & X). exact (same_readable v o X). }
          destruct detect as [i|] eqn:Dt; [destruct tn as [tn0|]|].
          * rewrite Rv. apply Skip; auto; try (intros; discriminate).
          * destruct (k =? typename_key) eqn:Ek.
            -- apply Nat.eqb_eq in Ek. destruct (Tn i v eq_refl) as (s & ->); [left; rewrite Ek; reflexivity|].
               apply Skip; auto. intros i' s' X1 _ _ X3 X4. inversion X1; inversion X3; subst. exact X4.
            -- rewrite Rv. apply Nat.eqb_neq in Ek. apply Skip; auto; try (intros; contradiction).
          * rewrite Rv. apply Skip; auto; try (intros; discriminate).
    Qed.
  End Visit.

  Lemma finalize_accepts : forall c acc lp b (entries : list (nat * json)),
    (forall f, In f (c_fields c) -> f_errors f = []) ->
    (forall f, In f (c_fields c) -> ~ In (f_expected f) (map fst entries) -> wrequired (f_wrap f) = false \/ reported f = false) ->
    (forall g, In g (c_fields c) -> In (f_expected g) (map fst entries) -> In (f_key g) (map fst acc)) ->
    exists b' acc', finalize pid pp c acc lp b = (b', acc') /\ b_errs b' = b_errs b.
  Proof.
    intros c acc lp b entries He Hr Hk. unfold finalize.
    assert (S1 : (if c_has_error c then fold_left (shape_error_step pid pp lp) (c_fields c) (b, acc, false) else (b, acc, false))
                 = (b, acc, false)).
    { destruct (c_has_error c); [|reflexivity]. clear Hr Hk. induction (c_fields c) as [|f l IH]; [reflexivity|].
      cbn [fold_left]. unfold shape_error_step at 2. rewrite (He f (or_introl eq_refl)). apply IH.
      intros g I. apply He. right. exact I. }
    rewrite S1. destruct (List.length acc <? List.length (c_fields c)); [|eauto].
    assert (S2 : forall l acc1 p, incl l (c_fields c) ->
      exists b' acc' p', fold_left (missing_step pp (map fst acc) lp) l (b, acc1, p) = (b', acc', p') /\ b_errs b' = b_errs b).
    { induction l as [|f l IH]; intros acc1 p Il; [cbn; eauto|]. cbn [fold_left].
      assert (If : In f (c_fields c)) by (apply Il; left; reflexivity).
      assert (Il' : incl l (c_fields c)) by (intros x I; apply Il; right; exact I).
      unfold missing_step at 2. destruct (f_absent f); [apply IH; exact Il'|].
      destruct (existsb (keqb (f_key f)) (map fst acc)) eqn:Ke; [apply IH; exact Il'|].
      destruct (wrequired (f_wrap f)) eqn:Wr; [|apply IH; exact Il'].
      destruct (fst (f_key f) =? 0) eqn:K0; [apply IH; exact Il'|]. exfalso.
      destruct (in_dec Nat.eq_dec (f_expected f) (map fst entries)) as [Ie|Ne].
      - assert (X : existsb (keqb (f_key f)) (map fst acc) = true).
        { apply existsb_exists. exists (f_key f). split; [apply Hk; assumption|apply keqb_eq; reflexivity]. }
        congruence.
      - destruct (Hr f If Ne) as [X|X]; [congruence|]. rewrite reported_key, K0 in X. discriminate. }
    destruct (S2 (c_fields c) acc false (incl_refl _)) as (b' & acc' & p' & E & Er). rewrite E. eauto.
  Qed.

  Lemma object_accepts : forall ds oid c known entries skip lp b,
    wf_concrete c -> NoDup (map fst entries) -> Forall distinct_keys (map snd entries) -> Forall (accepted ds) (map snd entries) ->
    fits_obj c entries ->
    match effective c known with
    | IKnown _ => True
    | ITypename i => skip = false /\ exists d, In d (possible i) /\ In (typename_key, JStr (obj_name d)) entries
    | IAnonymous => c_typenames c = []
    end ->
    exists b' d acc, object_map ds oid c known entries true skip lp b = (b', Some (OFSome d acc)) /\ b_errs b' = b_errs b.
  Proof.
    intros ds oid c known entries skip lp b Wf ND Dk Ac Ft Ty. inversion Ft as [c' e' F1 F2 F3 F4]; subst c' e'.
    destruct (wf_inv c Wf) as (WK & WE & WT & WM & WD & WS). unfold Deserialize.object_map.
    set (detect := match effective c known with ITypename i => Some i | _ => None end).
    destruct (visit_accepts ds oid (c_fields c) detect lp WS WE WT entries 0 skip None [] b ND Dk Ac F1 F3)
      as (b1 & tn & acc & E & Er & C & _ & _ & T).
    { intros i j X I. unfold detect in X. destruct (effective c known) as [|i'|]; try discriminate.
      destruct Ty as (_ & d & _ & J). exists (obj_name d).
      clear - ND I J. induction entries as [|[k v] l IH]; [destruct I|]. cbn [map fst] in ND.
      apply NoDup_cons_iff in ND. destruct ND as [NI ND]. destruct I as [I|I], J as [J|J].
      - congruence.
      - exfalso. apply NI. inversion I; subst. apply (in_map fst) in J. exact J.
      - exfalso. apply NI. inversion J; subst. apply (in_map fst) in I. exact I.
      - apply IH; assumption. }
    { intros g []. }
    rewrite E.
    set (d := match effective c known with IKnown d => Some d | _ => tn end).
    set (typed := match effective c known with ITypename _ => true | _ => false end).
    destruct (finalize_accepts c acc lp b1 entries F2 F4 C) as (b2 & acc2 & Ef & Er2).
    assert (Hd : typed = true \/ c_typenames c <> [] -> exists o, d = Some o).
    { unfold typed, d, detect in *. destruct (effective c known) as [o|i|].
      - eauto.
      - intros _. destruct Ty as (Sk & o & Io & Ie). destruct tn as [o'|]; [eauto|]. exfalso.
        apply (T i (obj_name o) eq_refl Sk Ie); [|reflexivity]. intros X.
        pose proof (find_none _ _ X o Io) as Y. cbv beta in Y. rewrite String.eqb_refl in Y. discriminate.
      - intros [X|X]; [discriminate|contradiction]. }
    unfold object_end. rewrite Ef.
    assert (G : exists b' d0 acc0,
      (match c_typenames c, d with
       | [], _ => (b2, OFSome d acc2)
       | _, None => (b2, OFError)
       | ts, Some o => (b2, OFSome d (acc2 ++ map (fun t => (t_key t, VStr (obj_name o))) ts))
       end) = (b', OFSome d0 acc0) /\ b_errs b' = b_errs b).
    { destruct (c_typenames c) eqn:Et; [eexists _, _, _; split; [reflexivity|congruence]|].
      destruct Hd as (o & Ho); [right; discriminate|]. rewrite Ho. eexists _, _, _. split; [reflexivity|congruence]. }
    destruct G as (b' & d1 & acc1 & G & Eb). exists b', d1, acc1. split; [|exact Eb].
    destruct typed eqn:Et.
    - destruct Hd as (o & Ho); [left; reflexivity|]. rewrite Ho in *. rewrite G. reflexivity.
    - destruct d; rewrite G; reflexivity.
  Qed.

  Lemma ingest_accepts : forall f r c oid d acc lp b, exists b' v,
    ingest_object f r c oid (OFSome d acc) lp b = (b', Some v) /\ b_errs b' = b_errs b.
  Proof.
    intros f r c oid d acc lp b. cbn [Deserialize.ingest_object]. eexists _, _. split; [reflexivity|].
    destruct d as [o|]; [|reflexivity]. destruct (reported f && obj_inaccessible o).
    - destruct (c_set c); cbn [b_errs]; unfold Deserialize.propagate, propagate_null, propagate_parent;
        (destruct (find vid_nullable lp); [reflexivity|]); destruct (find vid_nullable pp); reflexivity.
    - destruct (c_set c); reflexivity.
  Qed.

  Lemma bubble_ok : forall f lp r b' v, r = (b', Some v) -> bubble pp f lp r = (b', Some v).
  Proof. intros f lp r b' v ->. reflexivity. Qed.

  Lemma null_accepts : forall f r lp b, r = false -> exists b' v, null_or_unexpected pp f r lp b = (b', Some v) /\ b_errs b' = b_errs b.
  Proof. intros f r lp b ->. cbn. eauto. Qed.

  Lemma scan_accepts : forall entries s, NoDup (map fst entries) ->
    (forall k j, In (k, j) entries -> exists o, same_json j o) ->
    In (typename_key, JStr s) entries ->
    exists rest, scan entries true = ScanName s rest /\ readable_rest rest true = true.
  Proof.
    induction entries as [|[k v] l IH]; intros s ND Rd I; [destruct I|].
    cbn [map fst] in ND. apply NoDup_cons_iff in ND. destruct ND as [NI ND]. cbn [scan].
    assert (Rd' : forall k j, In (k, j) l -> exists o, same_json j o) by (intros k0 j J; apply (Rd k0 j); right; exact J).
    destruct I as [I|I].
    - inversion I; subst. rewrite Nat.eqb_refl. exists l. split; [reflexivity|]. unfold readable_rest. cbn [andb].
      apply forallb_forall. intros [k0 j] J. destruct (Rd' k0 j J) as (o & X). exact (same_readable j o X).
    - destruct (k =? typename_key) eqn:Ek.
      + exfalso. apply NI. apply Nat.eqb_eq in Ek. subst k. apply (in_map fst) in I. exact I.
      + destruct (Rd k v (or_introl eq_refl)) as (o & X). rewrite (same_readable v o X). apply IH; assumption.
  Qed.

  Lemma find_shape_nodup : forall d c poss, NoDup (map fst poss) -> In (d, c) poss -> find_shape d poss = Some c.
  Proof.
    induction poss as [|[d' c'] l IH]; intros ND I; [destruct I|]. cbn [map fst] in ND.
    apply NoDup_cons_iff in ND. destruct ND as [NI ND]. cbn [find_shape]. destruct I as [I|I].
    - inversion I; subst. rewrite Nat.eqb_refl. reflexivity.
    - destruct (d' =? d) eqn:E; [|apply IH; assumption]. exfalso. apply NI. apply Nat.eqb_eq in E. subst.
      apply (in_map fst) in I. exact I.
  Qed.

  Lemma find_shape_not : forall d poss, (forall c, ~ In (d, c) poss) -> find_shape d poss = None.
  Proof.
    induction poss as [|[d' c'] l IH]; intros H; [reflexivity|]. cbn [find_shape].
    destruct (d' =? d) eqn:E; [exfalso; apply Nat.eqb_eq in E; subst; apply (H c'); left; reflexivity|].
    apply IH. intros c I. apply (H c). right. exact I.
  Qed.

  Lemma scalar_accepts : forall ty f r j o lp b, reads round_f64 ty j o ->
    exists v, deser_scalar round_f64 pp ty f r j lp b = (b, Some v).
  Proof.
    intros ty f r j o lp b H. inversion H; subst; cbn [deser_scalar].
    - eauto.
    - eauto.
    - assert (X : int_in_range z = true) by (unfold int_in_range; apply andb_true_iff; split; apply Z.leb_le; lia).
      rewrite X. eauto.
    - cbn [float_to_int]. assert (X : (z <? 2147483647)%Z = true) by (apply Z.ltb_lt; lia). rewrite X. eauto.
    - cbn [float_to_int]. assert (X : (z <? 2147483647)%Z = true) by (apply Z.ltb_lt; lia). rewrite X. eauto.
    - eauto.
    - eauto.
    - match goal with H : same_json j o |- _ => rename H into Sj end. apply same_read in Sj.
      destruct j; cbn [deser_scalar]; try (cbn in Sj; inversion Sj; subst); eauto; try contradiction; try (rewrite Sj; eauto); try discriminate.
      + destruct ok; [|discriminate]. destruct (all_some (map read_any l)) eqn:A; [|discriminate]. cbn [read_any]. rewrite A. cbn. eauto.
      + destruct ok; [|discriminate].
        destruct (all_some (map (fun kv => option_map (pair (fst kv)) (read_any (snd kv))) l)) eqn:A; [|discriminate].
        cbn [read_any]. rewrite A. cbn. eauto.
  Qed.

  Lemma enum_accepts : forall vs f r s lp b, In (s, false) vs -> NoDup (map fst vs) ->
    exists b' v, deser_enum pid pp vs f r (JStr s) lp b = (b', Some v) /\ b_errs b' = b_errs b.
  Proof.
    intros vs f r s lp b I ND. cbn [deser_enum].
    assert (E : find_enum s vs = Some false).
    { induction vs as [|[n i] l IH]; [destruct I|]. cbn [map fst] in ND. apply NoDup_cons_iff in ND.
      destruct ND as [NI ND]. cbn [find_enum]. destruct I as [I|I].
      - inversion I; subst. rewrite String.eqb_refl. reflexivity.
      - destruct (String.eqb n s) eqn:E; [|apply IH; assumption]. apply String.eqb_eq in E. subst.
        exfalso. apply NI. apply (in_map fst) in I. exact I. }
    rewrite E, andb_false_r. eauto.
  Qed.

  Lemma elems_accept : forall ds f inner lid lp l i b, wf_shape (f_shape f) ->
    Forall (accepted ds) l -> Forall distinct_keys l -> Forall (fits inner (f_shape f)) l ->
    exists b' vs, elems pp ds f inner lid lp l true i b = (b', Some vs) /\ b_errs b' = b_errs b.
  Proof.
    intros ds f inner lid lp l. induction l as [|x l IH]; intros i b Wf Ac Dk Ft; cbn [elems]; [eauto|].
    inversion Ac; subst. inversion Dk; subst. inversion Ft; subst.
    match goal with H : accepted ds x |- _ => rename H into A end.
    destruct (A f inner (IIndex lid i (wnullable inner) :: lp) b) as (b1 & v & E & Er); [assumption..|].
    rewrite E. destruct (IH (S i) b1) as (b2 & vs & E2 & Er2); [assumption..|]. rewrite E2.
    eexists _, _. split; [reflexivity|congruence].
  Qed.

  Lemma num_accept : forall A (conv : json -> option A) ty f lp,
    (forall j o, reads round_f64 ty j o -> (forall l ok, j <> JList l ok) -> exists x, conv j = Some x) ->
    ty <> TUnknown ->
    forall l i b, Forall (fits (WNamed true) (SScalar ty)) l ->
    exists xs, num_elems pid pp conv f lp l true i b = (b, Some (xs, false)).
  Proof.
    intros A conv ty f lp Cv Nu l. induction l as [|x l IH]; intros i b Ft; cbn [num_elems]; [eauto|].
    inversion Ft as [|? ? Fx Fl]; subst. inversion Fx; subst; [discriminate|].
    match goal with H : reads _ _ _ _ |- _ => rename H into R end.
    assert (N1 : forall l ok, x <> JList l ok) by (intros ? ? ->; inversion R; subst; congruence).
    assert (N2 : forall l ok, x <> JMap l ok) by (intros ? ? ->; inversion R; subst; congruence).
    destruct (Cv x _ R N1) as (a & Ca).
    assert (E : deser_num pp conv f x (INum pid i :: lp) b = (b, Some (Some a))).
    { destruct x; cbn [deser_num]; try (rewrite Ca; reflexivity).
      - exfalso. eapply N1. reflexivity.
      - exfalso. eapply N2. reflexivity.
      - exfalso. inversion R; subst. match goal with H : same_json JBad _ |- _ => inversion H end. }
    rewrite E. destruct (IH (S i) b Fl) as (xs & Ex). rewrite Ex. eauto.
  Qed.

  Lemma conv_int_reads : forall j o, reads round_f64 TInt j o -> (forall l ok, j <> JList l ok) -> exists x, conv_int j = Some x.
  Proof.
    intros j o R _. inversion R; subst; cbn [conv_int].
    - assert (X : int_in_range z = true) by (unfold int_in_range; apply andb_true_iff; split; apply Z.leb_le; lia).
      rewrite X. eauto.
    - cbn [float_to_int]. assert (X : (z <? 2147483647)%Z = true) by (apply Z.ltb_lt; lia). rewrite X. eauto.
    - cbn [float_to_int]. assert (X : (z <? 2147483647)%Z = true) by (apply Z.ltb_lt; lia). rewrite X. eauto.
  Qed.

  Lemma conv_float_reads : forall j o, reads round_f64 TFloat j o -> (forall l ok, j <> JList l ok) ->
    exists x, conv_float round_f64 j = Some x.
  Proof. intros j o R _. inversion R; subst; cbn [conv_float]; eauto. Qed.

  Lemma list_accepts : forall j f r inner lp b, wf_shape (f_shape f) -> distinct_keys j ->
    (forall l ok, j = JList l ok -> Forall (accepted deser) l) ->
    fits (WList r inner) (f_shape f) j ->
    exists b' v,
      match f_shape f, inner with
      | SScalar TInt, WNamed true => num_list pid pp conv_int VInts f r j lp b
      | SScalar TFloat, WNamed true => num_list pid pp (conv_float round_f64) VFloats f r j lp b
      | _, _ =>
          let (p, lid) := reserve_list pid (b_part b) in
          let b0 := with_part b p in
          match j with
          | JList l ok =>
              match elems pp deser f inner lid lp l ok 0 b0 with
              | (b1, None) => (b1, None)
              | (b1, Some vs) => (with_part b1 (put_list (b_part b1) lid vs), Some (VList lid))
              end
          | _ => list_other pp f r j lp b0
          end
      end = (b', Some v) /\ b_errs b' = b_errs b.
  Proof.
    intros j f r inner lp b Wf Dk Ac Ft.
    assert (General : exists b' v,
          (let (p, lid) := reserve_list pid (b_part b) in
          let b0 := with_part b p in
          match j with
          | JList l ok =>
              match elems pp deser f inner lid lp l ok 0 b0 with
              | (b1, None) => (b1, None)
              | (b1, Some vs) => (with_part b1 (put_list (b_part b1) lid vs), Some (VList lid))
              end
          | _ => list_other pp f r j lp b0
          end) = (b', Some v) /\ b_errs b' = b_errs b).
    { cbn [reserve_list]. cbv zeta. inversion Ft; subst.
      - cbn [list_other]. match goal with H : wrequired _ = false |- _ => cbn in H; rewrite H end.
        cbn. eexists _, _. split; reflexivity.
      - inversion Dk; subst.
        destruct (elems_accept deser f inner (pid, List.length (p_lists (b_part b))) lp l 0
          (with_part b (with_lists (b_part b) (p_lists (b_part b) ++ [[]])))) as (b1 & vs & E & Er);
          [assumption|apply (Ac l true); reflexivity|assumption..|].
        rewrite E. eexists _, _. split; [reflexivity|exact Er]. }
    destruct (f_shape f) as [ty|vs|c|poss fb] eqn:Sh; try exact General.
    destruct inner as [[|]|]; destruct ty; try exact General.
    - inversion Ft; subst.
      + cbn [num_list list_other]. match goal with H : wrequired _ = false |- _ => cbn in H; rewrite H end. cbn. eauto.
      + cbn [num_list]. destruct (num_accept fl (conv_float round_f64) TFloat f lp conv_float_reads ltac:(discriminate) l 0 b) as (xs & E); [assumption|].
        rewrite E. eauto.
    - inversion Ft; subst.
      + cbn [num_list list_other]. match goal with H : wrequired _ = false |- _ => cbn in H; rewrite H end. cbn. eauto.
      + cbn [num_list]. destruct (num_accept Z conv_int TInt f lp conv_int_reads ltac:(discriminate) l 0 b) as (xs & E); [assumption|].
        rewrite E. eauto.
  Qed.

  Lemma then_ingest : forall f r c oid lp b b1 om,
    (exists b2 d acc, om = (b2, Some (OFSome d acc)) /\ b_errs b2 = b_errs b1) -> b_errs b1 = b_errs b ->
    exists b' v, match om with
                 | (b2, None) => (b2, None)
                 | (b2, Some x) => ingest_object f r c oid x lp b2
                 end = (b', Some v) /\ b_errs b' = b_errs b.
  Proof.
    intros f r c oid lp b b1 om (b2 & d & acc & -> & E2) E1.
    destruct (ingest_accepts f r c oid d acc lp b2) as (b' & v & E & Er). exists b', v. split; [exact E|congruence].
  Qed.

  Lemma fits_obj_readable : forall c entries, fits_obj c entries -> forall k j, In (k, j) entries -> exists o, same_json j o.
  Proof. intros c entries H. inversion H; subst. assumption. Qed.

  Lemma poly_shape_accepts : forall f r c d entries lp b, wf_concrete c -> NoDup (map fst entries) ->
    Forall distinct_keys (map snd entries) -> Forall (accepted deser) (map snd entries) -> fits_obj c entries ->
    exists b' v,
      (let (p, oid) := reserve_obj pid (b_part b) in
       let b0 := with_part b p in
       match object_map deser oid c (Some d) entries true true lp b0 with
       | (b1, None) => (b1, None)
       | (b1, Some x) => ingest_object f r c oid x lp b1
       end) = (b', Some v) /\ b_errs b' = b_errs b.
  Proof.
    intros f r c d entries lp b Wf ND Dk Ac Ft. cbn [reserve_obj]. cbv zeta. eapply then_ingest.
    - apply object_accepts; try assumption. exact Logic.I.
    - reflexivity.
  Qed.

  Lemma deser_accepts_step : forall j,
    (forall l ok, j = JList l ok -> Forall (accepted deser) l) ->
    (forall l ok, j = JMap l ok -> Forall (accepted deser) (map snd l)) ->
    accepted deser j.
  Proof.
    intros j RL RM f w lp b Wf Dk Ft.
    assert (Q : deser j f w lp b = bubble pp f lp
      match w with
      | WList required inner =>
          match f_shape f, inner with
          | SScalar TInt, WNamed true => num_list pid pp conv_int VInts f required j lp b
          | SScalar TFloat, WNamed true => num_list pid pp (conv_float round_f64) VFloats f required j lp b
          | _, _ =>
              let (p, lid) := reserve_list pid (b_part b) in
              let b0 := with_part b p in
              match j with
              | JList l ok =>
                  match elems pp deser f inner lid lp l ok 0 b0 with
                  | (b1, None) => (b1, None)
                  | (b1, Some vs) => (with_part b1 (put_list (b_part b1) lid vs), Some (VList lid))
                  end
              | _ => list_other pp f required j lp b0
              end
          end
      | WNamed required =>
          match f_shape f with
          | SScalar ty => deser_scalar round_f64 pp ty f required j lp b
          | SEnum values => deser_enum pid pp values f required j lp b
          | SConcrete c =>
              let (p, oid) := reserve_obj pid (b_part b) in
              let b0 := with_part b p in
              match j with
              | JMap entries ok =>
                  match object_map deser oid c None entries ok false lp b0 with
                  | (b1, None) => (b1, None)
                  | (b1, Some r) => ingest_object f required c oid r lp b1
                  end
              | _ =>
                  match object_other j with
                  | None => (b0, None)
                  | Some r => ingest_object f required c oid r lp b0
                  end
              end
          | SPoly poss fallback =>
              match j with
              | JMap entries ok =>
                  match poly_select obj_by_name possible poss fallback entries ok with
                  | PFail => (b, None)
                  | PUnexpected => unexpected pp f required lp b
                  | PEmpty d =>
                      let (p, oid) := push_obj pid (b_part b) (MkObj (Some d) []) in
                      (with_part b p, Some (VObj oid))
                  | PShape c d =>
                      let (p, oid) := reserve_obj pid (b_part b) in
                      let b0 := with_part b p in
                      match object_map deser oid c (Some d) entries ok true lp b0 with
                      | (b1, None) => (b1, None)
                      | (b1, Some r) => ingest_object f required c oid r lp b1
                      end
                  end
              | JNull => null_or_unexpected pp f required lp b
              | JBad => (b, None)
              | JList _ _ => if readable j then unexpected pp f required lp b else (b, None)
              | _ => unexpected pp f required lp b
              end
          end
      end) by (destruct j; reflexivity).
    rewrite Q. clear Q.
    match goal with |- context [bubble _ _ _ ?m] =>
      cut (exists b' v, m = (b', Some v) /\ b_errs b' = b_errs b);
      [intros (b' & v & E & Er); exists b', v; split; [rewrite E; reflexivity|exact Er]|] end.
    destruct w as [r|r inner]; [|apply list_accepts; assumption].
    destruct (f_shape f) as [ty|vs|c|poss fb] eqn:Sh.
    - inversion Ft; subst.
      + cbn [deser_scalar]. match goal with H : wrequired _ = false |- _ => cbn in H; subst r end. cbn. eauto.
      + destruct (scalar_accepts ty f r j o lp b) as (v & E); [assumption|]. eauto.
    - inversion Ft; subst.
      + cbn [deser_enum]. match goal with H : wrequired _ = false |- _ => cbn in H; subst r end. cbn. eauto.
      + inversion Wf; subst. apply enum_accepts; assumption.
    - cbn [reserve_obj]. cbv zeta. inversion Ft; subst.
      + match goal with H : wrequired _ = false |- _ => cbn in H; subst r end. cbn. eexists _, _. split; reflexivity.
      + inversion Wf; subst. inversion Dk; subst. eapply then_ingest with (b1 := with_part b (with_objs (b_part b) (p_objs (b_part b) ++ [MkObj None []]))); [|reflexivity].
        match goal with H : typed _ _ _ _ _ |- _ => rename H into Ty end.
        apply object_accepts; try assumption; [eapply RM; reflexivity|].
        unfold typed in Ty. cbn [effective]. destruct (c_ident c) as [o|i|]; [exact Logic.I| |exact Ty].
        destruct Ty as [T1 T2]. split; [reflexivity|]. eauto.
    - inversion Ft; subst.
      + match goal with H : wrequired _ = false |- _ => cbn in H; subst r end. cbn. eauto.
      + inversion Wf; subst. inversion Dk; subst.
        match goal with H : fits_obj _ _ |- _ => rename H into Fo end.
        destruct (scan_accepts entries s) as (rest & Sc & Rr);
          [assumption|eapply fits_obj_readable; eassumption|assumption|].
        unfold poly_select. rewrite Sc. match goal with H : obj_by_name s = Some _ |- _ => rewrite H end.
        rewrite (find_shape_nodup d c poss) by assumption.
        apply poly_shape_accepts; try assumption; [eauto|eapply RM; reflexivity].
      + inversion Wf; subst. inversion Dk; subst.
        match goal with H : fits_obj _ _ |- _ => rename H into Fo end.
        destruct (scan_accepts entries s) as (rest & Sc & Rr);
          [assumption|eapply fits_obj_readable; eassumption|assumption|].
        unfold poly_select. rewrite Sc. match goal with H : obj_by_name s = Some _ |- _ => rewrite H end.
        rewrite (find_shape_not d poss) by assumption.
        assert (X : match c_ident c with
                    | ITypename i => if existsb (Nat.eqb d) (possible i) then PShape c d
                                     else if readable_rest rest true then PUnexpected else PFail
                    | _ => PShape c d
                    end = PShape c d).
        { destruct (c_ident c) as [o|i|]; try reflexivity.
          assert (Y : existsb (Nat.eqb d) (possible i) = true); [|rewrite Y; reflexivity].
          apply existsb_exists. exists d. split; [assumption|apply Nat.eqb_refl]. }
        rewrite X. apply poly_shape_accepts; try assumption; [eauto|eapply RM; reflexivity].
      + inversion Wf; subst. inversion Dk; subst.
        destruct (scan_accepts entries s) as (rest & Sc & Rr); [assumption..|].
        unfold poly_select. rewrite Sc. match goal with H : obj_by_name s = Some _ |- _ => rewrite H end.
        rewrite (find_shape_not d poss) by assumption. rewrite Rr. cbn [push_obj]. eexists _, _. split; reflexivity.
  Qed.

  (** JSON that fits the shape is read without any error. *)
  Theorem deser_accepts : forall j, accepted deser j.
  Proof.
    induction j as [| | | | |l ok IH|l ok IH|] using json_ind2; apply deser_accepts_step; intros l' ok' E; try discriminate.
    - inversion E; subst. exact IH.
    - inversion E; subst. exact IH.
  Qed.
End Schema.
