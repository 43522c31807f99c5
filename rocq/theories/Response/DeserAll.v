(** Proofs about deserialisation: every value. *)

From Coq Require Import List Arith ZArith String Bool Sorted Permutation Lia.
From Verif Require Import Response.Model Response.Deserialize Response.Spec Response.Conform.
From Verif Require Import Response.Merge Response.Nulls Response.DeserBase Response.DeserList Response.DeserVisit Response.DeserObj.
Import ListNotations.
Local Open Scope nat_scope.

Section Schema.
  Variable obj_name : nat -> string.
  Variable obj_by_name : string -> option nat.
  Variable obj_inaccessible : nat -> bool.
  Variable possible : nat -> list nat.
  Variable round_f64 : Z -> Z.
  Variable pid : nat.
  Variable pp : list vid.

  Notation dres := (builder * option val)%type.
  Notation conf := (conf obj_name obj_inaccessible possible).
  Notation shows := (shows obj_name obj_by_name possible round_f64).
  Notation seen := (seen obj_name obj_by_name obj_inaccessible possible round_f64 pid pp).
  Notation fine := (fine obj_name obj_by_name obj_inaccessible possible round_f64 pid pp).
  Notation reads_fine := (reads_fine obj_name obj_by_name obj_inaccessible possible round_f64 pid pp).
  Notation ready := (ready pid pp).
  Notation grow := (grow pid).
  Notation onpath := (onpath pp).
  Notation covered := (covered pp).
  Notation fresh := (fresh pid).
  Notation below := (below pid).
  Notation old := (old pid).
  Notation allvalid := (allvalid pid).
  Notation carry := (carry pid).
  Notation agreeN := (agreeN pid).
  Notation within := (within pid).
  Notation calm := (calm obj_inaccessible).
  Notation propagate := (propagate pp).
  Notation error_at := (error_at pp).
  Notation visit := (visit obj_name possible).

  Notation object_map := (object_map obj_name possible pid pp).
  Notation onobj := (onobj pp).
  Notation conf_obj := (conf_obj obj_name obj_inaccessible possible).
  Notation shows_obj := (shows_obj obj_name obj_by_name possible round_f64).
  Notation ingest_object := (ingest_object obj_inaccessible pp).
  Notation deser := (deser obj_name obj_by_name obj_inaccessible possible round_f64 pid pp).
  Notation of_type := (of_type obj_name possible).
  Notation ents := (ents obj_name).
  Notation e_tree := (e_tree).

  (** A step before. *)
  Lemma fine_after : forall f w j lp b b1 b' v, ready lp b ->
    grow (onpath lp) b b1 -> allvalid b b1 -> (calm (f_shape f) -> quiet b b1) ->
    fine f w j lp b1 b' v -> fine f w j lp b b' v.
  Proof.
    intros f w j lp b b1 b' v Rd G1 V1 Q1 (G & V & Q & t & Sn).
    assert (OB : forall u, onpath lp u -> below (b_part b) u) by (intros u O; exact (ready_path _ _ _ _ _ Rd O)).
    split; [eapply grow_trans; eassumption|].
    split; [apply (allvalid_trans pid _ _ b b1 b' G1 G OB (proj2 Rd) OB V1 V)|].
    split; [intros C; eapply quiet_trans; [exact G1|exact G|auto|auto]|].
    exists t. eapply seen_carry; [|exact Sn]. eapply carry_right; eassumption.
  Qed.

  (** An object that was reserved and put. *)
  Section Put.
    Variable f : field.
    Variable r : bool.
    Variable c : concrete.
    Variable known : option nat.
    Variable entries : list (nat * json).
    Variable lp : list vid.
    Variable b : builder.
    Hypothesis Wf : wf_concrete c.
    Hypothesis Rd : ready lp b.
    Let oid : id := (pid, List.length (p_objs (b_part b))).
    Let b0 : builder := with_part b (fst (reserve_obj pid (b_part b))).

    Lemma put_start : ext (b_part b) (b_part b0) /\ grow (onpath lp) b b0 /\ ready lp b0 /\
      (forall k nb, below (b_part b0) (IField oid k nb)) /\
      List.length (p_objs (b_part b0)) = S (List.length (p_objs (b_part b))).
    Proof.
      assert (E0 : ext (b_part b) (b_part b0)) by (apply ext_objs).
      assert (G0 : grow (onpath lp) b b0) by (apply grow_part; exact E0).
      split; [exact E0|]. split; [exact G0|]. split.
      - eapply ready_grow; [exact Rd| |exact G0]. intros u O. exact (ready_path _ _ _ _ _ Rd O).
      - split; [intros k nb; cbn; intros _; rewrite app_length; cbn; lia|]. cbn. rewrite app_length. cbn. lia.
    Qed.

    Lemma oid_fresh : forall b' k nb, ext (b_part b0) (b_part b') -> fresh (b_part b) (b_part b') (IField oid k nb).
    Proof.
      intros b' k nb ((X & _) & _). cbn. split; [reflexivity|]. destruct put_start as (_ & _ & _ & _ & L).
      rewrite L in X. lia.
    Qed.

    (** Nulls which are not in what the fields added. *)
    Lemma oid_nulls : forall b1 b' M u, grow (onobj oid lp M) b0 b1 -> ext (b_part b0) (b_part b') ->
      In u (b_nulls b1) -> fresh (b_part b) (b_part b') u -> ~ fresh (b_part b0) (b_part b1) u ->
      exists it, In it M /\ u = onfield oid (i_f it) /\ vid_nullable u = true.
    Proof.
      intros b1 b' M u G E' I F NF. destruct (g_nulls _ _ _ _ G) as (n & N & Fn). rewrite N in I.
      apply in_app_iff in I. destruct I as [I|I].
      - exfalso. destruct Rd as [_ O]. unfold DeserBase.old in O. rewrite Forall_forall in O.
        eapply below_fresh; [|apply (O u I)|exact F]. repeat split; auto.
      - rewrite Forall_forall in Fn. destruct (Fn u I) as [Nu [[O|(it & Ii & Eu)]|Fr]]; [exfalso| |contradiction].
        + apply (below_fresh pid (b_part b) (b_part b) (b_part b') u); [repeat split; auto| |exact F].
          exact (ready_path _ _ _ _ _ Rd O).
        + exists it. auto.
    Qed.

    Lemma grow_from : forall b1 M, grow (onobj oid lp M) b0 b1 -> grow (onpath lp) b b1.
    Proof.
      intros b1 M G. destruct put_start as (E0 & G0 & _). eapply (grow_weaken pid (onobj oid lp M)).
      - intros u [O|(it & _ & ->)] _; [left; exact O|right]. apply oid_fresh. apply (g_ext _ _ _ _ G).
      - eapply grow_trans; [|exact G]. eapply grow_weaken; [|exact G0]. intros u O _. left. left. exact O.
    Qed.

    Lemma get_oid : forall b' ps, within (b_part b) (b_part b') ps -> ext (b_part b0) (b_part b') ->
      get_obj ps oid = nth_error (p_objs (b_part b')) (List.length (p_objs (b_part b))).
    Proof.
      intros b' ps (P & GP & W & _) E. unfold get_obj, oid. cbn [fst snd]. rewrite GP. apply W.
      destruct (oid_fresh b' (0, 0) true E) as [_ X]. exact X.
    Qed.

    Lemma valid_from : forall b1 b' M, grow (onobj oid lp M) b0 b1 -> allvalid b0 b1 ->
      carry b0 b1 b b' -> ext (b_part b0) (b_part b') -> ~ List.length (p_objs (b_part b')) < List.length (p_objs (b_part b1)) ->
      (forall u, In u (b_nulls b') -> fresh (b_part b) (b_part b') u -> In u (b_nulls b1)) ->
      (forall u, fresh (b_part b0) (b_part b') u -> fresh (b_part b0) (b_part b1) u) ->
      allvalid b b'.
    Proof.
      intros b1 b' M G V C E' _ Hn Hf ps W u I F. specialize (Hn u I F).
      destruct (fresh_split pid _ (b_part b0) _ u F) as [F'|F'].
      - assert (NF : ~ fresh (b_part b0) (b_part b1) u).
        { apply fresh_below in F'. eapply below_fresh; [|exact F']. repeat split; auto. }
        destruct (oid_nulls b1 b' M u G E' Hn F NF) as (it & _ & -> & _).
        cbn [onfield valid]. rewrite (get_oid _ _ W E').
        destruct (nth_error (p_objs (b_part b')) (List.length (p_objs (b_part b)))) eqn:X; [eauto|].
        apply nth_error_None in X. destruct (oid_fresh b' (0, 0) true E') as [_ Y]. cbn in Y. lia.
      - apply (V ps); [eapply carry_within; eassumption|exact Hn|apply Hf; exact F'].
    Qed.

    Hypothesis Dk : Forall distinct_keys (map snd entries).
    Hypothesis ND : NoDup (map fst entries).

    Lemma object_fine : forall ds ok skip b1 r0 b' v,
      Forall (reads_fine ds) (map snd entries) ->
      object_map ds oid c known entries ok skip lp b0 = (b1, Some r0) ->
      ingest_object f r c oid r0 lp b1 = (b', Some v) ->
      (forall d o kvs, of_type c entries known d -> (forall o, d = Some o -> obj_inaccessible o = false) ->
         (forall o', d = Some o' -> o = o') ->
         conf_obj o c kvs -> conf (WNamed r) (f_shape f) (OObj kvs)) ->
      (forall d o kvs, of_type c entries known d -> (forall o', d = Some o' -> o = o') ->
         shows_obj o c entries kvs -> shows (WNamed r) (f_shape f) (JMap entries true) (OObj kvs)) ->
      (calm (f_shape f) -> forall g, In g (c_fields c) -> calm (f_shape g)) ->
      fine f (WNamed r) (JMap entries ok) lp b b' v.
    Proof.
      intros ds ok skip b1 r0 b' v Rf E EI HC HS Hcalm.
      destruct put_start as (E0 & G0 & Rd0 & Ob & Lb0).
      destruct (object_map_spec obj_name obj_by_name obj_inaccessible possible round_f64 pid pp oid c lp entries b0 Wf Rd0
                  ds known ok skip b1 r0 ND Dk Rf Ob E) as (-> & V1 & Q1 & HR).
      destruct r0 as [|d acc|]; [contradiction| |].
      - destruct HR as (M & Ea & Om). pose proof Om as (Nm & Sm & Gm & Tm & Cm).
        cbn [Deserialize.ingest_object] in EI.
        set (b2 := with_part b1 (put_obj (b_part b1) oid (MkObj d (sort_fields acc)))) in *.
        (* what the rest changes *)
        assert (HB : b_part b' = b_part b2 /\ b_errs b' = b_errs b1 /\ b_updates b' = b_updates b1 /\
                     b_bub b' = b_bub b1 /\ (b_up b1 = true -> b_up b' = true) /\
                     (exists n, b_nulls b' = b_nulls b1 ++ n /\ Forall (fun u => vid_nullable u = true /\ onpath lp u) n) /\
                     (forall o, d = Some o -> reported f = true -> obj_inaccessible o = true -> covered lp b') /\
                     ((forall o, obj_inaccessible o = false) -> b_nulls b' = b_nulls b1 /\ b_up b' = b_up b1) /\
                     v = VObj oid).
        { destruct d as [o|].
          - destruct (prop_if pid pp lp (reported f && obj_inaccessible o) b2) as (Gp & Pp & Ep & Cp). cbv zeta in Gp, Pp, Ep, Cp.
            set (b3 := if reported f && obj_inaccessible o then propagate lp b2 else b2) in *.
            assert (HB3 : b_part b3 = b_part b2 /\ b_errs b3 = b_errs b1 /\ b_updates b3 = b_updates b1 /\
                     b_bub b3 = b_bub b1 /\ (b_up b1 = true -> b_up b3 = true) /\
                     (exists n, b_nulls b3 = b_nulls b1 ++ n /\ Forall (fun u => vid_nullable u = true /\ onpath lp u) n) /\
                     (forall o', Some o = Some o' -> reported f = true -> obj_inaccessible o' = true -> covered lp b3) /\
                     ((forall o, obj_inaccessible o = false) -> b_nulls b3 = b_nulls b1 /\ b_up b3 = b_up b1)).
            { split; [exact Pp|]. split; [exact Ep|]. split; [apply (g_upd _ _ _ _ Gp)|].
              split; [apply (g_bub _ _ _ _ Gp)|]. split; [apply (g_up _ _ _ _ Gp)|]. split; [|split].
              - destruct (g_nulls _ _ _ _ Gp) as (n & N & Fn). exists n. split; [exact N|].
                eapply Forall_impl; [|exact Fn]. cbv beta. intros u [Nu [O|Fr]]; split; auto.
                exfalso. rewrite Pp in Fr. exact (fresh_same _ _ _ Fr).
              - intros o' X R A. inversion X; subst o'. apply Cp. rewrite R, A. reflexivity.
              - intros NA. unfold b3. rewrite NA, andb_false_r. split; reflexivity. }
            destruct HB3 as (H1 & H2 & H3 & H4 & H5 & H6 & H7 & H8).
            destruct (c_set c) as [s|]; inversion EI; subst b' v; clear EI;
              (split; [exact H1|]; split; [exact H2|]; split; [exact H3|]; split; [exact H4|]; split; [exact H5|];
               split; [exact H6|]; split; [exact H7|]; split; [exact H8|reflexivity]).
          - inversion EI; subst b' v. repeat (split; [reflexivity|]). split; [auto|].
            split; [exists []; rewrite app_nil_r; auto|]. split; [discriminate|]. split; [auto|reflexivity]. }
        destruct HB as (HP & HE & HU & HBb & Hup & (n & Hn & Fn) & Hin & Hq & ->). clear EI.
        assert (S12 : shorter (b_part b1) (b_part b')).
        { rewrite HP. unfold shorter, b2, put_obj. cbn. split; [rewrite length_set_nth; auto|]. split; auto. }
        assert (X0 : ext (b_part b0) (b_part b1)) by (apply (g_ext _ _ _ _ Gm)).
        assert (L1 : List.length (p_objs (b_part b)) < List.length (p_objs (b_part b1))).
        { destruct X0 as ((X & _) & _). rewrite Lb0 in X. lia. }
        assert (E' : ext (b_part b) (b_part b')).
        { destruct (ext_trans _ _ _ E0 X0) as (X1 & X2 & X3). rewrite HP.
          split; [|split; [exact X2|exact X3]]. apply lext_set; [exact X1|cbn; lia]. }
        assert (Sh0 : shorter (b_part b0) (b_part b')).
        { eapply shorter_trans; [apply ext_shorter; exact X0|exact S12]. }
        assert (OF : forall k nb, fresh (b_part b) (b_part b') (IField oid k nb)).
        { intros k nb. cbn. split; [reflexivity|]. destruct S12 as (X & _). lia. }
        assert (NB : forall u, In u (b_nulls b') -> fresh (b_part b) (b_part b') u -> In u (b_nulls b1)).
        { intros u I F. rewrite Hn in I. apply in_app_iff in I. destruct I as [I|I]; [exact I|exfalso].
          rewrite Forall_forall in Fn. destruct (Fn u I) as [_ O].
          apply (below_fresh pid (b_part b) (b_part b) (b_part b') u); [repeat split; auto| |exact F].
          exact (ready_path _ _ _ _ _ Rd O). }
        assert (C : carry b0 b1 b b').
        { constructor.
          - apply ext_shorter. exact E0.
          - exact S12.
          - rewrite HP. split; [|split]; intros m Hm; try reflexivity. unfold b2, put_obj. cbn. rewrite nth_set_nth.
            rewrite Lb0 in Hm.
            destruct (m =? List.length (p_objs (b_part b))) eqn:X; [apply Nat.eqb_eq in X; lia|reflexivity].
          - intros u F I. apply NB; [exact I|]. eapply fresh_widen; [apply ext_shorter; exact E0|exact S12|exact F].
          - rewrite Hn. apply incl_appl. apply incl_refl.
          - exact Hup.
          - exists []. rewrite app_nil_r. reflexivity.
          - apply (g_errs _ _ _ _ Gm).
          - exists []. rewrite app_nil_r. exact HE. }
        assert (F01 : forall u, fresh (b_part b0) (b_part b') u -> fresh (b_part b0) (b_part b1) u).
        { intros u F. rewrite HP in F. destruct u; cbn in *; rewrite ?length_set_nth in F; exact F. }
        assert (GetO : forall ps, within (b_part b) (b_part b') ps -> get_obj ps oid = Some (MkObj d (sort_fields acc))).
        { intros ps (P & GP & W & _). unfold get_obj, oid. cbn [fst snd]. rewrite GP.
          rewrite W by (destruct (OF (0, 0) true) as [_ Y]; exact Y).
          rewrite HP. unfold b2, put_obj, oid. cbn. rewrite nth_set_nth, Nat.eqb_refl.
          destruct (nth_error (p_objs (b_part b1)) (List.length (p_objs (b_part b)))) eqn:X; [reflexivity|].
          apply nth_error_None in X. lia. }
        (* nulls on the object *)
        assert (OidN : forall k nb, In (IField oid k nb) (b_nulls b') ->
                  exists g, In g (map i_f M) /\ k = f_key g /\ wnullable (f_wrap g) = true).
        { intros k nb I. specialize (NB _ I (OF k nb)).
          destruct (g_nulls _ _ _ _ Gm) as (n0 & N0 & Fn0). rewrite N0 in NB.
          apply in_app_iff in NB. destruct NB as [NB|NB].
          - exfalso. destruct Rd as [_ O]. unfold DeserBase.old in O. rewrite Forall_forall in O.
            eapply below_fresh; [|apply (O _ NB)|apply (OF k nb)]. repeat split; auto.
          - rewrite Forall_forall in Fn0. destruct (Fn0 _ NB) as [Nu [[O|(it & Ii & Eu)]|Fr]].
            + exfalso. apply (below_fresh pid (b_part b) (b_part b) (b_part b') (IField oid k nb));
                [repeat split; auto|exact (ready_path _ _ _ _ _ Rd O)|apply OF].
            + unfold onfield in Eu. inversion Eu; subst k nb. exists (i_f it). split; [apply in_map; exact Ii|].
              split; [reflexivity|exact Nu].
            + exfalso. cbn [DeserBase.fresh oid fst snd] in Fr. rewrite Lb0 in Fr. lia. }
        split; [|split; [|split]].
        + constructor.
          * exact E'.
          * destruct (g_nulls _ _ _ _ Gm) as (n0 & N0 & Fn0). exists (n0 ++ n).
            split; [rewrite Hn, N0, app_assoc; reflexivity|]. apply Forall_app. rewrite Forall_forall in Fn0, Fn.
            split; apply Forall_forall; intros u I.
            -- destruct (Fn0 u I) as [Nu [[O|(it & _ & ->)]|Fr]]; split; auto; right; [apply OF|].
               eapply fresh_widen; [apply ext_shorter; exact E0|exact S12|exact Fr].
            -- destruct (Fn u I). auto.
          * intros X. apply Hup. apply (g_up _ _ _ _ Gm). exact X.
          * rewrite HE. apply (g_errs _ _ _ _ Gm).
          * rewrite HU. apply (g_upd _ _ _ _ Gm).
          * rewrite HBb. apply (g_bub _ _ _ _ Gm).
        + intros ps W u I F. specialize (NB u I F).
          destruct (fresh_split pid _ (b_part b0) _ u F) as [F'|F'].
          * assert (u_oid : exists k nb, u = IField oid k nb).
            { destruct u as [[p m] k nb|[p m] k nb|p m]; cbn in F'; [|lia|contradiction].
              rewrite app_length in F'. cbn in F'. exists k, nb. unfold oid. destruct F' as [-> F'].
              replace m with (List.length (p_objs (b_part b))) by lia. reflexivity. }
            destruct u_oid as (k & nb & ->). cbn [valid]. exists (MkObj d (sort_fields acc)). apply GetO. exact W.
          * apply (V1 ps); [eapply carry_within; eassumption|exact NB|apply F01; exact F'].
        + intros Cc X. destruct (Hq (proj1 Cc)) as [Y1 Y2]. rewrite HE in X.
          destruct (Q1 (Hcalm Cc) X) as [Z1 Z2].
          split; [rewrite Y1; exact Z1|rewrite Y2; exact Z2].
        + (* the tree *)
          assert (PE : exists E', sort_fields acc = map e_field E' /\ Permutation (ents c M d) E').
          { apply Permutation_map_inv. rewrite Ea. apply Permutation_sym. apply sort_perm. }
          destruct PE as (Es & Esort & PE).
          assert (Ic : incl (map i_f M) (c_fields c)) by (eapply slots_in; exact Sm).
          assert (InE : forall e, In e Es -> (exists it, In it M /\ e = of_item it) \/ exists t, e = of_typename obj_name d t).
          { intros e I. apply (Permutation_in _ (Permutation_sym PE)) in I. unfold DeserObj.ents in I.
            apply in_app_iff in I. destruct I as [I|I]; apply in_map_iff in I; destruct I as (x & <- & I); eauto. }
          assert (Hname : c_typenames c <> [] -> exists o, d = Some o).
          { intros X. unfold DeserObj.of_type in Tm. destruct (effective c known); [eauto| |destruct Tm; contradiction].
            destruct Tm as (o & -> & _). eauto. }
          exists (TObj oid d (map e_tree Es)).
          assert (Ord : ordered (map e_tree Es)).
          { unfold ordered. rewrite map_map. change (fun x => fst (e_tree x)) with e_key.
            pose proof (sort_ordered acc) as SO. unfold ordered in SO. rewrite Esort, map_map in SO.
            change (fun x => fst (e_field x)) with e_key in SO. apply SO. rewrite Ea, map_map.
            change (fun x => fst (e_field x)) with e_key. apply ents_keys; assumption. }
          constructor.
          * intros ps W. apply RObj with (fs := sort_fields acc); [apply GetO; exact W| |].
            -- rewrite Esort, !map_map. reflexivity.
            -- rewrite Esort, !map_map. cbn [e_field DeserObj.e_tree snd].
               assert (W1 : within (b_part b0) (b_part b1) ps) by (eapply carry_within; eassumption).
               assert (FR : forall e, In e Es -> rep ps (e_v e) (e_t e)).
               { intros e I. destruct (InE e I) as [(it & Ii & ->)|(t & ->)]; cbn [of_item of_typename e_v e_t].
                 - rewrite Forall_forall in Sm. eapply k_rep; [apply Sm; exact Ii|exact W1].
                 - constructor. reflexivity. }
               clear - FR. induction Es as [|e Es IH]; cbn [map]; constructor.
               ++ apply FR. left. reflexivity.
               ++ apply IH. intros x I. apply FR. right. exact I.
          * constructor; [exact Ord|]. rewrite map_map. cbn [DeserObj.e_tree snd]. apply Forall_forall. intros t I.
            apply in_map_iff in I. destruct I as (e & <- & I).
            destruct (InE e I) as [(it & Ii & ->)|(t & ->)]; cbn [of_item of_typename e_v e_t]; [|constructor].
            rewrite Forall_forall in Sm. eapply k_tidy. apply Sm. exact Ii.
          * intros N A. assert (A1 : agreeN b0 b1 N) by (eapply carry_agree; eassumption). constructor.
            -- intros k nb I. apply A in I; [|apply OF]. destruct (OidN k nb I) as (g & Ig & -> & _).
               rewrite map_map. change (fun x => fst (e_tree x)) with e_key.
               apply (Permutation_in _ (Permutation_map e_key PE)). unfold DeserObj.ents. rewrite map_app, map_map.
               apply in_or_app. left. apply in_map_iff in Ig. destruct Ig as (it & <- & Ii).
               apply in_map_iff. exists it. split; [reflexivity|exact Ii].
            -- rewrite map_map. cbn [DeserObj.e_tree snd]. apply Forall_forall. intros t I.
               apply in_map_iff in I. destruct I as (e & <- & I).
               destruct (InE e I) as [(it & Ii & ->)|(t & ->)]; cbn [of_item of_typename e_v e_t]; [|constructor].
               rewrite Forall_forall in Sm. eapply k_ok; [apply Sm; exact Ii|exact A1].
          * intros R. destruct (covered_dec pp lp b') as [Cv|NC]; [left; exact Cv|right]. intros N A.
            cbn [shown]. eapply HC; [exact Tm| | |].
            -- intros o X. destruct (obj_inaccessible o) eqn:Y; [|reflexivity]. exfalso. apply NC. eapply Hin; eassumption.
            -- instantiate (1 := match d with Some o => o | None => 0 end). intros o' X. rewrite X. reflexivity.
            -- eapply (conf_entries obj_name obj_by_name obj_inaccessible possible round_f64 pid pp oid c lp entries b0 Wf known b1 d _ M);
                 [exact Om| |exact PE| |eapply carry_agree; eassumption| |].
               ++ intros X. destruct (Hname X) as (o & ->). reflexivity.
               ++ intros X. apply NC. eapply carry_covered; eassumption.
               ++ intros k nb I. apply A in I; [|apply OF]. apply (OidN k nb I).
               ++ intros g Ig Wg Cv. apply covered_here in Cv; [|exact Wg].
                  apply hitf_spec. exists (wnullable (f_wrap g)). apply A; [apply OF|].
                  rewrite Hn. apply in_or_app. left. exact Cv.
          * intros R Cc X. cbn [show]. rewrite HE in X.
            eapply HS; [exact Tm| |].
            -- instantiate (1 := match d with Some o => o | None => 0 end). intros o' Y. rewrite Y. reflexivity.
            -- eapply (shows_entries obj_name obj_by_name obj_inaccessible possible round_f64 pid pp oid c lp entries b0 Wf known b1 d _ M);
                 [exact Om| |exact PE|exact (Hcalm Cc)|exact X].
               intros Y. destruct (Hname Y) as (o & ->). reflexivity.
      - destruct HR as (M & Gm). cbn [Deserialize.ingest_object] in EI.
        assert (X0 : ext (b_part b0) (b_part b1)) by (apply (g_ext _ _ _ _ Gm)).
        eapply fine_after; [exact Rd|eapply grow_from; exact Gm| | |].
        + eapply (valid_from b1 b1 M); [exact Gm|exact V1| |exact X0|lia|auto|auto].
          eapply (carry_right pid (onpath lp) (onobj oid lp M)); eassumption.
        + intros Cc. eapply quiet_trans; [exact G0|exact Gm| |exact (Q1 (Hcalm Cc))]. intros _. split; reflexivity.
        + eapply unexpected_fine; [|exact EI]. reflexivity.
    Qed.
  End Put.

  Lemma json_ind2 : forall P : json -> Prop,
    P JNull -> (forall x, P (JBool x)) -> (forall z, P (JInt z)) -> (forall x, P (JFloat x)) -> (forall s, P (JStr s)) ->
    (forall l ok, Forall P l -> P (JList l ok)) ->
    (forall l ok, Forall P (map snd l) -> P (JMap l ok)) -> P JBad -> forall j, P j.
  Proof.
    intros P Hn Hb Hi Hf Hs Hl Hm Hbad. fix IH 1.
    intros [|x|z|x|s|l ok|l ok|]; [exact Hn|apply Hb|apply Hi|apply Hf|apply Hs| | |exact Hbad].
    - apply Hl. induction l as [|x l IHl]; constructor; [apply IH|exact IHl].
    - apply Hm. induction l as [|[k x] l IHl]; cbn [map snd]; constructor; [apply IH|exact IHl].
  Qed.

  Lemma scan_name : forall entries ok s rest, scan entries ok = ScanName s rest -> In (typename_key, JStr s) entries.
  Proof.
    induction entries as [|[k v] r IH]; intros ok s rest E; cbn [scan] in E; [destruct ok; discriminate|].
    destruct (k =? typename_key) eqn:K.
    - apply Nat.eqb_eq in K. subst k. destruct v; try discriminate. inversion E; subst. left. reflexivity.
    - destruct (readable v); [|discriminate]. right. eapply IH. exact E.
  Qed.

  Lemma scan_ok : forall entries ok s rest, scan entries ok = ScanName s rest ->
    readable_rest rest ok = true -> ok = true.
  Proof. intros entries ok s rest _ H. unfold readable_rest in H. apply andb_true_iff in H. apply H. Qed.

  Lemma find_shape_in : forall d poss c, find_shape d poss = Some c -> In (d, c) poss.
  Proof.
    induction poss as [|[d' c'] r IH]; intros c E; cbn [find_shape] in E; [discriminate|].
    destruct (d' =? d) eqn:X; [|right; auto]. apply Nat.eqb_eq in X. inversion E; subst. left. reflexivity.
  Qed.

  Lemma find_shape_none : forall d poss, find_shape d poss = None -> forall c, ~ In (d, c) poss.
  Proof.
    induction poss as [|[d' c'] r IH]; intros E c I; cbn [find_shape] in E; [exact I|].
    destruct (d' =? d) eqn:X; [discriminate|]. destruct I as [I|I]; [|eapply IH; eassumption].
    inversion I; subst. rewrite Nat.eqb_refl in X. discriminate.
  Qed.

  (** An object without fields. *)
  Lemma empty_fine : forall f w j lp b d,
    (reported f = true -> conf w (f_shape f) (OObj [])) ->
    (reported f = true -> shows w (f_shape f) j (OObj [])) -> ready lp b ->
    fine f w j lp b (with_part b (fst (push_obj pid (b_part b) (MkObj d [])))) (VObj (pid, List.length (p_objs (b_part b)))).
  Proof.
    intros f w j lp b d HC HS Rd. set (b' := with_part b _).
    assert (E : ext (b_part b) (b_part b')) by apply ext_objs.
    split; [apply grow_part; exact E|]. split; [|split].
    - intros ps W u I F. exfalso. destruct Rd as [_ O]. unfold DeserBase.old in O. rewrite Forall_forall in O.
      eapply below_fresh; [|apply (O u I)|exact F]. repeat split; auto.
    - intros _ _. split; reflexivity.
    - exists (TObj (pid, List.length (p_objs (b_part b))) d []). constructor.
      + intros ps (P & GP & W & _). apply RObj with (fs := []); [|reflexivity|constructor].
        unfold get_obj. cbn [fst snd]. rewrite GP, W.
        * cbn. rewrite nth_error_app2 by lia. rewrite Nat.sub_diag. reflexivity.
        * cbn. rewrite app_length. cbn. lia.
      + constructor; [|constructor]. unfold ordered. constructor.
      + intros N A. constructor; [|constructor]. intros k nb I. exfalso.
        assert (F : fresh (b_part b) (b_part b') (IField (pid, List.length (p_objs (b_part b))) k nb)).
        { cbn. rewrite app_length. cbn. split; [reflexivity|lia]. }
        apply A in I; [|exact F]. destruct Rd as [_ O]. unfold DeserBase.old in O. rewrite Forall_forall in O.
        eapply below_fresh; [|apply (O _ I)|exact F]. repeat split; auto.
      + intros R. right. intros N _. cbn. auto.
      + intros R _ _. cbn. auto.
  Qed.

  Lemma conv_int_ok : forall j x, conv_int j = Some x ->
    conf (WNamed true) (SScalar TInt) (OInt x) /\ shows (WNamed true) (SScalar TInt) j (OInt x).
  Proof.
    intros j x E. destruct j; cbn [conv_int] in E; try discriminate.
    - destruct (int_in_range z) eqn:R; [|discriminate]. inversion E; subst. apply int_range in R.
      split; constructor; cbn; eauto. constructor. exact R.
    - apply (float_int_reads round_f64) in E. destruct E as [R Rd]. split; constructor; cbn; eauto.
  Qed.

  Lemma conv_float_ok : forall j x, conv_float round_f64 j = Some x ->
    conf (WNamed true) (SScalar TFloat) (OFloat x) /\ shows (WNamed true) (SScalar TFloat) j (OFloat x).
  Proof.
    intros j x E. destruct j; cbn [conv_float] in E; try discriminate; inversion E; subst;
      split; constructor; cbn; eauto; constructor.
  Qed.

  Lemma bubble_some : forall f lp r b' v, bubble pp f lp r = (b', Some v) -> r = (b', Some v).
  Proof.
    intros f lp [b [x|]] b' v E; cbn [bubble] in E; [exact E|].
    destruct (b_bub b); [discriminate|]. destruct (reported f); discriminate.
  Qed.

  Lemma calm_concrete : forall c, calm (SConcrete c) -> forall g, In g (c_fields c) -> calm (f_shape g).
  Proof.
    intros c [H A] g I. split; [exact H|]. inversion A as [| |c' A'|]; subst. inversion A' as [c'' A'']; subst. auto.
  Qed.

  Lemma calm_poly : forall poss fb d c, calm (SPoly poss fb) -> In (d, c) poss \/ fb = Some c ->
    forall g, In g (c_fields c) -> calm (f_shape g).
  Proof.
    intros poss fb d c [H A] Ic g I. split; [exact H|]. inversion A as [| | |p x A1 A2]; subst.
    assert (A' : accessible_concrete c) by (destruct Ic; eauto). inversion A' as [c'' A'']; subst. auto.
  Qed.

  Lemma poly_fine : forall poss fb f r entries ok lp b b' v,
    f_shape f = SPoly poss fb -> wf_shape (f_shape f) -> distinct_keys (JMap entries ok) -> ready lp b ->
    Forall (reads_fine deser) (map snd entries) ->
    match poly_select obj_by_name possible poss fb entries ok with
    | PFail => (b, None)
    | PUnexpected => unexpected pp f r lp b
    | PEmpty d =>
        let (p, oid) := push_obj pid (b_part b) (MkObj (Some d) []) in
        (with_part b p, Some (VObj oid))
    | PShape c d =>
        let (p, oid) := reserve_obj pid (b_part b) in
        let b0 := with_part b p in
        match object_map deser oid c (Some d) entries ok true lp b0 with
        | (b1, None) => (b1, None)
        | (b1, Some r0) => ingest_object f r c oid r0 lp b1
        end
    end = (b', Some v) ->
    fine f (WNamed r) (JMap entries ok) lp b b' v.
  Proof.
    intros poss fb f r entries ok lp b b' v Sh Wf Dk Rd Rf E.
    assert (U : unexpected pp f r lp b = (b', Some v) -> fine f (WNamed r) (JMap entries ok) lp b b' v).
    { intros X. eapply unexpected_fine; [|exact X]. reflexivity. }
    rewrite Sh in Wf. inversion Wf as [| | |p x ND W1 W2]; subst p x.
    inversion Dk as [| | | | | |l k NDk Dv|]; subst l k.
    assert (Obj : forall c d s rest, scan entries ok = ScanName s rest -> obj_by_name s = Some d ->
      (In (d, c) poss \/ (forall c', ~ In (d, c') poss) /\ fb = Some c /\
                         match c_ident c with ITypename i => In d (possible i) | _ => True end) ->
      match object_map deser (pid, List.length (p_objs (b_part b))) c (Some d) entries ok true lp
              (with_part b (fst (reserve_obj pid (b_part b)))) with
      | (b1, None) => (b1, None)
      | (b1, Some r0) => ingest_object f r c (pid, List.length (p_objs (b_part b))) r0 lp b1
      end = (b', Some v) ->
      fine f (WNamed r) (JMap entries ok) lp b b' v).
    { intros c d s rest Sc By Ic X. apply scan_name in Sc.
      destruct (object_map deser (pid, List.length (p_objs (b_part b))) c (Some d) entries ok true lp
              (with_part b (fst (reserve_obj pid (b_part b))))) as [b1 [r0|]] eqn:Om; [|discriminate].
      assert (Wc : wf_concrete c) by (destruct Ic as [Ic|(_ & Ic & _)]; eauto).
      eapply (object_fine f r c (Some d)); [exact Wc|exact Rd|exact Dv|exact NDk|exact Rf|exact Om|exact X| | |].
      - intros d' o kvs T A Eo Co. cbn [DeserObj.of_type effective] in T. unfold DeserObj.of_type, effective in T.
        subst d'. specialize (Eo d eq_refl). subst o. specialize (A d eq_refl). rewrite Sh.
        destruct Ic as [Ic|(N & -> & M)]; [eapply CPoly; eassumption|eapply CFallback; eassumption].
      - intros d' o kvs T Eo So. unfold DeserObj.of_type, effective in T.
        subst d'. specialize (Eo d eq_refl). subst o. rewrite Sh.
        destruct Ic as [Ic|(N & -> & M)]; [eapply ShPoly; eassumption|eapply ShFallback; eassumption].
      - intros Ca. rewrite Sh in Ca. apply (calm_poly poss fb d c Ca). destruct Ic as [Ic|(_ & Ic & _)]; auto. }
    unfold poly_select in E. destruct (scan entries ok) as [| |s rest] eqn:Sc; [discriminate|auto|].
    destruct (obj_by_name s) as [d|] eqn:By; [|destruct (readable_rest rest ok); [auto|discriminate]].
    destruct (find_shape d poss) as [c|] eqn:Fs.
    - eapply Obj; [reflexivity|exact By|left; apply find_shape_in; exact Fs|exact E].
    - pose proof (find_shape_none _ _ Fs) as Nn. destruct fb as [c|].
      + assert (Fb : match c_ident c with ITypename i => In d (possible i) | _ => True end ->
          match object_map deser (pid, List.length (p_objs (b_part b))) c (Some d) entries ok true lp
                  (with_part b (fst (reserve_obj pid (b_part b)))) with
          | (b1, None) => (b1, None)
          | (b1, Some r0) => ingest_object f r c (pid, List.length (p_objs (b_part b))) r0 lp b1
          end = (b', Some v) -> fine f (WNamed r) (JMap entries ok) lp b b' v).
        { intros M X. eapply Obj; [reflexivity|exact By|right; split; [exact Nn|split; [reflexivity|exact M]]|exact X]. }
        destruct (c_ident c) as [k|i|] eqn:Ci; [apply Fb; [exact Logic.I|exact E]| |apply Fb; [exact Logic.I|exact E]].
        destruct (existsb (Nat.eqb d) (possible i)) eqn:X.
        * apply Fb; [|exact E]. apply existsb_exists in X. destruct X as (y & I & Y). apply Nat.eqb_eq in Y. subst. exact I.
        * destruct (readable_rest rest ok); [auto|discriminate].
      + destruct (readable_rest rest ok) eqn:Rr; [|discriminate].
        pose proof (scan_ok _ _ _ _ Sc Rr). subst ok. apply scan_name in Sc.
        cbn [push_obj] in E. inversion E; subst b' v.
        apply empty_fine; [| |exact Rd]; intros _; rewrite Sh.
        * eapply CEmpty. exact Nn.
        * eapply ShEmpty; eassumption.
  Qed.

  Lemma list_case : forall j f r inner lp b b' v,
    wf_shape (f_shape f) -> distinct_keys j -> ready lp b ->
    (forall l ok, j = JList l ok -> Forall (reads_fine deser) l) ->
    (let (p, lid) := reserve_list pid (b_part b) in
     let b0 := with_part b p in
     match j with
     | JList l ok =>
         match elems pp deser f inner lid lp l ok 0 b0 with
         | (b1, None) => (b1, None)
         | (b1, Some vs) => (with_part b1 (put_list (b_part b1) lid vs), Some (VList lid))
         end
     | _ => list_other pp f r j lp b0
     end) = (b', Some v) -> fine f (WList r inner) j lp b b' v.
  Proof.
    intros j f r inner lp b b' v Wf Dk Rd Rf E. cbn [reserve_list] in E.
    assert (O : (forall l ok, j <> JList l ok) ->
      list_other pp f r j lp (with_part b (fst (reserve_list pid (b_part b)))) = (b', Some v) ->
      fine f (WList r inner) j lp b b' v).
    { intros NL X. eapply fine_reserved; [exact Rd|apply ext_lists|].
      eapply list_other_fine; [reflexivity|exact NL|exact X]. }
    destruct j as [|x|z|x|s|l ok|l ok|]; try (apply O; [intros ? ? ?; discriminate|exact E]).
    destruct (elems pp deser f inner (pid, List.length (p_lists (b_part b))) lp l ok 0
                (with_part b (with_lists (b_part b) (p_lists (b_part b) ++ [[]])))) as [b1 [vs|]] eqn:El; [|discriminate].
    inversion E; subst b' v. inversion Dk; subst.
    eapply (list_fine obj_name obj_by_name obj_inaccessible possible round_f64 pid pp deser); eauto.
  Qed.

  Lemma deser_step : forall j,
    (forall l ok, j = JList l ok -> Forall (reads_fine deser) l) ->
    (forall l ok, j = JMap l ok -> Forall (reads_fine deser) (map snd l)) ->
    reads_fine deser j.
  Proof.
    intros j RL RM f w lp b b' v Wf Dk Rd E.
    assert (Q : deser j f w lp b = bubble pp f lp
      match w with
      | WList required inner =>
          match f_shape f, inner with
          | SScalar TInt, WNamed true => num_list pid pp conv_int VInts f required j lp b
          | SScalar TFloat, WNamed true => num_list pid pp (conv_float round_f64) VFloats f required j lp b
          | _, _ =>
              let (p, lid) := reserve_list pid (b_part b) in
              let b0 := with_part b p in
              match j with
              | JList l ok =>
                  match elems pp deser f inner lid lp l ok 0 b0 with
                  | (b1, None) => (b1, None)
                  | (b1, Some vs) => (with_part b1 (put_list (b_part b1) lid vs), Some (VList lid))
                  end
              | _ => list_other pp f required j lp b0
              end
          end
      | WNamed required =>
          match f_shape f with
          | SScalar ty => deser_scalar round_f64 pp ty f required j lp b
          | SEnum values => deser_enum pid pp values f required j lp b
          | SConcrete c =>
              let (p, oid) := reserve_obj pid (b_part b) in
              let b0 := with_part b p in
              match j with
              | JMap entries ok =>
                  match object_map deser oid c None entries ok false lp b0 with
                  | (b1, None) => (b1, None)
                  | (b1, Some r) => ingest_object f required c oid r lp b1
                  end
              | _ =>
                  match object_other j with
                  | None => (b0, None)
                  | Some r => ingest_object f required c oid r lp b0
                  end
              end
          | SPoly poss fallback =>
              match j with
              | JMap entries ok =>
                  match poly_select obj_by_name possible poss fallback entries ok with
                  | PFail => (b, None)
                  | PUnexpected => unexpected pp f required lp b
                  | PEmpty d =>
                      let (p, oid) := push_obj pid (b_part b) (MkObj (Some d) []) in
                      (with_part b p, Some (VObj oid))
                  | PShape c d =>
                      let (p, oid) := reserve_obj pid (b_part b) in
                      let b0 := with_part b p in
                      match object_map deser oid c (Some d) entries ok true lp b0 with
                      | (b1, None) => (b1, None)
                      | (b1, Some r) => ingest_object f required c oid r lp b1
                      end
                  end
              | JNull => null_or_unexpected pp f required lp b
              | JBad => (b, None)
              | JList _ _ => if readable j then unexpected pp f required lp b else (b, None)
              | _ => unexpected pp f required lp b
              end
          end
      end) by (destruct j; reflexivity).
    rewrite Q in E. clear Q. apply bubble_some in E. destruct w as [r|r inner].
    - destruct (f_shape f) as [ty|vs|c|poss fb] eqn:Sh.
      + eapply scalar_fine; eassumption.
      + eapply enum_fine; eassumption.
      + destruct j as [|x|z|x|s|l ok|l ok|].
        all: try (eapply fine_reserved; [exact Rd|apply ext_objs|];
                  eapply unexpected_fine; [reflexivity|exact E]).
        * eapply fine_reserved; [exact Rd|apply ext_objs|]. eapply null_fine; [reflexivity|exact E].
        * cbn [object_other] in E. destruct (readable (JList l ok)); [|discriminate].
          eapply fine_reserved; [exact Rd|apply ext_objs|]. eapply unexpected_fine; [reflexivity|exact E].
        * cbn [reserve_obj push_obj] in E.
          change (with_objs (b_part b) (p_objs (b_part b) ++ [MkObj None []])) with (fst (reserve_obj pid (b_part b))) in E.
          destruct (object_map deser (pid, List.length (p_objs (b_part b))) c None l ok false lp
              (with_part b (fst (reserve_obj pid (b_part b))))) as [b1 [r0|]] eqn:Om; [|discriminate].
          inversion Wf as [| |c' Wc|]; subst c'. inversion Dk as [| | | | | |l' k NDk Dv|]; subst l' k.
          eapply (object_fine f r c None); [exact Wc|exact Rd|exact Dv|exact NDk|eapply RM; reflexivity|exact Om|exact E| | |].
          -- intros d o kvs T A Eo Co. rewrite Sh. eapply CObj; [|exact Co].
             unfold DeserObj.of_type, effective in T. unfold right_type. destruct (c_ident c).
             ++ subst d. specialize (Eo _ eq_refl). subst o. auto.
             ++ destruct T as (o' & -> & I & _). specialize (Eo _ eq_refl). subst o. auto.
             ++ apply T.
          -- intros d o kvs T Eo So. rewrite Sh. eapply ShObj; [|exact So].
             unfold DeserObj.of_type, effective in T. unfold typed. destruct (c_ident c).
             ++ subst d. specialize (Eo _ eq_refl). exact Eo.
             ++ destruct T as (o' & -> & I & J). specialize (Eo _ eq_refl). subst o. auto.
             ++ apply T.
          -- rewrite Sh. apply calm_concrete.
        * discriminate.
      + destruct j as [|x|z|x|s|l ok|l ok|]; try (eapply unexpected_fine; [reflexivity|exact E]).
        * eapply null_fine; [reflexivity|exact E].
        * destruct (readable (JList l ok)); [|discriminate]. eapply unexpected_fine; [reflexivity|exact E].
        * eapply poly_fine; [exact Sh|rewrite Sh; exact Wf|exact Dk|exact Rd|eapply RM; reflexivity|exact E].
        * discriminate.
    - assert (G : (let (p, lid) := reserve_list pid (b_part b) in
         let b0 := with_part b p in
         match j with
         | JList l ok =>
             match elems pp deser f inner lid lp l ok 0 b0 with
             | (b1, None) => (b1, None)
             | (b1, Some vs) => (with_part b1 (put_list (b_part b1) lid vs), Some (VList lid))
             end
         | _ => list_other pp f r j lp b0
         end) = (b', Some v) -> fine f (WList r inner) j lp b b' v).
      { apply list_case; assumption. }
      destruct (f_shape f) as [ty|vs|c|poss fb] eqn:Sh; try (apply G; exact E).
      destruct ty; try (apply G; exact E); destruct inner as [[|]|]; try (apply G; exact E).
      + eapply (num_list_fine obj_name obj_by_name obj_inaccessible possible round_f64 pid pp fl
                  (conv_float round_f64) VFloats OFloat); [| |exact E].
        * intros xs. split; reflexivity.
        * rewrite Sh. apply conv_float_ok.
      + eapply (num_list_fine obj_name obj_by_name obj_inaccessible possible round_f64 pid pp Z
                  conv_int VInts OInt); [| |exact E].
        * intros xs. split; reflexivity.
        * rewrite Sh. apply conv_int_ok.
  Qed.

  (** Every value that is read is fine. *)
  Theorem deser_fine : forall j, reads_fine deser j.
  Proof.
    induction j as [| | | | |l ok IH|l ok IH|] using json_ind2; apply deser_step; intros ? ? X; inversion X; subst; exact IH.
  Qed.
End Schema.
