(** Proofs about deserialisation: objects. *)

From Coq Require Import List Arith ZArith String Bool Sorted Permutation Lia.
From Verif Require Import Response.Model Response.Deserialize Response.Spec Response.Conform.
From Verif Require Import Response.Merge Response.Nulls Response.DeserBase Response.DeserList Response.DeserVisit.
Import ListNotations.
Local Open Scope nat_scope.

Section Schema.
  Variable obj_name : nat -> string.
  Variable obj_by_name : string -> option nat.
  Variable obj_inaccessible : nat -> bool.
  Variable possible : nat -> list nat.
  Variable round_f64 : Z -> Z.
  Variable pid : nat.
  Variable pp : list vid.

  Notation dres := (builder * option val)%type.
  Notation conf := (conf obj_name obj_inaccessible possible).
  Notation shows := (shows obj_name obj_by_name possible round_f64).
  Notation seen := (seen obj_name obj_by_name obj_inaccessible possible round_f64 pid pp).
  Notation fine := (fine obj_name obj_by_name obj_inaccessible possible round_f64 pid pp).
  Notation reads_fine := (reads_fine obj_name obj_by_name obj_inaccessible possible round_f64 pid pp).
  Notation ready := (ready pid pp).
  Notation grow := (grow pid).
  Notation onpath := (onpath pp).
  Notation covered := (covered pp).
  Notation fresh := (fresh pid).
  Notation below := (below pid).
  Notation old := (old pid).
  Notation allvalid := (allvalid pid).
  Notation carry := (carry pid).
  Notation agreeN := (agreeN pid).
  Notation within := (within pid).
  Notation calm := (calm obj_inaccessible).
  Notation propagate := (propagate pp).
  Notation error_at := (error_at pp).
  Notation visit := (visit obj_name possible).

  Notation object_map := (object_map obj_name possible pid pp).
  Notation object_end := (object_end obj_name pid pp).
  Notation onobj := (onobj pp).
  Notation conf_obj := (conf_obj obj_name obj_inaccessible possible).
  Notation conf_slot := (conf_slot obj_name obj_inaccessible possible).
  Notation shows_obj := (shows_obj obj_name obj_by_name possible round_f64).
  Notation shows_slot := (shows_slot obj_name obj_by_name possible round_f64).

  (** ** The entries of an object *)

  Inductive origin := FromField (g : field) | FromTypename (t : rkey * bool).
  Record entry := MkEn { e_o : origin; e_v : val; e_t : tree }.

  Definition o_key (o : origin) : rkey := match o with FromField g => f_key g | FromTypename t => t_key t end.
  Definition o_slot (o : origin) : slot :=
    match o with FromField g => SlotField g | FromTypename t => SlotTypename (fst t) end.
  Definition e_key (e : entry) : rkey := o_key (e_o e).
  Definition e_field (e : entry) : rkey * val := (e_key e, e_v e).
  Definition e_tree (e : entry) : rkey * tree := (e_key e, e_t e).

  Definition of_item (it : item) : entry := MkEn (FromField (i_f it)) (i_v it) (i_t it).
  Definition name_of (d : option nat) : string := match d with Some o => obj_name o | None => EmptyString end.
  Definition of_typename (d : option nat) (t : rkey * bool) : entry :=
    MkEn (FromTypename t) (VStr (name_of d)) (TLeaf (VStr (name_of d))).

  Section Object.
    Variable oid : id.
    Variable c : concrete.
    Variable lp : list vid.
    Variable entries : list (nat * json).
    Variable b0 : builder.

    Hypothesis Wf : wf_concrete c.
    Hypothesis Rd : ready lp b0.

    Notation slotok := (slotok obj_name obj_by_name obj_inaccessible possible round_f64 pid pp oid c lp entries b0).
    Notation onfield := (onfield oid).

    Definition ents (M : list item) (d : option nat) : list entry :=
      map of_item M ++ map (of_typename d) (c_typenames c).

    (** The type of the object. *)
    Definition of_type (known d : option nat) : Prop :=
      match effective c known with
      | IKnown o => d = Some o
      | ITypename i => exists o, d = Some o /\ In o (possible i) /\ In (typename_key, JStr (obj_name o)) entries
      | IAnonymous => d = None /\ c_typenames c = []
      end.

    Lemma ents_keys : forall M d, NoDup (map i_f M) -> incl (map i_f M) (c_fields c) -> NoDup (map e_key (ents M d)).
    Proof.
      intros M d ND Ic. destruct (wf_inv c Wf) as (WK & _). unfold ents. rewrite map_app, !map_map.
      change (map (fun x => e_key (of_item x)) M) with (map (fun x => f_key (i_f x)) M).
      change (map (fun x => e_key (of_typename d x)) (c_typenames c)) with (map t_key (c_typenames c)).
      apply nodup_app.
      - rewrite <- (map_map i_f f_key). clear - WK ND Ic Wf. induction (map i_f M) as [|g l IH]; cbn [map]; [constructor|].
        apply NoDup_cons_iff in ND. destruct ND as [NI ND]. constructor.
        + intros I. apply in_map_iff in I. destruct I as (h & E & I). apply NI.
          rewrite (fields_key c Wf g h); auto. apply Ic. left. reflexivity. apply Ic. right. exact I.
        + apply IH; [exact ND|]. intros x I. apply Ic. right. exact I.
      - eapply nodup_app_r. exact WK.
      - intros k I J. apply in_map_iff in I. destruct I as (it & <- & I).
        eapply nodup_app_disjoint; [exact WK| |exact J]. apply in_map. apply Ic. apply in_map. exact I.
    Qed.

    Definition object_ok (known : option nat) (b' : builder) (d : option nat) (M : list item) : Prop :=
      NoDup (map i_f M) /\ Forall (slotok b') M /\ grow (onobj oid lp M) b0 b' /\ of_type known d /\
      ((covered lp b' /\ b_errs b' <> b_errs b0) \/
       forall g, In g (c_fields c) -> reported g = true -> In g (map i_f M)).

    Lemma onobj_incl : forall L M u, incl (map i_f L) (map i_f M) -> onobj oid lp L u -> onobj oid lp M u.
    Proof.
      intros L M u I [O|(it & Ii & ->)]; [left; exact O|right].
      assert (J : In (i_f it) (map i_f M)) by (apply I; apply in_map; exact Ii).
      apply in_map_iff in J. destruct J as (x & E & Ix). exists x. split; [exact Ix|rewrite E; reflexivity].
    Qed.

    Lemma object_map_spec : forall ds known ok skip b' r,
      NoDup (map fst entries) -> Forall distinct_keys (map snd entries) ->
      Forall (reads_fine ds) (map snd entries) ->
      (forall k nb, below (b_part b0) (IField oid k nb)) ->
      object_map ds oid c known entries ok skip lp b0 = (b', Some r) ->
      ok = true /\ allvalid b0 b' /\
      ((forall g, In g (c_fields c) -> calm (f_shape g)) -> quiet b0 b') /\
      match r with
      | OFNull => False
      | OFError => exists M, grow (onobj oid lp M) b0 b'
      | OFSome d acc => exists M, acc = map e_field (ents M d) /\ object_ok known b' d M
      end.
    Proof.
      intros ds known ok skip b' r ND Dk Rf Ob E. unfold Deserialize.object_map in E.
      destruct (wf_inv c Wf) as (WK & WE & WT & WM & WD & WS).
      set (detect := match effective c known with ITypename i => Some i | _ => None end) in *.
      destruct (visit ds oid (c_fields c) detect entries ok 0 skip None [] lp b0) as [b1 [[tn acc]|]] eqn:Ev; [|discriminate].
      destruct (visit_spec obj_name obj_by_name obj_inaccessible possible round_f64 pid pp ds oid (c_fields c) detect lp WS WE WT
                  entries ok 0 skip None [] b0 b1 tn acc ND Dk Rf Rd Ob) as (Ok & L & A & G1 & V1 & Q1 & F1 & N1 & C1 & D1);
        [intros g []|exact Ev|].
      cbn [app] in A. split; [exact Ok|].
      set (d := match effective c known with IKnown d => Some d | _ => tn end) in *.
      set (typed := match effective c known with ITypename _ => true | _ => false end) in *.
      destruct (object_end c typed d acc lp b1) as [b2 r2] eqn:Eo. inversion E; subst b2 r2; clear E.
      assert (OBb : forall M u, onobj oid lp M u -> below (b_part b0) u).
      { intros M u [O|(it & _ & ->)]; [exact (ready_path _ _ _ _ _ Rd O)|apply Ob]. }
      assert (OP : forall u, onpath lp u -> onobj oid lp L u) by (intros u O; left; exact O).
      assert (Early : b' = b1 -> r = OFError -> allvalid b0 b' /\
                ((forall g, In g (c_fields c) -> calm (f_shape g)) -> quiet b0 b') /\
                match r with
                | OFNull => False
                | OFError => exists M, grow (onobj oid lp M) b0 b'
                | OFSome d acc => exists M, acc = map e_field (ents M d) /\ object_ok known b' d M
                end).
      { intros -> ->. split; [exact V1|]. split; [exact Q1|]. exists L. exact G1. }
      unfold Deserialize.object_end in Eo.
      assert (Rest : (let (b1, acc1) := finalize pid pp c acc lp b1 in
                      match c_typenames c, d with
                      | [], _ => (b1, OFSome d acc1)
                      | _, None => (b1, OFError)
                      | ts, Some o => (b1, OFSome d (acc1 ++ map (fun t => (t_key t, VStr (obj_name o))) ts))
                      end) = (b', r) -> (typed = true -> d <> None) ->
                allvalid b0 b' /\
                ((forall g, In g (c_fields c) -> calm (f_shape g)) -> quiet b0 b') /\
                match r with
                | OFNull => False
                | OFError => exists M, grow (onobj oid lp M) b0 b'
                | OFSome d acc => exists M, acc = map e_field (ents M d) /\ object_ok known b' d M
                end).
      { intros Er Ht. destruct (finalize pid pp c acc lp b1) as [b2 acc1] eqn:Ef.
        rewrite A in Ef.
        destruct (finalize_spec obj_name obj_by_name obj_inaccessible possible round_f64 pid pp oid c lp entries b0 Wf Rd
                    (onobj oid lp L) b1 L b2 acc1 OP G1 F1 N1 C1 Ef) as (M & Am & Nm & Sm & Im & Gm & Fm & Qm & Cm).
        assert (b2 = b') as -> by (destruct (c_typenames c); [|destruct d]; congruence).
        assert (Gb : grow (onobj oid lp M) b0 b').
        { eapply grow_trans.
          - eapply grow_weaken; [|exact G1]. intros u O _. left. eapply onobj_incl; eassumption.
          - eapply grow_weaken; [|exact Gm]. intros u O _. left. left. exact O. }
        split; [|split].
        - eapply (allvalid_trans pid (onobj oid lp L) (onpath lp)); [exact G1|exact Gm| |exact (proj2 Rd)| |exact V1|].
          + intros u O. exact (ready_path _ _ _ _ _ Rd O).
          + apply OBb.
          + apply allvalid_none. intros u. apply flat_fresh. exact Fm.
        - intros Cc. eapply quiet_trans; [exact G1|exact Gm|exact (Q1 Cc)|exact Qm].
        - assert (Ty : c_typenames c = [] \/ d <> None -> of_type known d).
          { intros Hd. unfold of_type. unfold d, typed, detect in *. destruct (effective c known) as [o|i|].
            - reflexivity.
            - destruct tn as [o|]; [|exfalso; apply Ht; reflexivity]. exists o. split; [reflexivity|].
              destruct (D1 o eq_refl) as [X|(i' & X1 & X2 & X3)]; [discriminate|]. inversion X1; subst. auto.
            - assert (tn = None) as ->.
              { destruct tn as [o|]; [|reflexivity]. destruct (D1 o eq_refl) as [X|(i' & X1 & _)]; discriminate. }
              split; [reflexivity|]. destruct Hd; [assumption|congruence]. }
          assert (Ok' : of_type known d -> object_ok known b' d M).
          { intros T. split; [exact Nm|]. split; [exact Sm|]. split; [exact Gb|]. split; [exact T|].
            destruct Cm as [[Cv Lg]|Cm]; [left|right; exact Cm]. split; [exact Cv|].
            eapply errs_longer; [exact G1|exact Lg]. }
          destruct (c_typenames c) as [|t ts] eqn:Et.
          + inversion Er; subst r. exists M. split; [|apply Ok'; apply Ty; left; reflexivity].
            unfold ents. rewrite Et, app_nil_r, map_map. exact Am.
          + destruct d as [o|] eqn:Ed.
            * inversion Er; subst r. exists M. split; [|apply Ok'; apply Ty; right; discriminate].
              unfold ents. rewrite Et, map_app, !map_map, Am. reflexivity.
            * inversion Er; subst r. exists M. exact Gb. }
      destruct typed eqn:Et; [destruct d as [o|] eqn:Ed|].
      - apply Rest; [exact Eo|]. discriminate.
      - inversion Eo; subst. apply Early; reflexivity.
      - apply Rest; [|discriminate]. destruct d; exact Eo.
    Qed.

    (** ** What is shown of the entries *)

    Definition shown_fields (N : list vid) (l : list (rkey * tree)) : list (nat * out) :=
      flat_map (fun f => if fst (fst f) =? 0 then []
                         else [(snd (fst f), if hitf N oid (fst f) then ONull else shown N (snd f))]) l.

    Lemma reported_key : forall g, reported g = negb (fst (f_key g) =? 0).
    Proof.
      intros g. unfold reported, f_key, with_position_if. cbn [fst]. destruct (f_included g).
      - apply andb_true_r.
      - apply andb_false_r.
    Qed.

    Lemma wanted_key : forall t, wanted_typename t = negb (fst (t_key t) =? 0).
    Proof.
      intros t. unfold wanted_typename, t_key, with_position_if. cbn [fst]. destruct (snd t).
      - apply andb_true_r.
      - apply andb_false_r.
    Qed.

    Definition slots_of (E : list entry) : list slot :=
      flat_map (fun e => if fst (e_key e) =? 0 then [] else [o_slot (e_o e)]) E.

    Lemma slots_ents : forall M d E', NoDup (map i_f M) -> incl (map i_f M) (c_fields c) ->
      (forall g, In g (c_fields c) -> reported g = true -> In g (map i_f M)) ->
      Permutation (ents M d) E' -> Permutation (slots_of E') (slots c).
    Proof.
      intros M d E' ND Ic All P. unfold slots_of. rewrite <- (Permutation_flat_map _ P). unfold ents, slots.
      rewrite flat_map_app. apply Permutation_app.
      - assert (X : flat_map (fun e => if fst (e_key e) =? 0 then [] else [o_slot (e_o e)]) (map of_item M)
                    = map SlotField (filter reported (map i_f M))).
        { clear. induction M as [|it M IH]; [reflexivity|]. cbn [map flat_map filter].
          rewrite reported_key. cbn [of_item e_key e_o o_key o_slot].
          destruct (fst (f_key (i_f it)) =? 0); cbn [negb app map]; rewrite IH; reflexivity. }
        rewrite X. apply Permutation_map. apply NoDup_Permutation.
        + apply NoDup_filter. exact ND.
        + apply NoDup_filter. destruct (wf_inv c Wf) as (WK & _). apply nodup_app_l in WK.
          eapply NoDup_map_inv. exact WK.
        + intros g. rewrite !filter_In. split; intros [I R]; split; auto.
      - assert (X : flat_map (fun e => if fst (e_key e) =? 0 then [] else [o_slot (e_o e)]) (map (of_typename d) (c_typenames c))
                    = map (fun t => SlotTypename (fst t)) (filter wanted_typename (c_typenames c))).
        { clear. induction (c_typenames c) as [|t ts IH]; [reflexivity|]. cbn [map flat_map filter].
          rewrite wanted_key. cbn [of_typename e_key e_o o_key o_slot].
          destruct (fst (t_key t) =? 0); cbn [negb app map]; rewrite IH; reflexivity. }
        rewrite X. reflexivity.
    Qed.

    Lemma slots_in : forall b' M, Forall (slotok b') M -> incl (map i_f M) (c_fields c).
    Proof.
      intros b' M F g I. apply in_map_iff in I. destruct I as (it & <- & I).
      rewrite Forall_forall in F. eapply k_in. apply F. exact I.
    Qed.

    Lemma conf_entries : forall known b' d o M E' N,
      object_ok known b' d M -> (c_typenames c <> [] -> d = Some o) ->
      Permutation (ents M d) E' -> ~ covered lp b' -> agreeN b0 b' N ->
      (forall k nb, In (IField oid k nb) N -> exists g, In g (map i_f M) /\ k = f_key g /\ wnullable (f_wrap g) = true) ->
      (forall g, In g (map i_f M) -> wnullable (f_wrap g) = true -> covered (onfield g :: lp) b' ->
         hitf N oid (f_key g) = true) ->
      conf_obj o c (shown_fields N (map e_tree E')).
    Proof.
      intros known b' d o M E' N (Nm & Sm & Gm & _ & Cm) Ho P NC A Hit Cov.
      destruct Cm as [[Cm _]|Cm]; [contradiction|]. pose proof (slots_in _ _ Sm) as Ic.
      apply COf with (ss := slots_of E'); [eapply slots_ents; eassumption|].
      assert (F : forall e, In e E' -> fst (e_key e) <> 0 ->
                conf_slot o (o_slot (e_o e)) (snd (e_key e), if hitf N oid (e_key e) then ONull else shown N (e_t e))).
      { intros e I K. apply (Permutation_in _ (Permutation_sym P)) in I. unfold ents in I.
        apply in_app_iff in I. destruct I as [I|I]; apply in_map_iff in I.
        - destruct I as (it & <- & I). cbn [of_item e_key e_o o_key o_slot e_t] in *.
          change (snd (f_key (i_f it))) with (f_rk (i_f it)).
          rewrite Forall_forall in Sm. pose proof (Sm it I) as Sl.
          assert (R : reported (i_f it) = true).
          { rewrite reported_key. apply negb_true_iff. apply Nat.eqb_neq. exact K. }
          constructor. destruct (hitf N oid (f_key (i_f it))) eqn:H.
          + apply hitf_spec in H. destruct H as (nb & H). destruct (Hit _ _ H) as (g & Ig & Eg & Wg).
            rewrite (fields_key c Wf (i_f it) g); [|apply Ic; apply in_map; exact I|apply Ic; exact Ig|exact Eg].
            constructor. unfold wnullable in Wg. destruct (wrequired (f_wrap g)); [discriminate|reflexivity].
          + destruct (k_conf _ _ _ _ _ _ _ _ _ _ _ _ _ _ Sl R) as [Cv|Cf]; [exfalso|apply Cf; exact A].
            destruct (wnullable (f_wrap (i_f it))) eqn:W.
            * rewrite (Cov (i_f it)) in H; [discriminate|apply in_map; exact I|exact W|exact Cv].
            * apply NC. eapply covered_cons; [|exact Cv]. exact W.
        - destruct I as (t & <- & I). cbn [of_typename e_key e_o o_key o_slot e_t] in *.
          change (snd (t_key t)) with (snd (fst t)).
          destruct (hitf N oid (t_key t)) eqn:H.
          + exfalso. apply hitf_spec in H. destruct H as (nb & H). destruct (Hit _ _ H) as (g & Ig & Eg & _).
            destruct (wf_inv c Wf) as (WK & _). eapply nodup_app_disjoint; [exact WK| |apply in_map; exact I].
            rewrite Eg. apply in_map. apply Ic. exact Ig.
          + cbn [shown show]. rewrite (Ho ltac:(intros X; rewrite X in I; exact I)). cbn [name_of]. constructor. }
      unfold slots_of, shown_fields. clear - F. induction E' as [|e E' IH]; cbn [map flat_map]; [constructor|].
      unfold e_tree at 1 2 3 4 5. cbn [fst snd]. apply Forall2_app; [|apply IH; intros x I; apply F; right; exact I].
      destruct (fst (e_key e) =? 0) eqn:K; [constructor|]. apply Nat.eqb_neq in K. constructor; [|constructor].
      apply (F e (or_introl eq_refl) K).
    Qed.

    Lemma shows_entries : forall known b' d o M E',
      object_ok known b' d M -> (c_typenames c <> [] -> d = Some o) ->
      Permutation (ents M d) E' ->
      (forall g, In g (c_fields c) -> calm (f_shape g)) -> b_errs b' = b_errs b0 ->
      shows_obj o c entries (flat_map (fun f => if fst (fst f) =? 0 then [] else [(snd (fst f), show (snd f))]) (map e_tree E')).
    Proof.
      intros known b' d o M E' (Nm & Sm & Gm & _ & Cm) Ho P Cc X.
      destruct Cm as [[_ Cm]|Cm]; [contradiction|]. pose proof (slots_in _ _ Sm) as Ic.
      apply ShOf with (ss := slots_of E'); [eapply slots_ents; eassumption|].
      assert (F : forall e, In e E' -> fst (e_key e) <> 0 ->
                shows_slot o entries (o_slot (e_o e)) (snd (e_key e), show (e_t e))).
      { intros e I K. apply (Permutation_in _ (Permutation_sym P)) in I. unfold ents in I.
        apply in_app_iff in I. destruct I as [I|I]; apply in_map_iff in I.
        - destruct I as (it & <- & I). cbn [of_item e_key e_o o_key o_slot e_t] in *.
          change (snd (f_key (i_f it))) with (f_rk (i_f it)).
          rewrite Forall_forall in Sm. pose proof (Sm it I) as Sl.
          assert (R : reported (i_f it) = true).
          { rewrite reported_key. apply negb_true_iff. apply Nat.eqb_neq. exact K. }
          destruct (k_shows _ _ _ _ _ _ _ _ _ _ _ _ _ _ Sl R (Cc _ (Ic _ (in_map _ _ _ I))) X)
            as [(j & Ij & Sj)|(Nj & Wq & Sn)].
          + econstructor; eassumption.
          + rewrite Sn. constructor; assumption.
        - destruct I as (t & <- & I). cbn [of_typename e_key e_o o_key o_slot e_t] in *.
          change (snd (t_key t)) with (snd (fst t)).
          cbn [show]. rewrite (Ho ltac:(intros Y; rewrite Y in I; exact I)). cbn [name_of]. constructor. }
      unfold slots_of. clear - F. induction E' as [|e E' IH]; cbn [map flat_map]; [constructor|].
      unfold e_tree at 1 2 3. cbn [fst snd]. apply Forall2_app; [|apply IH; intros x I; apply F; right; exact I].
      destruct (fst (e_key e) =? 0) eqn:K; [constructor|]. apply Nat.eqb_neq in K. constructor; [|constructor].
      apply (F e (or_introl eq_refl) K).
    Qed.
  End Object.

End Schema.
