(** Proofs about deserialisation: the fields of objects. *)

From Coq Require Import List Arith ZArith String Bool Sorted Permutation Lia.
From Verif Require Import Response.Model Response.Deserialize Response.Spec Response.Conform.
From Verif Require Import Response.Merge Response.Nulls Response.DeserBase Response.DeserList.
Import ListNotations.
Local Open Scope nat_scope.

Section Schema.
  Variable obj_name : nat -> string.
  Variable obj_by_name : string -> option nat.
  Variable obj_inaccessible : nat -> bool.
  Variable possible : nat -> list nat.
  Variable round_f64 : Z -> Z.
  Variable pid : nat.
  Variable pp : list vid.

  Notation dres := (builder * option val)%type.
  Notation conf := (conf obj_name obj_inaccessible possible).
  Notation shows := (shows obj_name obj_by_name possible round_f64).
  Notation seen := (seen obj_name obj_by_name obj_inaccessible possible round_f64 pid pp).
  Notation fine := (fine obj_name obj_by_name obj_inaccessible possible round_f64 pid pp).
  Notation reads_fine := (reads_fine obj_name obj_by_name obj_inaccessible possible round_f64 pid pp).
  Notation ready := (ready pid pp).
  Notation grow := (grow pid).
  Notation onpath := (onpath pp).
  Notation covered := (covered pp).
  Notation fresh := (fresh pid).
  Notation below := (below pid).
  Notation old := (old pid).
  Notation allvalid := (allvalid pid).
  Notation carry := (carry pid).
  Notation agreeN := (agreeN pid).
  Notation within := (within pid).
  Notation calm := (calm obj_inaccessible).
  Notation propagate := (propagate pp).
  Notation error_at := (error_at pp).
  Notation visit := (visit obj_name possible).

  (** ** Reading the fields *)

  Record item := MkIt { i_f : field; i_v : val; i_t : tree }.
  Definition i_entry (it : item) : rkey * val := (f_key (i_f it), i_v it).

  Lemma position_spec : forall k fs i,
    match position k fs i with
    | Some (n, g) => i <= n /\ nth_error fs (n - i) = Some g /\ f_expected g = k
    | None => forall g, In g fs -> f_expected g <> k
    end.
  Proof.
    intros k fs. induction fs as [|f fs IH]; intros i; cbn [position]; [intros g []|].
    destruct (f_expected f =? k) eqn:E.
    - apply Nat.eqb_eq in E. rewrite Nat.sub_diag. auto.
    - apply Nat.eqb_neq in E. specialize (IH (S i)). destruct (position k fs (S i)) as [[n g]|].
      + destruct IH as (L & G & X). split; [lia|]. split; [|exact X].
        replace (n - i) with (S (n - S i)) by lia. exact G.
      + intros g [<-|I]; [exact E|apply IH; exact I].
  Qed.

  Lemma skipn_head : forall A n (l : list A) x, nth_error (skipn n l) 0 = Some x ->
    forall y, In y (firstn (n + 1) l) -> In y (firstn n l) \/ y = x.
  Proof.
    intros A n. induction n as [|n IH]; intros [|z l] x H y I; cbn in *; try discriminate; try tauto.
    - inversion H; subst. destruct I as [I|[]]. auto.
    - destruct I as [I|I]; [auto|]. destruct (IH l x H y I); auto.
  Qed.

  Section Visit.
    Variable ds : json -> field -> wtype -> list vid -> builder -> dres.
    Variable oid : id.
    Variable fs : list field.
    Variable detect : option nat.
    Variable lp : list vid.

    Definition onfield (g : field) : vid := IField oid (f_key g) (wnullable (f_wrap g)).
    Definition onobj (L : list item) (u : vid) : Prop :=
      onpath lp u \/ exists it, In it L /\ u = onfield (i_f it).

    Definition got (entries : list (nat * json)) (b b' : builder) (it : item) : Prop :=
      In (i_f it) fs /\ exists j, In (f_expected (i_f it), j) entries /\
      seen (i_f it) (f_wrap (i_f it)) j (onfield (i_f it) :: lp) b b' (i_v it) (i_t it).

    Definition detected (entries : list (nat * json)) (tn tn' : option nat) : Prop :=
      forall d, tn' = Some d -> tn = Some d \/
        exists i, detect = Some i /\ In d (possible i) /\ In (typename_key, JStr (obj_name d)) entries.

    Lemma got_carry : forall entries b0 b1 b b3 it, carry b0 b1 b b3 ->
      got entries b0 b1 it -> got entries b b3 it.
    Proof.
      intros entries b0 b1 b b3 it C (I & j & Ij & Sn). split; [exact I|]. exists j. split; [exact Ij|].
      eapply seen_carry; eassumption.
    Qed.

    Lemma got_more : forall e entries b b' it, got entries b b' it -> got (e :: entries) b b' it.
    Proof. intros e entries b b' it (I & j & Ij & Sn). split; [exact I|]. exists j. split; [right; exact Ij|exact Sn]. Qed.

    Hypothesis Wf : forall g, In g fs -> wf_shape (f_shape g).
    Hypothesis Dx : NoDup (map f_expected fs).
    Hypothesis Nt : forall g, In g fs -> f_expected g <> typename_key.

    Definition visited (entries : list (nat * json)) (tn : option nat) (acc : fields) (b b' : builder)
        (tn' : option nat) (acc' : fields) (L : list item) : Prop :=
      acc' = acc ++ map i_entry L /\ grow (onobj L) b b' /\ allvalid b b' /\
      ((forall g, In g fs -> calm (f_shape g)) -> quiet b b') /\
      Forall (got entries b b') L /\ NoDup (map (fun it => f_expected (i_f it)) L) /\
      (forall g, In g fs -> In (f_expected g) (map fst entries) -> In g (map i_f L)) /\
      detected entries tn tn'.

    Lemma visited_skip : forall k v rest tn acc b b' tn' acc' L,
      (forall g, In g fs -> f_expected g = k -> In k (map fst rest)) ->
      visited rest tn acc b b' tn' acc' L -> visited ((k, v) :: rest) tn acc b b' tn' acc' L.
    Proof.
      intros k v rest tn acc b b' tn' acc' L H (A & G & V & Q & F & ND & Cm & D).
      split; [exact A|]. split; [exact G|]. split; [exact V|]. split; [exact Q|].
      split; [eapply Forall_impl; [|exact F]; intros it; apply got_more|]. split; [exact ND|].
      split.
      - intros g I [E|I']; [|auto]. cbn [fst] in E. apply Cm; [exact I|]. rewrite <- E. eauto.
      - intros d E. destruct (D d E) as [E'|(i & E1 & E2 & E3)]; [auto|]. right. exists i.
        split; [exact E1|]. split; [exact E2|]. right. exact E3.
    Qed.

    Lemma visit_spec : forall entries ok offset skip tn acc b b' tn' acc',
      NoDup (map fst entries) -> Forall distinct_keys (map snd entries) ->
      Forall (reads_fine ds) (map snd entries) -> ready lp b ->
      (forall k nb, below (b_part b) (IField oid k nb)) ->
      (forall g, In g (firstn offset fs) -> ~ In (f_expected g) (map fst entries)) ->
      visit ds oid fs detect entries ok offset skip tn acc lp b = (b', Some (tn', acc')) ->
      ok = true /\ exists L, visited entries tn acc b b' tn' acc' L.
    Proof.
      intros entries. induction entries as [|[k v] rest IH];
        intros ok offset skip tn acc b b' tn' acc' ND Dk Rf Rd Ob Of E; cbn [Deserialize.visit] in E.
      - destruct ok; inversion E; subst. split; [reflexivity|]. exists [].
        split; [rewrite app_nil_r; reflexivity|]. split; [apply grow_refl|].
        split; [apply allvalid_none; apply fresh_same|]. split; [intros _; apply quiet_refl|].
        split; [constructor|]. split; [constructor|]. split; [intros g _ []|]. intros d X. left. exact X.
      - cbn [map fst snd] in ND, Dk, Rf, Of. apply NoDup_cons_iff in ND. destruct ND as [NI ND].
        inversion Dk as [|? ? Dv Dr]; subst. inversion Rf as [|? ? Rv Rr]; subst.
        assert (Of' : forall g, In g (firstn offset fs) -> ~ In (f_expected g) (map fst rest)).
        { intros g I X. apply (Of g I). right. exact X. }
        destruct (skip && (k =? typename_key)) eqn:Sk.
        { apply andb_true_iff in Sk. destruct Sk as [_ Sk]. apply Nat.eqb_eq in Sk.
          destruct (IH _ _ _ _ _ _ _ _ _ ND Dr Rr Rd Ob Of' E) as (Ok & L & Vd). split; [exact Ok|]. exists L.
          apply visited_skip; [|exact Vd]. intros g I X. exfalso. apply (Nt g I). congruence. }
        pose proof (position_spec k (skipn offset fs) 0) as P.
        destruct (position k (skipn offset fs) 0) as [[pos f]|].
        + destruct P as (_ & P & Ek). rewrite Nat.sub_0_r in P.
          assert (If : In f fs).
          { apply nth_error_In in P. rewrite <- (firstn_skipn offset fs). apply in_or_app. right. exact P. }
          destruct (ds v f (f_wrap f) (IField oid (f_key f) (wnullable (f_wrap f)) :: lp) b) as [b1 [value|]] eqn:D;
            [|discriminate].
          destruct (Rv f (f_wrap f) _ b b1 value (Wf f If) Dv (ready_cons _ _ _ _ _ (Ob _ _) Rd) D)
            as (G1 & V1 & Q1 & t & Sn).
          assert (OB : forall L u, onobj L u -> below (b_part b) u).
          { intros L u [O|(it & _ & ->)]; [exact (ready_path _ _ _ _ _ Rd O)|apply Ob]. }
          set (it := MkIt f value t).
          assert (G1' : forall L, grow (onobj (it :: L)) b b1).
          { intros L. eapply grow_weaken; [|exact G1]. intros u O _. left. destruct O as [<-|O].
            - right. exists it. split; [left; reflexivity|reflexivity].
            - left. exact O. }
          assert (Rd1 : ready lp b1).
          { eapply ready_grow; [exact Rd| |apply (G1' [])]. apply OB. }
          assert (Ob1 : forall k nb, below (b_part b1) (IField oid k nb)).
          { intros k0 nb. eapply below_mono; [|apply (Ob k0 nb)]. apply ext_shorter. apply (g_ext _ _ _ _ G1). }
          assert (Of1 : forall g, In g (firstn (offset + (if pos =? 0 then 1 else 0)) fs) -> ~ In (f_expected g) (map fst rest)).
          { destruct pos as [|pos]; cbn [Nat.eqb].
            - intros g I. destruct (skipn_head _ _ _ _ P g I) as [I'| ->]; [apply Of'; exact I'|].
              rewrite Ek. exact NI.
            - rewrite Nat.add_0_r. exact Of'. }
          destruct (IH _ _ _ _ _ b1 _ _ _ ND Dr Rr Rd1 Ob1 Of1 E) as (Ok & L & A & G2 & V2 & Q2 & F2 & N2 & C2 & D2).
          split; [exact Ok|]. exists (it :: L).
          assert (G2' : grow (onobj (it :: L)) b1 b').
          { eapply grow_weaken; [|exact G2]. intros u [O|(x & Ix & ->)] _; left; [left; exact O|right].
            exists x. split; [right; exact Ix|reflexivity]. }
          split; [rewrite A, <- app_assoc; reflexivity|].
          split; [eapply grow_trans; [apply G1'|exact G2']|].
          split; [apply (allvalid_trans pid _ _ b b1 b' (G1' L) G2' (OB _) (proj2 Rd) (OB _) V1 V2)|].
          split; [intros C; eapply quiet_trans; [apply (G1' L)|exact G2'|auto|auto]|].
          split; [|split; [|split]].
          * constructor.
            -- split; [exact If|]. exists v. split; [left; cbn; rewrite Ek; reflexivity|].
               eapply seen_carry; [|exact Sn]. eapply carry_left; [exact G1|exact G2|apply OB].
            -- eapply Forall_impl; [|exact F2]. intros x Gx. apply got_more.
               eapply got_carry; [|exact Gx]. eapply carry_right; [apply (G1' L)|exact G2'].
          * cbn [map]. constructor; [|exact N2]. cbn [it i_f]. rewrite Ek. intros I.
            apply NI. apply in_map_iff in I. destruct I as (x & Ex & Ix).
            rewrite Forall_forall in F2. destruct (F2 x Ix) as (_ & j & Ij & _).
            rewrite <- Ex. apply (in_map fst) in Ij. exact Ij.
          * intros g I [X|X]; cbn [map]; [left|right; auto]. cbn [fst] in X. cbn [it i_f].
            destruct (In_nth_error _ _ I) as (n1 & H1). destruct (In_nth_error _ _ If) as (n2 & H2).
            assert (n1 = n2).
            { apply (proj1 (NoDup_nth_error _) Dx).
              - rewrite map_length. apply nth_error_Some. congruence.
              - rewrite (map_nth_error f_expected _ _ H1), (map_nth_error f_expected _ _ H2). congruence. }
            congruence.
          * intros d X. destruct (D2 d X) as [X'|(i & X1 & X2 & X3)]; [auto|]. right. exists i.
            split; [exact X1|]. split; [exact X2|]. right. exact X3.
        + assert (NP : forall g, In g fs -> f_expected g = k -> In k (map fst rest)).
          { intros g I X. exfalso. rewrite <- (firstn_skipn offset fs) in I. apply in_app_iff in I. destruct I as [I|I].
            - apply (Of g I). left. symmetry. exact X.
            - exact (P g I X). }
          assert (Rest : forall tn1, visit ds oid fs detect rest ok offset skip tn1 acc lp b = (b', Some (tn', acc')) ->
                    (forall d, tn1 = Some d -> tn = Some d \/
                       exists i, detect = Some i /\ In d (possible i) /\ In (typename_key, JStr (obj_name d)) ((k, v) :: rest)) ->
                    ok = true /\ exists L, visited ((k, v) :: rest) tn acc b b' tn' acc' L).
          { intros tn1 E1 HT. destruct (IH _ _ _ _ _ _ _ _ _ ND Dr Rr Rd Ob Of' E1) as (Ok & L & Vd).
            split; [exact Ok|]. exists L. apply (visited_skip k v) in Vd; [|exact NP].
            destruct Vd as (A & G & V & Q & F & N1 & Cm & D). repeat (split; [assumption|]).
            intros d X. destruct (D d X) as [X'|X']; [|right; exact X']. apply HT. exact X'. }
          destruct detect as [i|] eqn:Dt; [destruct tn as [tn0|]|].
          * destruct (readable v); [|discriminate]. apply (Rest _ E). auto.
          * destruct (k =? typename_key) eqn:Ek.
            -- destruct v as [|x|x|x|s|x x0|x x0|]; try discriminate. apply (Rest _ E).
               intros d X. right. exists i. split; [reflexivity|]. apply find_some in X. destruct X as [X1 X2].
               split; [exact X1|]. left. apply Nat.eqb_eq in Ek. apply String.eqb_eq in X2. congruence.
            -- destruct (readable v); [|discriminate]. apply (Rest _ E). auto.
          * destruct (readable v); [|discriminate]. apply (Rest _ E). auto.
    Qed.
  End Visit.

  (** ** Completing the fields *)

  Lemma wf_inv : forall c, wf_concrete c ->
    NoDup (map f_key (c_fields c) ++ map t_key (c_typenames c)) /\
    NoDup (map f_expected (c_fields c)) /\
    (forall f, In f (c_fields c) -> f_expected f <> typename_key) /\
    (forall f, In f (c_fields c) -> f_errors f <> [] -> c_has_error c = true) /\
    (forall f, In f (c_fields c) -> reported f = true -> f_absent f = true -> f_errors f <> []) /\
    (forall f, In f (c_fields c) -> wf_shape (f_shape f)).
  Proof. intros c H. inversion H; subst. repeat (split; [assumption|]). assumption. Qed.

  Section Finalize.
    Variable oid : id.
    Variable c : concrete.
    Variable lp : list vid.
    Variable entries : list (nat * json).
    Variable b0 : builder.

    Hypothesis Wf : wf_concrete c.
    Hypothesis Rd : ready lp b0.

    Notation onfield := (onfield oid).

    Record slotok (b : builder) (it : item) : Prop := MkSlot {
      k_in : In (i_f it) (c_fields c);
      k_rep : forall ps, within (b_part b0) (b_part b) ps -> rep ps (i_v it) (i_t it);
      k_tidy : tidy (i_t it);
      k_ok : forall N, agreeN b0 b N -> okN N (i_t it);
      k_conf : reported (i_f it) = true ->
        covered (onfield (i_f it) :: lp) b \/
        forall N, agreeN b0 b N -> conf (f_wrap (i_f it)) (f_shape (i_f it)) (shown N (i_t it));
      k_shows : reported (i_f it) = true -> calm (f_shape (i_f it)) -> b_errs b = b_errs b0 ->
        (exists j, In (f_expected (i_f it), j) entries /\
           shows (f_wrap (i_f it)) (f_shape (i_f it)) j (show (i_t it))) \/
        (~ In (f_expected (i_f it)) (map fst entries) /\ wrequired (f_wrap (i_f it)) = false /\ show (i_t it) = ONull)
    }.

    Lemma got_slot : forall b it, got oid (c_fields c) lp entries b0 b it -> slotok b it.
    Proof.
      intros b it (I & j & Ij & [R T K F S]). constructor; auto.
      intros Rp Cm X. left. exists j. split; [exact Ij|]. apply S; assumption.
    Qed.

    Lemma slot_grow : forall ok b b' it, grow ok b0 b -> grow (onpath lp) b b' -> slotok b it -> slotok b' it.
    Proof.
      intros ok b b' it G0 G [I R T K F S].
      assert (C : carry b0 b b0 b').
      { eapply carry_left; [exact G0|exact G|]. intros u O. exact (ready_path _ _ _ _ _ Rd O). }
      constructor; auto.
      - intros ps W. apply R. eapply carry_within; eassumption.
      - intros N A. apply K. eapply carry_agree; eassumption.
      - intros Rp. destruct (F Rp) as [Cv|Cf]; [left; eapply carry_covered; eassumption|right].
        intros N A. apply Cf. eapply carry_agree; eassumption.
      - intros Rp Cm X. apply S; auto. eapply carry_errs; eassumption.
    Qed.

    Lemma errs_longer : forall ok b b', grow ok b0 b -> List.length (b_errs b) < List.length (b_errs b') ->
      b_errs b' <> b_errs b0.
    Proof.
      intros ok b b' G L E. destruct (g_errs _ _ _ _ G) as (e & Ee). rewrite E, Ee, app_length in L. lia.
    Qed.

    (** Only the inaccessible values of the part changed. *)
    Definition flat (b b' : builder) : Prop :=
      p_objs (b_part b') = p_objs (b_part b) /\ p_lists (b_part b') = p_lists (b_part b).

    Lemma flat_fresh : forall b b' u, flat b b' -> ~ fresh (b_part b) (b_part b') u.
    Proof. intros b b' u [E1 E2] F. destruct u; cbn in F; rewrite ?E1, ?E2 in F; [lia|lia|exact F]. Qed.

    Lemma errors_spec : forall k (es : list nat) b,
      let b' := fold_left (fun b _ => error_at lp (Some k) b) es b in
      grow (onpath lp) b b' /\ b_part b' = b_part b /\ b_nulls b' = b_nulls b /\ b_up b' = b_up b /\
      List.length (b_errs b') = List.length es + List.length (b_errs b).
    Proof.
      intros k es. induction es as [|e es IH]; intros b; cbn [fold_left]; cbv zeta.
      - split; [apply grow_refl|]. auto.
      - destruct (IH (error_at lp (Some k) b)) as (G & P & N & U & L). cbv zeta in *.
        split; [eapply grow_trans; [apply (grow_error pid pp)|exact G]|]. split; [exact P|]. split; [exact N|]. split; [exact U|].
        rewrite L. cbn. rewrite app_length. cbn. lia.
    Qed.

    (** What holds of the state of the loops. *)
    Record inv (b1 : builder) (b : builder) (acc : fields) (propagated : bool) (M : list item) : Prop := MkInv {
      v_acc : acc = map i_entry M;
      v_nodup : NoDup (map i_f M);
      v_slots : Forall (slotok b) M;
      v_prop : propagated = true -> covered lp b;
      v_grow : grow (onpath lp) b1 b;
      v_flat : flat b1 b;
      v_quiet : quiet b1 b
    }.

    Lemma fields_key : forall f g, In f (c_fields c) -> In g (c_fields c) -> f_key f = f_key g -> f = g.
    Proof.
      intros f g I J E. destruct (wf_inv c Wf) as [ND _]. apply nodup_app_l in ND.
      destruct (In_nth_error _ _ I) as (n1 & H1). destruct (In_nth_error _ _ J) as (n2 & H2).
      assert (n1 = n2); [|congruence].
      apply (proj1 (NoDup_nth_error _) ND).
      - rewrite map_length. apply nth_error_Some. congruence.
      - rewrite (map_nth_error f_key _ _ H1), (map_nth_error f_key _ _ H2). congruence.
    Qed.

    Lemma map_set_nth : forall A B (g : A -> B) n x l, map g (set_nth n x l) = set_nth n (g x) (map g l).
    Proof.
      intros A B g n x l. revert n. induction l as [|y l IH]; intros [|n]; cbn; try reflexivity.
      rewrite IH. reflexivity.
    Qed.

    Lemma set_nth_same : forall A n (x : A) l, nth_error l n = Some x -> set_nth n x l = l.
    Proof.
      intros A n x l. revert n. induction l as [|y l IH]; intros [|n] H; cbn in *; try congruence.
      rewrite IH; auto.
    Qed.

    Lemma Forall_set_nth : forall A (P : A -> Prop) n x l, P x -> Forall P l -> Forall P (set_nth n x l).
    Proof.
      intros A P n x l Px F. revert n. induction F as [|y l Py F IH]; intros [|n]; cbn; constructor; auto.
    Qed.

    Lemma required_covered : forall g b, wrequired (f_wrap g) = true -> covered lp b -> covered (onfield g :: lp) b.
    Proof.
      intros g b R C. unfold DeserBase.covered in *. cbn [app find onfield vid_nullable].
      unfold onfield, wnullable. cbn [vid_nullable]. rewrite R. exact C.
    Qed.

    Lemma prop_if : forall (p : bool) b,
      let b' := if p then propagate lp b else b in
      grow (onpath lp) b b' /\ b_part b' = b_part b /\ b_errs b' = b_errs b /\ (p = true -> covered lp b').
    Proof.
      intros [] b; cbv zeta.
      - split; [apply (grow_propagate pid pp)|]. split; [apply part_propagate|]. split; [apply errs_propagate|].
        intros _. apply propagate_covered.
      - split; [apply grow_refl|]. repeat split; auto. discriminate.
    Qed.

    Lemma longer_quiet : forall b b', List.length (b_errs b) < List.length (b_errs b') -> quiet b b'.
    Proof. intros b b' L E. rewrite E in L. lia. Qed.

    Lemma slots_grow : forall ok b b' M, grow ok b0 b -> grow (onpath lp) b b' ->
      Forall (slotok b) M -> Forall (slotok b') M.
    Proof. intros ok b b' M G0 G F. eapply Forall_impl; [|exact F]. intros it. eapply slot_grow; eassumption. Qed.

    Lemma grow_rest : forall (ok : vid -> Prop) b1 b, (forall u, onpath lp u -> ok u) ->
      grow ok b0 b1 -> grow (onpath lp) b1 b -> grow ok b0 b.
    Proof.
      intros ok b1 b H G0 G. eapply grow_trans; [exact G0|]. eapply grow_weaken; [|exact G].
      intros u O _. left. apply H. exact O.
    Qed.

    Lemma flat_trans : forall x y z, flat x y -> flat y z -> flat x z.
    Proof. intros x y z [A B] [A' B']. split; congruence. Qed.

    Lemma shape_error_inv : forall (ok : vid -> Prop) b1 b acc p M f,
      (forall u, onpath lp u -> ok u) -> grow ok b0 b1 -> In f (c_fields c) ->
      inv b1 b acc p M ->
      exists b' acc' p' M', shape_error_step pid pp lp (b, acc, p) f = (b', acc', p') /\
        inv b1 b' acc' p' M' /\ incl (map i_f M) (map i_f M') /\ (f_errors f <> [] -> In f (map i_f M')).
    Proof.
      intros ok b1 b acc p M f Hok G01 If Iv. destruct Iv as [Ac ND Sl Pr Gr Fl Qu].
      unfold shape_error_step. destruct (f_errors f) as [|e es] eqn:Fe.
      { exists b, acc, p, M. split; [reflexivity|]. split; [constructor; assumption|].
        split; [apply incl_refl|]. congruence. }
      cbv zeta.
      destruct (errors_spec (f_rk f) (e :: es) b) as (Ge & Pe & Ne & Ue & Le). cbv zeta in Ge, Pe, Ne, Ue, Le.
      set (be := fold_left (fun b _ => error_at lp (Some (f_rk f)) b) (e :: es) b) in *.
      set (pr := negb p && wrequired (f_wrap f)).
      destruct (prop_if pr be) as (Gp & Pp & Ep & Cp). cbv zeta in Gp, Pp, Ep, Cp.
      set (b2 := if pr then propagate lp be else be) in *.
      assert (G2 : grow (onpath lp) b b2) by (eapply grow_trans; eassumption).
      assert (G1b : grow ok b0 b) by (eapply grow_rest; eassumption).
      assert (Lg : List.length (b_errs b1) < List.length (b_errs b2)).
      { destruct (g_errs _ _ _ _ Gr) as (x & Ex). rewrite Ep, Le, Ex, app_length. cbn. lia. }
      assert (Lg0 : b_errs b2 <> b_errs b0).
      { eapply errs_longer; [exact G01|exact Lg]. }
      assert (PC : p || pr = true -> covered lp b2).
      { intros X. destruct p; cbn in X.
        - eapply covered_grow; [exact G2|]. apply Pr. reflexivity.
        - apply Cp. exact X. }
      assert (RC : wrequired (f_wrap f) = true -> covered lp b2).
      { intros X. apply PC. unfold pr. rewrite X. destruct p; reflexivity. }
      assert (Fl2 : flat b1 b2).
      { destruct Fl as [F1 F2]. split; rewrite Pp, Pe; assumption. }
      assert (Sl2 : Forall (slotok b2) M) by (eapply slots_grow; [exact G1b|exact G2|exact Sl]).
      pose proof (find_key_spec (f_key f) acc 0) as Fk.
      destruct (find_key (f_key f) acc 0) as [n|].
      - destruct Fk as (_ & x & Nx). rewrite Nat.sub_0_r in Nx. rewrite Nx.
        rewrite Ac, nth_error_map in Nx. destruct (nth_error M n) as [it|] eqn:Mn; [|discriminate].
        cbn [option_map] in Nx. unfold i_entry in Nx. assert (Ke : f_key (i_f it) = f_key f) by congruence.
        assert (Xe : x = i_v it) by congruence. subst x. clear Nx.
        assert (Iit : In it M) by (eapply nth_error_In; exact Mn).
        assert (Ef : i_f it = f).
        { rewrite Forall_forall in Sl. apply fields_key; [apply (k_in _ _ (Sl it Iit))|exact If|exact Ke]. }
        assert (Sit : slotok b2 it) by (rewrite Forall_forall in Sl2; apply Sl2; exact Iit).
        unfold push_inacc.
        set (iid := (pid, List.length (p_inacc (b_part b2)))).
        set (b3 := with_part b2 (with_inacc (b_part b2) (p_inacc (b_part b2) ++ [i_v it]))).
        assert (G3 : grow (onpath lp) b2 b3) by (apply grow_part; apply ext_inacc).
        assert (G2b : grow ok b0 b2) by (eapply grow_rest; [exact Hok|exact G1b|exact G2]).
        set (it' := MkIt f (VInacc iid) (TInacc iid (i_t it))).
        exists b3, (set_value acc n (VInacc iid)), (p || pr), (set_nth n it' M).
        split; [reflexivity|].
        assert (Flds : map i_f (set_nth n it' M) = map i_f M).
        { rewrite map_set_nth. apply set_nth_same. rewrite nth_error_map, Mn. cbn. rewrite Ef. reflexivity. }
        assert (Sit3 : slotok b3 it) by (eapply slot_grow; [exact G2b|exact G3|exact Sit]).
        split; [constructor|].
        + unfold set_value. rewrite Ac, nth_error_map, Mn. cbn [option_map i_entry].
          rewrite map_set_nth. unfold it'. unfold i_entry at 3. cbn [i_f i_v]. rewrite Ef. reflexivity.
        + rewrite Flds. exact ND.
        + apply Forall_set_nth; [|eapply slots_grow; [exact G2b|exact G3|exact Sl2]].
          constructor; cbn [it' i_f i_v i_t].
          * exact If.
          * intros ps W. apply RInacc with (v := i_v it); [|apply (k_rep _ _ Sit3 ps W)].
            destruct W as (P & GP & _ & _ & W). unfold get_inacc, iid. cbn [fst snd]. rewrite GP.
            rewrite W.
            -- cbn. rewrite nth_error_app2 by lia. rewrite Nat.sub_diag. reflexivity.
            -- cbn. rewrite app_length. cbn. destruct (g_ext _ _ _ _ G2b) as (_ & _ & X & _). lia.
          * constructor. apply (k_tidy _ _ Sit3).
          * intros N A. constructor. apply (k_ok _ _ Sit3 N A).
          * intros _. destruct (wrequired (f_wrap f)) eqn:Rq.
            -- left. apply required_covered; [exact Rq|]. eapply covered_grow; [exact G3|]. apply RC. reflexivity.
            -- right. intros N _. cbn [shown]. constructor. exact Rq.
          * intros _ _ X. exfalso. apply Lg0. exact X.
        + intros X. eapply covered_grow; [exact G3|]. apply PC. exact X.
        + eapply grow_trans; [exact Gr|]. eapply grow_trans; [exact G2|exact G3].
        + eapply flat_trans; [exact Fl2|]. split; reflexivity.
        + apply longer_quiet. exact Lg.
        + split; [rewrite Flds; apply incl_refl|]. intros _. rewrite Flds. rewrite <- Ef. apply in_map. exact Iit.
      - set (it' := MkIt f VNull (TLeaf VNull)).
        exists b2, (acc ++ [(f_key f, VNull)]), (p || pr), (M ++ [it']). split; [reflexivity|].
        split; [constructor|].
        + rewrite map_app, Ac. reflexivity.
        + rewrite map_app. apply nodup_app; [exact ND|repeat constructor; intros []|].
          intros g Ig [<-|[]]. apply Fk. rewrite Ac, map_map. apply in_map_iff in Ig.
          destruct Ig as (x & Ex & Ix). apply in_map_iff. exists x. split; [|exact Ix].
          cbn [i_entry fst]. rewrite Ex. reflexivity.
        + apply Forall_app. split; [exact Sl2|]. constructor; [|constructor].
          constructor; cbn [it' i_f i_v i_t].
          * exact If.
          * intros ps _. constructor. reflexivity.
          * constructor.
          * intros N _. constructor.
          * intros _. destruct (wrequired (f_wrap f)) eqn:Rq.
            -- left. apply required_covered; [exact Rq|]. apply RC. reflexivity.
            -- right. intros N _. cbn [shown show]. constructor. exact Rq.
          * intros _ _ X. exfalso. apply Lg0. exact X.
        + exact PC.
        + eapply grow_trans; [exact Gr|exact G2].
        + exact Fl2.
        + apply longer_quiet. exact Lg.
        + rewrite map_app. split; [apply incl_appl; apply incl_refl|]. intros _. apply in_or_app. right. left. reflexivity.
    Qed.

    Lemma shape_errors_inv : forall (ok : vid -> Prop) b1 l,
      (forall u, onpath lp u -> ok u) -> grow ok b0 b1 -> incl l (c_fields c) -> forall b acc p M,
      inv b1 b acc p M ->
      exists b' acc' p' M', fold_left (shape_error_step pid pp lp) l (b, acc, p) = (b', acc', p') /\
        inv b1 b' acc' p' M' /\ incl (map i_f M) (map i_f M') /\
        (forall f, In f l -> f_errors f <> [] -> In f (map i_f M')).
    Proof.
      intros ok b1 l Hok G01. induction l as [|f l IH]; intros Il b acc p M Iv; cbn [fold_left].
      - exists b, acc, p, M. split; [reflexivity|]. split; [exact Iv|]. split; [apply incl_refl|]. intros f [].
      - destruct (shape_error_inv ok b1 b acc p M f Hok G01 (Il f (or_introl eq_refl)) Iv)
          as (b' & acc' & p' & M' & E & Iv' & Ic & Fe). rewrite E.
        destruct (IH (fun g I => Il g (or_intror I)) b' acc' p' M' Iv') as (b2 & acc2 & p2 & M2 & E2 & Iv2 & Ic2 & Fe2).
        exists b2, acc2, p2, M2. split; [exact E2|]. split; [exact Iv2|].
        split; [eapply incl_tran; eassumption|]. intros g [<-|I] He; [apply Ic2; auto|auto].
    Qed.

    (** Missing fields *)

    (** A null was propagated and an error reported. *)
    Definition failed (b1 b : builder) : Prop := covered lp b /\ List.length (b_errs b1) < List.length (b_errs b).

    Lemma missing_inv : forall (ok : vid -> Prop) b1 known b acc p M X f,
      (forall u, onpath lp u -> ok u) -> grow ok b0 b1 -> In f (c_fields c) ->
      (forall g, In g (c_fields c) -> In (f_key g) known <-> In g (map i_f M)) ->
      (forall g, In g (c_fields c) -> In (f_expected g) (map fst entries) -> In g (map i_f M)) ->
      ~ In f (map i_f X) -> inv b1 b acc p (M ++ X) ->
      exists b' acc' p' X', missing_step pp known lp (b, acc, p) f = (b', acc', p') /\
        inv b1 b' acc' p' (M ++ X') /\ (forall g, In g (map i_f X') -> g = f \/ In g (map i_f X)) /\
        incl (map i_f X) (map i_f X') /\ (failed b1 b -> failed b1 b') /\
        (reported f = true -> f_absent f = false -> failed b1 b' \/ In f (map i_f (M ++ X'))).
    Proof.
      intros ok b1 known b acc p M X f Hok G01 If Kn Cm NX Iv. destruct Iv as [Ac ND Sl Pr Gr Fl Qu].
      assert (G1b : grow ok b0 b) by (eapply grow_rest; eassumption).
      assert (Same : f_absent f = true \/ In f (map i_f (M ++ X)) \/ reported f = false ->
        exists b' acc' p' X', (b, acc, p) = (b', acc', p') /\
        inv b1 b' acc' p' (M ++ X') /\ (forall g, In g (map i_f X') -> g = f \/ In g (map i_f X)) /\
        incl (map i_f X) (map i_f X') /\ (failed b1 b -> failed b1 b') /\
        (reported f = true -> f_absent f = false -> failed b1 b' \/ In f (map i_f (M ++ X')))).
      { intros H. exists b, acc, p, X. split; [reflexivity|]. split; [constructor; assumption|].
        split; [auto|]. split; [apply incl_refl|]. split; [auto|]. intros R A. destruct H as [H|[H|H]]; [congruence|auto|congruence]. }
      unfold missing_step. destruct (f_absent f) eqn:Ab; [apply Same; auto|].
      destruct (existsb (keqb (f_key f)) known) eqn:Ex.
      { apply Same. right. left. apply existsb_exists in Ex. destruct Ex as (k & Ik & Ek). apply keqb_eq in Ek. subst k.
        rewrite map_app. apply in_or_app. left. apply Kn; assumption. }
      assert (NK : ~ In f (map i_f M)).
      { intros I. apply Kn in I; [|exact If]. assert (existsb (keqb (f_key f)) known = true); [|congruence].
        apply existsb_exists. exists (f_key f). split; [exact I|]. apply keqb_eq. reflexivity. }
      destruct (wrequired (f_wrap f)) eqn:Rq.
      - destruct (fst (f_key f) =? 0) eqn:Kz.
        { apply Same. right. right. apply Nat.eqb_eq in Kz. unfold f_key, with_position_if in Kz. cbn [fst] in Kz.
          unfold reported. destruct (f_included f); [rewrite Kz; reflexivity|apply andb_false_r]. }
        set (b2 := if p then b else propagate lp b).
        assert (H2 : grow (onpath lp) b b2 /\ b_part b2 = b_part b /\ b_errs b2 = b_errs b /\ covered lp b2).
        { unfold b2. destruct p.
          - split; [apply grow_refl|]. split; [reflexivity|]. split; [reflexivity|]. apply Pr. reflexivity.
          - split; [apply (grow_propagate pid pp)|]. split; [apply part_propagate|]. split; [apply errs_propagate|].
            apply propagate_covered. }
        destruct H2 as (G2 & P2 & E2 & C2).
        set (b3 := error_at lp (Some (f_rk f)) b2).
        assert (G3 : grow (onpath lp) b b3) by (eapply grow_trans; [exact G2|apply (grow_error pid pp)]).
        assert (C3 : covered lp b3) by (eapply covered_grow; [apply (grow_error pid pp (onpath lp))|exact C2]).
        assert (Lg : List.length (b_errs b1) < List.length (b_errs b3)).
        { destruct (g_errs _ _ _ _ Gr) as (x & Exx). unfold b3. cbn. rewrite app_length, E2, Exx, app_length. cbn. lia. }
        exists b3, acc, true, X. split; [reflexivity|]. split; [constructor|].
        + exact Ac.
        + exact ND.
        + eapply slots_grow; [exact G1b|exact G3|exact Sl].
        + intros _. exact C3.
        + eapply grow_trans; eassumption.
        + eapply flat_trans; [exact Fl|]. split; unfold b3; cbn; rewrite P2; reflexivity.
        + apply longer_quiet. exact Lg.
        + split; [auto|]. split; [apply incl_refl|]. split; [intros _; split; assumption|]. intros _ _. left. split; assumption.
      - set (it' := MkIt f VNull (TLeaf VNull)).
        exists b, (acc ++ [(f_key f, VNull)]), p, (X ++ [it']). split; [reflexivity|].
        rewrite app_assoc.
        split; [constructor|].
        + rewrite (map_app i_entry (M ++ X)), Ac. reflexivity.
        + rewrite (map_app i_f (M ++ X)). apply nodup_app; [exact ND|repeat constructor; intros []|].
          intros g Ig [<-|[]]. rewrite map_app in Ig. apply in_app_iff in Ig. destruct Ig; contradiction.
        + apply Forall_app. split; [exact Sl|]. constructor; [|constructor].
          constructor; cbn [it' i_f i_v i_t].
          * exact If.
          * intros ps _. constructor. reflexivity.
          * constructor.
          * intros N _. constructor.
          * intros _. right. intros N _. cbn [shown show]. constructor. exact Rq.
          * intros _ _ _. right. split; [|split; [exact Rq|reflexivity]]. intros I. apply NK. apply Cm; assumption.
        + exact Pr.
        + exact Gr.
        + exact Fl.
        + exact Qu.
        + split; [|split; [|split]].
          * intros g Ig. rewrite map_app in Ig. apply in_app_iff in Ig. destruct Ig as [Ig|[<-|[]]]; auto.
          * rewrite map_app. apply incl_appl. apply incl_refl.
          * auto.
          * intros _ _. right. rewrite map_app. apply in_or_app. right. left. reflexivity.
    Qed.

    Lemma missings_inv : forall (ok : vid -> Prop) b1 known M l,
      (forall u, onpath lp u -> ok u) -> grow ok b0 b1 -> incl l (c_fields c) -> NoDup l ->
      (forall g, In g (c_fields c) -> In (f_key g) known <-> In g (map i_f M)) ->
      (forall g, In g (c_fields c) -> In (f_expected g) (map fst entries) -> In g (map i_f M)) ->
      forall b acc p X, (forall g, In g l -> ~ In g (map i_f X)) -> inv b1 b acc p (M ++ X) ->
      exists b' acc' p' X', fold_left (missing_step pp known lp) l (b, acc, p) = (b', acc', p') /\
        inv b1 b' acc' p' (M ++ X') /\ incl (map i_f X) (map i_f X') /\ (failed b1 b -> failed b1 b') /\
        (forall f, In f l -> reported f = true -> f_absent f = false -> failed b1 b' \/ In f (map i_f (M ++ X'))).
    Proof.
      intros ok b1 known M l Hok G01. induction l as [|f l IH]; intros Il Nl Kn Cm b acc p X NX Iv; cbn [fold_left].
      - exists b, acc, p, X. split; [reflexivity|]. split; [exact Iv|]. split; [apply incl_refl|]. split; [auto|]. intros f [].
      - apply NoDup_cons_iff in Nl. destruct Nl as [Nf Nl].
        destruct (missing_inv ok b1 known b acc p M X f Hok G01 (Il f (or_introl eq_refl)) Kn Cm (NX f (or_introl eq_refl)) Iv)
          as (b' & acc' & p' & X' & E & Iv' & Sub & Ic & Cv & Fe). rewrite E.
        destruct (IH (fun g I => Il g (or_intror I)) Nl Kn Cm b' acc' p' X') as (b2 & acc2 & p2 & X2 & E2 & Iv2 & Ic2 & Cv2 & Fe2).
        { intros g I J. destruct (Sub g J) as [->|J']; [exact (Nf I)|]. exact (NX g (or_intror I) J'). }
        { exact Iv'. }
        exists b2, acc2, p2, X2. split; [exact E2|]. split; [exact Iv2|].
        split; [eapply incl_tran; eassumption|]. split; [auto|].
        intros g [<-|I] R A; [|auto]. destruct (Fe R A) as [C|I']; [left; auto|right].
        rewrite map_app in *. apply in_app_iff in I'. apply in_or_app. destruct I' as [I'|I']; [auto|right; apply Ic2; exact I'].
    Qed.

    Lemma or_all : forall A (r : A -> bool) (P : A -> Prop) (Q : Prop) l,
      (forall x, In x l -> r x = true -> Q \/ P x) -> Q \/ forall x, In x l -> r x = true -> P x.
    Proof.
      intros A r P Q l. induction l as [|x l IH]; intros H; [right; intros x []|].
      destruct IH as [HQ|HP]; [intros y I; apply H; right; exact I|left; exact HQ|].
      destruct (r x) eqn:Rx.
      - destruct (H x (or_introl eq_refl) Rx) as [HQ|Hx]; [left; exact HQ|right].
        intros y [<-|I] Ry; [exact Hx|auto].
      - right. intros y [<-|I] Ry; [congruence|auto].
    Qed.

    Lemma finalize_spec : forall (ok : vid -> Prop) b1 L b' acc',
      (forall u, onpath lp u -> ok u) -> grow ok b0 b1 ->
      Forall (got oid (c_fields c) lp entries b0 b1) L -> NoDup (map (fun it => f_expected (i_f it)) L) ->
      (forall g, In g (c_fields c) -> In (f_expected g) (map fst entries) -> In g (map i_f L)) ->
      finalize pid pp c (map i_entry L) lp b1 = (b', acc') ->
      exists M, acc' = map i_entry M /\ NoDup (map i_f M) /\ Forall (slotok b') M /\ incl (map i_f L) (map i_f M) /\
        grow (onpath lp) b1 b' /\ flat b1 b' /\ quiet b1 b' /\
        (failed b1 b' \/ forall g, In g (c_fields c) -> reported g = true -> In g (map i_f M)).
    Proof.
      intros ok b1 L b' acc' Hok G01 FL NL Cm E.
      destruct (wf_inv c Wf) as (WK & WE & WT & WM & WD & WS).
      assert (NDf : NoDup (c_fields c)) by (apply nodup_app_l in WK; eapply NoDup_map_inv; exact WK).
      assert (I0 : inv b1 b1 (map i_entry L) false L).
      { constructor.
        - reflexivity.
        - rewrite <- (map_map i_f f_expected) in NL. eapply NoDup_map_inv. exact NL.
        - eapply Forall_impl; [|exact FL]. intros it. apply got_slot.
        - discriminate.
        - apply grow_refl.
        - split; reflexivity.
        - apply quiet_refl. }
      unfold finalize in E.
      assert (S1 : exists b2 acc2 p2 M, (if c_has_error c then fold_left (shape_error_step pid pp lp) (c_fields c) (b1, map i_entry L, false)
                     else (b1, map i_entry L, false)) = (b2, acc2, p2) /\
                   inv b1 b2 acc2 p2 M /\ incl (map i_f L) (map i_f M) /\
                   (forall f, In f (c_fields c) -> f_errors f <> [] -> In f (map i_f M))).
      { destruct (c_has_error c) eqn:He.
        - eapply shape_errors_inv; [exact Hok|exact G01|apply incl_refl|exact I0].
        - exists b1, (map i_entry L), false, L. split; [reflexivity|]. split; [exact I0|]. split; [apply incl_refl|].
          intros f I Fe. exfalso. pose proof (WM f I Fe). congruence. }
      destruct S1 as (b2 & acc2 & p2 & M & E1 & I1 & IL & FE). rewrite E1 in E. clear E1.
      assert (LM : List.length acc2 = List.length (map i_f M)).
      { rewrite (v_acc _ _ _ _ _ I1), !map_length. reflexivity. }
      assert (InM : incl (map i_f M) (c_fields c)).
      { intros g I. apply in_map_iff in I. destruct I as (it & <- & I).
        pose proof (v_slots _ _ _ _ _ I1) as Fs. rewrite Forall_forall in Fs. apply (k_in _ _ (Fs it I)). }
      destruct (List.length acc2 <? List.length (c_fields c)) eqn:Lt.
      - destruct (missings_inv ok b1 (map fst acc2) M (c_fields c) Hok G01 (incl_refl _) NDf) with (b := b2) (acc := acc2) (p := p2) (X := @nil item)
          as (b3 & acc3 & p3 & X & E2 & I2 & _ & _ & F2).
        { intros g Ig. rewrite (v_acc _ _ _ _ _ I1), map_map. split; intros I.
          - apply in_map_iff in I. destruct I as (it & Ek & I). cbn [i_entry fst] in Ek.
            apply in_map_iff. exists it. split; [|exact I]. apply fields_key; auto. apply InM. apply in_map. exact I.
          - apply in_map_iff in I. destruct I as (it & <- & I). apply in_map_iff. exists it. auto. }
        { intros g Ig Ie. apply IL. apply Cm; assumption. }
        { intros g _ []. }
        { rewrite app_nil_r. exact I1. }
        rewrite E2 in E. inversion E; subst b3 acc3; clear E. exists (M ++ X). destruct I2 as [A2 N2 S2 P2 G2 Fl2 Q2].
        split; [exact A2|]. split; [exact N2|]. split; [exact S2|].
        split; [rewrite map_app; apply incl_appl; exact IL|]. split; [exact G2|]. split; [exact Fl2|]. split; [exact Q2|].
        apply or_all. intros g Ig R. destruct (f_absent g) eqn:Ab; [|auto].
        right. rewrite map_app. apply in_or_app. left. apply FE; auto.
      - inversion E; subst b' acc'; clear E. exists M. destruct I1 as [A2 N2 S2 P2 G2 Fl2 Q2].
        split; [exact A2|]. split; [exact N2|]. split; [exact S2|]. split; [exact IL|]. split; [exact G2|].
        split; [exact Fl2|]. split; [exact Q2|]. right. intros g Ig _.
        apply Nat.ltb_ge in Lt. rewrite LM in Lt.
        apply (NoDup_length_incl N2 Lt InM). exact Ig.
    Qed.
  End Finalize.

End Schema.
