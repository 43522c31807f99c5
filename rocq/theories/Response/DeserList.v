(** Proofs about deserialisation: lists and the fields of objects. *)

From Coq Require Import List Arith ZArith String Bool Sorted Permutation Lia.
From Verif Require Import Response.Model Response.Deserialize Response.Spec Response.Conform.
From Verif Require Import Response.Merge Response.Nulls Response.DeserBase.
Import ListNotations.
Local Open Scope nat_scope.

Section Schema.
  Variable obj_name : nat -> string.
  Variable obj_by_name : string -> option nat.
  Variable obj_inaccessible : nat -> bool.
  Variable possible : nat -> list nat.
  Variable round_f64 : Z -> Z.
  Variable pid : nat.
  Variable pp : list vid.

  Notation dres := (builder * option val)%type.
  Notation conf := (conf obj_name obj_inaccessible possible).
  Notation shows := (shows obj_name obj_by_name possible round_f64).
  Notation seen := (seen obj_name obj_by_name obj_inaccessible possible round_f64 pid pp).
  Notation fine := (fine obj_name obj_by_name obj_inaccessible possible round_f64 pid pp).
  Notation grow := (grow pid).
  Notation onpath := (onpath pp).
  Notation covered := (covered pp).
  Notation fresh := (fresh pid).
  Notation below := (below pid).
  Notation old := (old pid).
  Notation allvalid := (allvalid pid).
  Notation carry := (carry pid).
  Notation agreeN := (agreeN pid).
  Notation within := (within pid).
  Notation calm := (calm obj_inaccessible).
  Notation elems := (elems pp).

  (** What is needed of the builder before a value is read. *)
  Definition ready (lp : list vid) (b : builder) : Prop :=
    Forall (below (b_part b)) (lp ++ pp) /\ old b.

  Definition reads_fine (ds : json -> field -> wtype -> list vid -> builder -> dres) (j : json) : Prop :=
    forall f w lp b b' v, wf_shape (f_shape f) -> distinct_keys j -> ready lp b ->
      ds j f w lp b = (b', Some v) -> fine f w j lp b b' v.

  Lemma ready_path : forall lp b u, ready lp b -> onpath lp u -> below (b_part b) u.
  Proof. intros lp b u [P _] I. rewrite Forall_forall in P. exact (P u I). Qed.

  Lemma ready_grow : forall (ok : vid -> Prop) lp b b',
    ready lp b -> (forall u, ok u -> below (b_part b) u) -> grow ok b b' -> ready lp b'.
  Proof.
    intros ok lp b b' [P O] H G. split; [|eapply grow_old; eassumption].
    eapply Forall_impl; [|exact P]. intros u B. eapply below_mono; [|exact B].
    apply ext_shorter. apply (g_ext _ _ _ _ G).
  Qed.

  Lemma ready_cons : forall u lp b, below (b_part b) u -> ready lp b -> ready (u :: lp) b.
  Proof. intros u lp b B [P O]. split; [|exact O]. cbn [app]. constructor; assumption. Qed.

  Lemma carry_left : forall (ok ok' : vid -> Prop) b b1 b2, grow ok b b1 -> grow ok' b1 b2 ->
    (forall u, ok' u -> below (b_part b) u) -> carry b b1 b b2.
  Proof.
    intros ok ok' b b1 b2 G1 G2 H. apply (carry_grow pid ok ok ok'); [apply grow_refl|exact G1|exact G2|exact H].
  Qed.

  Lemma carry_right : forall (ok ok' : vid -> Prop) b b1 b2, grow ok b b1 -> grow ok' b1 b2 -> carry b1 b2 b b2.
  Proof.
    intros ok ok' b b1 b2 G1 G2. apply (carry_grow pid ok ok' (fun _ => False)); [exact G1|exact G2|apply grow_refl|].
    intros u [].
  Qed.

  (** ** Elements *)

  Section Elems.
    Variable ds : json -> field -> wtype -> list vid -> builder -> dres.
    Variable f : field.
    Variable inner : wtype.
    Variable lid : id.
    Variable lp : list vid.

    Inductive elts (b b' : builder) : list json -> list val -> list tree -> nat -> Prop :=
    | ENil i : elts b b' [] [] [] i
    | ECons j l v vs t ts i :
        seen f inner j (IIndex lid i (wnullable inner) :: lp) b b' v t ->
        elts b b' l vs ts (S i) -> elts b b' (j :: l) (v :: vs) (t :: ts) i.

    Lemma elts_carry : forall b0 b1 b b3 l vs ts i, carry b0 b1 b b3 ->
      elts b0 b1 l vs ts i -> elts b b3 l vs ts i.
    Proof.
      intros b0 b1 b b3 l vs ts i C E. induction E; constructor; auto.
      eapply seen_carry; eassumption.
    Qed.

    Definition onlist (u : vid) : Prop := onpath lp u \/ exists k, u = IIndex lid k (wnullable inner).
    Definition inlist (n : nat) (u : vid) : Prop :=
      onpath lp u \/ exists k, k < n /\ u = IIndex lid k (wnullable inner).

    Lemma elems_spec : forall l ok i b b' vs,
      wf_shape (f_shape f) -> Forall distinct_keys l -> Forall (reads_fine ds) l ->
      ready lp b -> (forall k nb, below (b_part b) (IIndex lid k nb)) ->
      elems ds f inner lid lp l ok i b = (b', Some vs) ->
      ok = true /\ grow (inlist (i + List.length l)) b b' /\ allvalid b b' /\
      (calm (f_shape f) -> quiet b b') /\ exists ts, elts b b' l vs ts i.
    Proof.
      intros l ok. induction l as [|x l IH]; intros i b b' vs Wf Dk Rf Rd Lid E; cbn [elems] in E.
      - destruct ok; inversion E; subst. split; [reflexivity|]. split; [apply grow_refl|].
        split; [apply allvalid_none; apply fresh_same|]. split; [intros _; apply quiet_refl|].
        exists []. constructor.
      - destruct (ds x f inner (IIndex lid i (wnullable inner) :: lp) b) as [b1 [v|]] eqn:D; [|discriminate].
        destruct (elems ds f inner lid lp l ok (S i) b1) as [b2 [ws|]] eqn:D2; [|discriminate].
        inversion E; subst b2 vs; clear E.
        inversion Dk as [|? ? Dx Dl]; subst. inversion Rf as [|? ? Rx Rl]; subst.
        specialize (Rx f inner _ b b1 v Wf Dx (ready_cons _ _ _ (Lid _ _) Rd) D).
        destruct Rx as (G1 & V1 & Q1 & t & Sn).
        assert (OB : forall n u, inlist n u -> below (b_part b) u).
        { intros n u [O|(k & _ & ->)]; [eapply ready_path; eassumption|apply Lid]. }
        assert (G1' : grow (inlist (i + List.length (x :: l))) b b1).
        { eapply grow_weaken; [|exact G1]. intros u O _. left. destruct O as [<-|O].
          - right. exists i. split; [cbn; lia|reflexivity].
          - left. exact O. }
        destruct (IH (S i) b1 b' ws Wf Dl Rl) as (Ok & G2 & V2 & Q2 & ts & Es); [| |exact D2|].
        { eapply ready_grow; [exact Rd| |exact G1']. apply OB. }
        { intros k nb. eapply below_mono; [|apply (Lid k nb)]. apply ext_shorter. apply (g_ext _ _ _ _ G1). }
        replace (S i + List.length l) with (i + List.length (x :: l)) in G2 by (cbn; lia).
        split; [exact Ok|]. split; [eapply grow_trans; eassumption|].
        split; [apply (allvalid_trans pid _ _ b b1 b' G1' G2 (OB _) (proj2 Rd) (OB _) V1 V2)|].
        split; [intros C; eapply quiet_trans; [exact G1'|exact G2|auto|auto]|].
        exists (t :: ts). constructor.
        + eapply seen_carry; [|exact Sn]. eapply carry_left; [exact G1|exact G2|apply OB].
        + eapply elts_carry; [|exact Es]. eapply carry_right; [exact G1'|exact G2].
    Qed.
  End Elems.

  Lemma elts_lengths : forall f inner lid lp b b' l vs ts i,
    elts f inner lid lp b b' l vs ts i -> List.length vs = List.length l /\ List.length ts = List.length l.
  Proof. intros f inner lid lp b b' l vs ts i E. induction E as [|j l v vs t ts i S E [IH1 IH2]]; cbn; auto. Qed.

  Lemma elts_rep : forall f inner lid lp b b' l vs ts i ps, within (b_part b) (b_part b') ps ->
    elts f inner lid lp b b' l vs ts i -> Forall2 (rep ps) vs ts.
  Proof. intros f inner lid lp b b' l vs ts i ps W E. induction E; constructor; auto. apply (s_rep _ _ _ _ _ _ _ _ _ _ _ _ _ _ _ H ps W). Qed.

  Lemma elts_tidy : forall f inner lid lp b b' l vs ts i,
    elts f inner lid lp b b' l vs ts i -> Forall tidy ts.
  Proof.
    intros f inner lid lp b b' l vs ts i E. induction E as [|j l v vs t ts i S E IH]; constructor; auto.
    apply (s_tidy _ _ _ _ _ _ _ _ _ _ _ _ _ _ _ S).
  Qed.

  Lemma elts_ok : forall f inner lid lp b b' l vs ts i N, agreeN b b' N ->
    elts f inner lid lp b b' l vs ts i -> Forall (okN N) ts.
  Proof.
    intros f inner lid lp b b' l vs ts i N A E. induction E as [|j l v vs t ts i S E IH]; constructor; auto.
    apply (s_ok _ _ _ _ _ _ _ _ _ _ _ _ _ _ _ S N A).
  Qed.

  Lemma elts_shows : forall f inner lid lp b b' l vs ts i,
    reported f = true -> calm (f_shape f) -> b_errs b' = b_errs b ->
    elts f inner lid lp b b' l vs ts i -> Forall2 (shows inner (f_shape f)) l (map show ts).
  Proof.
    intros f inner lid lp b b' l vs ts i R C X E.
    induction E as [|j l v vs t ts i S E IH]; cbn [map]; constructor; auto.
    apply (s_shows _ _ _ _ _ _ _ _ _ _ _ _ _ _ _ S R C X).
  Qed.

  Lemma fresh_reserved_list : forall b u, fresh (b_part b) (fst (reserve_list pid (b_part b))) u ->
    exists k nb, u = IIndex (pid, List.length (p_lists (b_part b))) k nb.
  Proof.
    intros b u F. destruct u as [[p n] k nb|[p n] k nb|p i]; cbn in F; [lia| |contradiction].
    rewrite app_length in F. cbn in F. exists k, nb. destruct F as [-> F].
    replace n with (List.length (p_lists (b_part b))) by lia. reflexivity.
  Qed.

  (** A part in which a place was reserved and nothing else changed. *)
  Lemma fine_reserved : forall f w j lp b p b' v, ready lp b -> ext (b_part b) p ->
    fine f w j lp (with_part b p) b' v -> fine f w j lp b b' v.
  Proof.
    intros f w j lp b p b' v Rd Ex (G & V & Q & t & Sn).
    assert (G0 : grow (onpath lp) b (with_part b p)) by (apply grow_part; exact Ex).
    split; [eapply grow_trans; eassumption|]. split.
    - intros ps W u I F. destruct (fresh_split pid _ p _ u F) as [F'|F'].
      + exfalso. destruct (g_nulls _ _ _ _ G) as (n & N & Fn). rewrite N in I.
        apply in_app_iff in I. destruct I as [I|I].
        * destruct Rd as [_ O]. unfold DeserBase.old in O. rewrite Forall_forall in O.
          eapply below_fresh; [|apply (O u I)|exact F']. repeat split; auto.
        * rewrite Forall_forall in Fn. destruct (Fn u I) as [_ [O|Fr]].
          -- eapply below_fresh; [|eapply ready_path; eassumption|exact F']. repeat split; auto.
          -- cbn [with_part b_part] in Fr. apply fresh_below in F'.
             eapply below_fresh; [|exact F'|exact Fr]. repeat split; auto.
      + apply (V ps); auto. apply (carry_within pid (with_part b p) b' b b' ps); [|exact W].
        apply (carry_right (onpath lp) (onpath lp)); assumption.
    - split.
      + intros C. eapply quiet_trans; [exact G0|exact G| |exact (Q C)]. intros _. split; reflexivity.
      + exists t. eapply seen_carry; [|exact Sn]. apply (carry_right (onpath lp) (onpath lp)); assumption.
  Qed.

  (** The elements of a list, shown *)
  Lemma elts_conf : forall f inner lid lp b b' N,
    reported f = true ->
    (forall i, fresh (b_part b) (b_part b') (IIndex lid i (wnullable inner))) ->
    (forall i nb, In (IIndex lid i nb) N -> wnullable inner = true) ->
    agreeN b b' N -> forall l vs ts i,
    elts f inner lid lp b b' l vs ts i ->
    ~ covered lp b' -> Forall (conf inner (f_shape f)) (shown_list N lid ts i).
  Proof.
    intros f inner lid lp b b' N R Fr Nn A l vs ts i E NC.
    induction E as [i|j l v vs t ts i Sn E IH]; cbn [shown_list]; [constructor|].
    constructor; [|exact IH]. destruct (hiti N lid i) eqn:H.
    - apply hiti_spec in H. destruct H as (nb & H). apply Nn in H. constructor.
      unfold wnullable in H. destruct (wrequired inner); [discriminate|reflexivity].
    - destruct (s_conf _ _ _ _ _ _ _ _ _ _ _ _ _ _ _ Sn R) as [C|C]; [exfalso|apply C; exact A].
      destruct (wnullable inner) eqn:W.
      + apply covered_here in C; [|reflexivity]. apply A in C; [|apply Fr].
        assert (X : hiti N lid i = true) by (apply hiti_spec; eauto). congruence.
      + apply NC. eapply covered_cons; [|exact C]. reflexivity.
  Qed.

  Lemma covered_dec : forall lp b, covered lp b \/ ~ covered lp b.
  Proof.
    intros lp b. unfold DeserBase.covered. destruct (find vid_nullable (lp ++ pp)).
    - assert (D : forall x y : vid, {x = y} + {x <> y}) by (repeat decide equality).
      destruct (in_dec D v (b_nulls b)); auto.
    - destruct (b_up b); auto.
  Qed.

  Lemma list_fine : forall ds f r inner lp b b1 l vs,
    wf_shape (f_shape f) -> Forall distinct_keys l -> Forall (reads_fine ds) l -> ready lp b -> forall ok,
    let lid := (pid, List.length (p_lists (b_part b))) in
    elems ds f inner lid lp l ok 0 (with_part b (fst (reserve_list pid (b_part b)))) = (b1, Some vs) ->
    fine f (WList r inner) (JList l ok) lp b (with_part b1 (put_list (b_part b1) lid vs)) (VList lid).
  Proof.
    intros ds f r inner lp b b1 l vs Wf Dk Rf Rd ok lid E.
    set (b0 := with_part b (fst (reserve_list pid (b_part b)))) in *.
    set (b2 := with_part b1 (put_list (b_part b1) lid vs)).
    assert (E0 : ext (b_part b) (b_part b0)) by (apply ext_lists).
    assert (G0 : grow (onpath lp) b b0) by (apply grow_part; exact E0).
    assert (Rd0 : ready lp b0).
    { eapply ready_grow; [exact Rd| |exact G0]. intros u O. eapply ready_path; eassumption. }
    destruct (elems_spec ds f inner lid lp l ok 0 b0 b1 vs Wf Dk Rf Rd0) as (-> & G & V & Q & ts & Es); [|exact E|].
    { intros k nb. cbn. intros _. rewrite app_length. cbn. lia. }
    destruct (elts_lengths _ _ _ _ _ _ _ _ _ _ Es) as [Lv Lt].
    assert (E2 : ext (b_part b) (b_part b2)).
    { destruct (ext_trans _ _ _ E0 (g_ext _ _ _ _ G)) as (X1 & X2 & X3).
      split; [exact X1|]. split; [|exact X3]. apply lext_set; [exact X2|cbn; lia]. }
    assert (S12 : shorter (b_part b1) (b_part b2)).
    { unfold shorter, b2, put_list. cbn. split; [auto|]. split; [rewrite length_set_nth; auto|auto]. }
    assert (C : carry b0 b1 b b2).
    { constructor.
      - apply ext_shorter. exact E0.
      - exact S12.
      - split; [|split]; intros n Hn; try reflexivity. unfold b2, put_list. cbn. rewrite nth_set_nth.
        cbn in Hn. rewrite app_length in Hn. cbn in Hn.
        destruct (n =? List.length (p_lists (b_part b))) eqn:X; [apply Nat.eqb_eq in X; lia|reflexivity].
      - intros u _ I. exact I.
      - intros u I. exact I.
      - intros X. exact X.
      - exists []. rewrite app_nil_r. reflexivity.
      - apply (g_errs _ _ _ _ G).
      - exists []. rewrite app_nil_r. reflexivity. }
    assert (FrL : forall k nb, fresh (b_part b) (b_part b2) (IIndex lid k nb)).
    { intros k nb. cbn. split; [reflexivity|]. rewrite length_set_nth.
      destruct (g_ext _ _ _ _ G) as (_ & [X _] & _). cbn in X. rewrite app_length in X. cbn in X. lia. }
    assert (NB : forall u, In u (b_nulls b1) -> fresh (b_part b) (b_part b2) u ->
              ~ fresh (b_part b0) (b_part b1) u -> exists k, k < List.length l /\ u = IIndex lid k true /\ wnullable inner = true).
    { intros u I F NF. destruct (g_nulls _ _ _ _ G) as (n & N & Fn). rewrite N in I.
      apply in_app_iff in I. destruct I as [I|I].
      - exfalso. destruct Rd as [_ O]. unfold DeserBase.old in O. rewrite Forall_forall in O.
        eapply below_fresh; [|apply (O u I)|exact F]. repeat split; auto.
      - rewrite Forall_forall in Fn. destruct (Fn u I) as [Nu [[O|(k & Hk & ->)]|Fr]]; [exfalso| |contradiction].
        + assert (X : below (b_part b) u) by (apply (ready_path lp b u Rd O)).
          apply (below_fresh pid (b_part b) (b_part b) (b_part b2) u); [repeat split; auto|exact X|exact F].
        + cbn in Nu. exists k. rewrite Nu in *. auto. }
    split; [|split; [|split]].
    - constructor; auto.
      + destruct (g_nulls _ _ _ _ G) as (n & N & Fn). exists n. split; [exact N|].
        rewrite Forall_forall in *. intros u I. destruct (Fn u I) as [Nu [[O|(k & Hk & ->)]|Fr]].
        * auto.
        * split; [exact Nu|right]. apply FrL.
        * split; [exact Nu|right]. eapply fresh_widen; [| |exact Fr]; [apply ext_shorter; exact E0|exact S12].
      + apply (g_up _ _ _ _ G).
      + apply (g_errs _ _ _ _ G).
      + apply (g_upd _ _ _ _ G).
      + apply (g_bub _ _ _ _ G).
    - intros ps W u I F. cbn [b2 with_part b_nulls] in I.
      assert (D : fresh (b_part b0) (b_part b1) u \/ ~ fresh (b_part b0) (b_part b1) u).
      { destruct (fresh_split pid _ (b_part b0) _ u F) as [X|X].
        - right. apply fresh_below in X. eapply below_fresh; [|exact X]. repeat split; auto.
        - left. destruct u; cbn in *; rewrite ?length_set_nth in X; exact X. }
      destruct D as [D|D].
      + apply (V ps); auto. eapply carry_within; eassumption.
      + destruct (NB u I F D) as (k & Hk & -> & _). cbn [valid]. exists vs. split; [|lia].
        destruct W as (P & GP & _ & W & _). unfold get_list. cbn [fst snd lid]. rewrite GP.
        specialize (FrL 0 true). cbn in FrL. destruct FrL as [_ FrL]. rewrite (W _ FrL).
        cbn. rewrite nth_set_nth, Nat.eqb_refl.
        rewrite length_set_nth in FrL.
        destruct (nth_error (p_lists (b_part b1)) (List.length (p_lists (b_part b)))) eqn:X; [reflexivity|].
        apply nth_error_None in X. lia.
    - intros Cm X. apply (Q Cm). exact X.
    - exists (TList lid ts).
      assert (Es2 : elts f inner lid lp b b2 l vs ts 0) by (eapply elts_carry; eassumption).
      constructor.
      + intros ps W. apply RList with (vs := vs).
        * destruct W as (P & GP & _ & W & _). unfold get_list. cbn [fst snd lid]. rewrite GP.
          specialize (FrL 0 true). cbn in FrL. destruct FrL as [_ FrL]. rewrite (W _ FrL).
          cbn. rewrite nth_set_nth, Nat.eqb_refl.
          rewrite length_set_nth in FrL.
          destruct (nth_error (p_lists (b_part b1)) (List.length (p_lists (b_part b)))) eqn:X; [reflexivity|].
          apply nth_error_None in X. lia.
        * eapply elts_rep; eassumption.
      + constructor. eapply elts_tidy; eassumption.
      + intros N A. constructor. eapply elts_ok; eassumption.
      + intros R. destruct (covered_dec lp b2) as [Cv|NC]; [left; exact Cv|right]. intros N A.
        rewrite shown_list_eq. constructor. eapply elts_conf; [exact R| | |exact A|exact Es2|exact NC].
        * intros i. apply FrL.
        * intros i nb I. apply A in I; [|apply FrL].
          destruct (NB _ I (FrL _ _)) as (k & _ & _ & W); [|exact W].
          intros X. cbn in X. rewrite app_length in X. cbn in X. lia.
      + intros R Cm X. cbn [show]. constructor. eapply elts_shows; eassumption.
  Qed.

End Schema.
