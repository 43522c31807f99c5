(** Proofs for C23. *)

From Coq Require Import List NArith Bool Lia Arith Permutation.
From Verif.OpCache Require Import Tiered.
From Verif.EntityCache Require Import Batch.
Import ListNotations.

Section Proofs.
  Variables E F : Type.
  Variable read : E -> outcome F.

  Notation read_list := (read_list E F read).
  Notation run_list := (run_list E F read).
  Notation progress := (progress E F).

  (** ** Reading one list *)

  Lemma fst_empty : forall ids, map fst (empty_updates F ids) = ids.
  Proof. induction ids as [|i ids IH]; cbn; [reflexivity|]. f_equal. exact IH. Qed.

  Lemma fst_error : forall ids, map fst (error_updates F ids) = ids.
  Proof. intros [|i ids]; cbn; [reflexivity|]. f_equal. apply fst_empty. Qed.

  Lemma nth_empty : forall ids n i, nth_error ids n = Some i -> nth_error (empty_updates F ids) n = Some (i, UEmpty).
  Proof. intros ids n i H. unfold empty_updates. apply (map_nth_error (fun i => (i, @UEmpty F))). exact H. Qed.

  Lemma read_one_readable : forall i e, readable F (read e) -> read_one E F read i e = ([(i, update_of F (read e))], false, true).
  Proof. intros i e H. unfold read_one. destruct (read e) as [f| | |r]; cbn in *; try reflexivity. contradiction. Qed.

  Lemma read_list_answers : forall ids es flag, Forall (fun e => readable F (read e)) es ->
    exists us flag', read_list flag ids es true = (us, flag', true, combine ids es) /\ answers E F read ids es us.
  Proof.
    induction ids as [|i ids IH]; intros es flag R.
    - exists [], flag. split; [destruct es; reflexivity|]. split; [reflexivity|]. intros [|n] i H; discriminate.
    - destruct es as [|e es].
      + exists ((i, UError) :: empty_updates F ids), flag. split; [reflexivity|]. split.
        * cbn. unfold empty_updates. rewrite map_length. reflexivity.
        * intros [|n] i' H; cbn in H |- *; [injection H as <-; reflexivity|].
          apply nth_empty. exact H.
      + apply Forall_cons_iff in R. destruct R as [R R'].
        destruct (IH es false R') as (us & flag' & Eq & L & A).
        exists ((i, update_of F (read e)) :: us), flag'. split.
        * cbn [Batch.read_list]. rewrite (read_one_readable i e R), Eq. reflexivity.
        * split; [cbn; rewrite L; reflexivity|]. intros [|n] i' H; cbn in H |- *; [injection H as <-; reflexivity|].
          rewrite (A n i' H). reflexivity.
  Qed.

  Lemma read_list_covers : forall ids es flag closed i, In i ids ->
    In i (map fst (fst (fst (fst (read_list flag ids es closed))))).
  Proof.
    induction ids as [|i ids IH]; intros es flag closed j J; [contradiction|].
    destruct es as [|e es]; cbn [Batch.read_list].
    - destruct closed; cbn [fst map]; rewrite fst_empty; cbn; [exact J|]. destruct flag; exact J.
    - unfold read_one.
      assert (Skip : forall u f0 st0 (b0 b1 : bool), In j (map fst (fst (fst (fst (
        let '(us', flag'', ok', st) := read_list f0 ids es closed in
        ([(i, u)] ++ us', flag'', ok', st0 st : list (id * E)))))))).
      { intros u f0 st0 _ _. specialize (IH es f0 closed j).
        destruct (read_list f0 ids es closed) as [[[us' f'] ok'] st]. cbn in IH |- *.
        destruct J as [<-|J]; [left; reflexivity|right; apply IH; exact J]. }
      destruct (read e) as [f| | |r].
      + exact (Skip (UFields f) false (cons (i, e)) true true).
      + exact (Skip UEmpty false (cons (i, e)) true true).
      + exact (Skip UError false (cons (i, e)) true true).
      + destruct r; cbn [fst app map]; rewrite fst_empty; destruct J as [<-|J]; cbn; auto.
  Qed.

  Lemma read_list_fields : forall ids es flag closed i f,
    In (i, UFields f) (fst (fst (fst (read_list flag ids es closed)))) ->
    exists n e, nth_error ids n = Some i /\ nth_error es n = Some e /\ read e = Fields f.
  Proof.
    assert (Nempty : forall ids i f, ~ In (i, @UFields F f) (empty_updates F ids)).
    { intros ids i f H. unfold empty_updates in H. apply in_map_iff in H. destruct H as (x & H & _). discriminate. }
    induction ids as [|i0 ids IH]; intros es flag closed i f H; [contradiction|].
    destruct es as [|e es]; cbn [Batch.read_list] in H.
    - exfalso. destruct closed; cbn in H.
      + destruct H as [H|H]; [discriminate|exact (Nempty _ _ _ H)].
      + destruct H as [H|H]; [destruct flag; discriminate|exact (Nempty _ _ _ H)].
    - unfold read_one in H.
      assert (Rec : forall f0, In (i, UFields f) (fst (fst (fst (read_list f0 ids es closed)))) ->
        exists n e', nth_error (i0 :: ids) n = Some i /\ nth_error (e :: es) n = Some e' /\ read e' = Fields f).
      { intros f0 H'. destruct (IH es f0 closed i f H') as (n & e' & A & B & C). exists (S n), e'. auto. }
      destruct (read e) as [f'| | |r] eqn:R.
      + destruct (read_list false ids es closed) as [[[us' f''] ok'] st] eqn:L. cbn in H.
        destruct H as [H|H].
        * injection H as <- <-. exists 0, e. auto.
        * apply (Rec false). rewrite L. exact H.
      + destruct (read_list false ids es closed) as [[[us' f''] ok'] st] eqn:L. cbn in H.
        destruct H as [H|H]; [discriminate|]. apply (Rec false). rewrite L. exact H.
      + destruct (read_list false ids es closed) as [[[us' f''] ok'] st] eqn:L. cbn in H.
        destruct H as [H|H]; [discriminate|]. apply (Rec false). rewrite L. exact H.
      + exfalso. destruct r; cbn in H; (destruct H as [H|[H|H]]; [discriminate|discriminate|exact (Nempty _ _ _ H)]).
  Qed.

  Lemma read_list_stored : forall ids es flag closed i e, In (i, e) (snd (read_list flag ids es closed)) ->
    exists n, nth_error ids n = Some i /\ nth_error es n = Some e /\ readable F (read e).
  Proof.
    induction ids as [|i0 ids IH]; intros es flag closed i e H; [contradiction|].
    destruct es as [|e0 es]; cbn [Batch.read_list] in H; [destruct closed; contradiction|].
    unfold read_one in H. destruct (read e0) as [f'| | |r] eqn:R.
    4: { destruct r; contradiction. }
    all: destruct (read_list false ids es closed) as [[[us' f''] ok'] st] eqn:L; cbn in H;
      (destruct H as [H|H]; [injection H as <- <-; exists 0; rewrite R; cbn; auto|]);
      (assert (H' : In (i, e) (snd (read_list false ids es closed))) by (rewrite L; exact H));
      destruct (IH _ _ _ _ _ H') as (n & A & B & C); exists (S n); auto.
  Qed.

  (** ** Reading the body *)

  Definition ran (ids : list id) (es : list E) (p p' : progress) : Prop :=
    exists closed, p' = fst (run_list p ids es closed).

  Section Body.
    Variable nie : bool.
    Variable ids : list id.

    Notation read_entities := (read_entities E F read nie ids).
    Notation data_members := (data_members E F read nie ids).
    Notation read_data := (read_data E F read nie ids).
    Notation body_members := (body_members E F read nie ids).

    Definition entities_elements (v : entities E) : list E := match v with EList es _ => es | _ => [] end.

    Lemma read_entities_shape : forall p v,
      read_entities p v = (p, false) \/
      exists closed, read_entities p v = run_list p ids (entities_elements v) closed.
    Proof.
      intros p [| |es c]; cbn.
      - destruct nie; [right; exists true; reflexivity|left; reflexivity].
      - left. reflexivity.
      - right. exists c. reflexivity.
    Qed.

    Lemma data_members_taken : forall ms p closed, fst (data_members p true ms closed) = p.
    Proof. induction ms as [|[v|] ms IH]; intros p closed; cbn; [destruct closed; reflexivity|reflexivity|apply IH]. Qed.

    Lemma data_members_shape : forall ms p closed p' ok, data_members p false ms closed = (p', ok) ->
      (p' = p /\ ok = false) \/
      ran ids (match first_entities E ms with Some (EList es _) => es | _ => [] end) p p'.
    Proof.
      induction ms as [|[v|] ms IH]; intros p closed p' ok H; cbn [Batch.data_members first_entities] in *.
      - destruct closed; [|left; injection H as <- <-; auto]. injection H as <- <-. right. exists true. reflexivity.
      - destruct (read_entities_shape p v) as [R|(c & R)]; rewrite R in H.
        + injection H as <- <-. left. auto.
        + right. exists c. destruct (run_list p ids (entities_elements v) c) as [q b] eqn:Q.
          pose proof (data_members_taken ms q closed) as T. destruct b.
          * rewrite H in T. cbn in T. subst p'. unfold entities_elements in Q. rewrite Q. reflexivity.
          * injection H as <- _. unfold entities_elements in Q. rewrite Q. reflexivity.
      - apply (IH p closed p' ok H).
    Qed.

    Lemma body_members_read : forall ms p b errors closed, fst (body_members p (Some b) errors ms closed) = p.
    Proof.
      induction ms as [|[d|n|] ms IH]; intros p b errors closed; cbn.
      - destruct closed; reflexivity.
      - reflexivity.
      - destruct errors; [reflexivity|]. destruct n; [apply IH|reflexivity].
      - apply IH.
    Qed.

    Lemma body_members_shape : forall ms p errors closed p' st, body_members p None errors ms closed = (p', st) ->
      (p' = p /\ st = None) \/
      ran ids (elements_of E (BObject ms closed)) p p'.
    Proof.
      induction ms as [|[d|n|] ms IH]; intros p errors closed p' st H; cbn [Batch.body_members] in H.
      - destruct closed; [|left; injection H as <- <-; auto]. injection H as <- <-. right. exists true. reflexivity.
      - destruct (read_data p d) as [q ok] eqn:D.
        assert (Sh : (q = p /\ ok = false) \/ ran ids (elements_of E (BObject (MData d :: ms) closed)) p q).
        { cbn [elements_of first_data]. destruct d as [| |ds c]; cbn [Batch.read_data] in D.
          - right. injection D as <- _. exists true. reflexivity.
          - right. injection D as <- _. exists true. reflexivity.
          - apply (data_members_shape _ _ _ _ _ D). }
        destruct ok.
        + pose proof (body_members_read ms q (data_is_null E d) errors closed) as T. rewrite H in T. cbn in T. subst p'.
          destruct Sh as [[_ X]|Sh]; [discriminate|right; exact Sh].
        + injection H as <- <-. destruct Sh as [[-> _]|Sh]; [left; auto|right; exact Sh].
      - destruct errors; [left; injection H as <- <-; auto|]. destruct n; [|left; injection H as <- <-; auto].
        apply (IH _ _ _ _ _ H).
      - apply (IH _ _ _ _ _ H).
    Qed.

    Lemma read_body_shape : forall p b p' st, read_body E F read nie ids p b = (p', st) ->
      (p' = p /\ st = None) \/ ran ids (elements_of E b) p p'.
    Proof.
      intros p [|ms c] p' st H; cbn [read_body] in H; [left; injection H as <- <-; auto|].
      apply (body_members_shape _ _ _ _ _ _ H).
    Qed.

    (** *** Valid responses *)

    Lemma no_entities : forall ms, length (filter (is_entities E) ms) = 0 -> first_entities E ms = None.
    Proof. induction ms as [|[v|] ms IH]; cbn; intros H; [reflexivity|discriminate|auto]. Qed.

    Lemma no_data : forall ms, length (filter (is_data E) ms) = 0 -> first_data E ms = None.
    Proof. induction ms as [|[d|n|] ms IH]; cbn; intros H; [reflexivity|discriminate|auto|auto]. Qed.

    Lemma data_taken_valid : forall ms p, length (filter (is_entities E) ms) = 0 -> data_members p true ms true = (p, true).
    Proof. induction ms as [|[v|] ms IH]; cbn; intros p H; [reflexivity|discriminate|auto]. Qed.

    Lemma run_ok : forall p es, Forall (fun e => readable F (read e)) es -> run_list p ids es true = (fst (run_list p ids es true), true).
    Proof.
      intros p es R. unfold Batch.run_list. destruct (read_list_answers ids es (p_flag E F p) R) as (us & flag' & Eq & _). rewrite Eq. reflexivity.
    Qed.

    Lemma data_valid_run : forall ms p,
      length (filter (is_entities E) ms) <= 1 ->
      Forall (fun m => match m with
                         | DEntities (EList es c) => c = true /\ Forall (fun e => readable F (read e)) es
                         | DEntities _ => False
                         | DUnknown => True end) ms ->
      let es := match first_entities E ms with Some (EList es _) => es | _ => [] end in
      data_members p false ms true = (fst (run_list p ids es true), true) /\ Forall (fun e => readable F (read e)) es.
    Proof.
      induction ms as [|[v|] ms IH]; intros p L R; cbn [Batch.data_members first_entities].
      - split; [reflexivity|constructor].
      - apply Forall_cons_iff in R. destruct R as [R _]. destruct v as [| |es c]; try contradiction. destruct R as [-> R].
        split; [|exact R]. cbn [Batch.read_entities]. rewrite (run_ok p es R). cbn in L.
        rewrite (data_taken_valid ms _ ltac:(lia)). reflexivity.
      - apply Forall_cons_iff in R. destruct R as [_ R]. apply IH; [exact L|exact R].
    Qed.

    Lemma body_read_valid : forall ms p b errors,
      length (filter (is_data E) ms) = 0 ->
      length (filter (is_errors E) ms) <= (match errors with Some _ => 0 | None => 1 end) ->
      Forall (fun m => match m with MData d => data_valid E F read d | MErrors n => n <> None | MUnknown => True end) ms ->
      exists st, body_members p (Some b) errors ms true = (p, Some st).
    Proof.
      induction ms as [|[d|n|] ms IH]; intros p b errors L Le R; cbn [Batch.body_members].
      - eexists. reflexivity.
      - discriminate.
      - apply Forall_cons_iff in R. destruct R as [R R']. destruct errors as [k|]; [cbn in Le; lia|].
        destruct n as [n|]; [|congruence]. apply IH; [exact L|cbn in Le; lia|exact R'].
      - apply Forall_cons_iff in R. destruct R as [R R']. apply IH; assumption.
    Qed.

    Lemma body_valid : forall ms p errors,
      length (filter (is_data E) ms) <= 1 ->
      length (filter (is_errors E) ms) <= (match errors with Some _ => 0 | None => 1 end) ->
      Forall (fun m => match m with MData d => data_valid E F read d | MErrors n => n <> None | MUnknown => True end) ms ->
      exists st, body_members p None errors ms true = (fst (run_list p ids (elements_of E (BObject ms true)) true), Some st) /\
        Forall (fun e => readable F (read e)) (elements_of E (BObject ms true)).
    Proof.
      induction ms as [|[d|n|] ms IH]; intros p errors L Le R; cbn [Batch.body_members].
      - eexists. split; [reflexivity|constructor].
      - apply Forall_cons_iff in R. destruct R as [R R']. cbn in L.
        assert (D : read_data p d = (fst (run_list p ids (elements_of E (BObject (MData d :: ms) true)) true), true) /\
          Forall (fun e => readable F (read e)) (elements_of E (BObject (MData d :: ms) true))).
        { cbn [elements_of first_data]. destruct d as [| |ds c]; cbn [Batch.read_data].
          - split; [reflexivity|constructor].
          - split; [reflexivity|constructor].
          - destruct R as (-> & Ld & Rd). apply (data_valid_run ds p Ld Rd). }
        destruct D as [D Rd]. rewrite D.
        destruct (body_read_valid ms (fst (run_list p ids (elements_of E (BObject (MData d :: ms) true)) true)) (data_is_null E d) errors ltac:(lia) Le R') as (st & B).
        exists st. split; [exact B|exact Rd].
      - apply Forall_cons_iff in R. destruct R as [R R']. destruct errors as [k|]; [cbn in Le; lia|].
        destruct n as [n|]; [|congruence]. apply (IH p (Some n)); [exact L|cbn in Le; lia|exact R'].
      - apply Forall_cons_iff in R. destruct R as [R R']. apply (IH p errors); assumption.
    Qed.

    Lemma read_body_valid : forall p b, valid E F read b ->
      exists st, read_body E F read nie ids p b = (fst (run_list p ids (elements_of E b) true), Some st) /\
        Forall (fun e => readable F (read e)) (elements_of E b).
    Proof.
      intros p [|ms c] V; [contradiction|]. destruct V as (-> & L & Le & R). apply (body_valid ms p None L Le R).
    Qed.

    Lemma run_updates : forall p es closed,
      p_updates E F (fst (run_list p ids es closed)) = p_updates E F p ++ fst (fst (fst (read_list (p_flag E F p) ids es closed))) /\
      p_used E F (fst (run_list p ids es closed)) = true /\
      p_stored E F (fst (run_list p ids es closed)) = p_stored E F p ++ snd (read_list (p_flag E F p) ids es closed).
    Proof. intros p es closed. unfold Batch.run_list. destruct (read_list _ ids es closed) as [[[us f] ok] st]. cbn. auto. Qed.
  End Body.

  (** ** The claims *)

  (** The updates of the objects found in the cache. *)
  Definition hit_update (o : outcome F) : update F :=
    match o with
    | Fields f => UFields f
    | Null => UEmpty
    | Fails true => UPropagated
    | _ => UError
    end.

  Lemma ingest_hits_updates : forall hits flag,
    fst (ingest_hits E F read flag hits) = map (fun h => (fst h, hit_update (read (snd h)))) hits.
  Proof.
    induction hits as [|[i e] hits IH]; intros flag; cbn; [reflexivity|]. unfold read_one, hit_update.
    destruct (read e) as [f| | |[|]];
      match goal with |- context [ingest_hits E F read ?fl hits] =>
        specialize (IH fl); destruct (ingest_hits E F read fl hits) as [us f']; cbn in *; rewrite IH; reflexivity end.
  Qed.

  Lemma ingest_hits_flag : forall hits, Forall (fun h => readable F (read (snd h))) hits -> snd (ingest_hits E F read false hits) = false.
  Proof.
    induction hits as [|[i e] hits IH]; intros R; cbn; [reflexivity|]. apply Forall_cons_iff in R. destruct R as [R R'].
    rewrite (read_one_readable i e R). specialize (IH R'). destruct (ingest_hits E F read false hits) as [us f]. exact IH.
  Qed.

  Lemma lookup_spec : forall cache ids h m, lookup E cache ids = (h, m) ->
    Permutation (map fst h ++ m) ids /\
    (forall i e, In (i, e) h -> cache i = Some e) /\ (forall i, In i m -> cache i = None) /\
    m = filter (fun i => match cache i with Some _ => false | None => true end) ids.
  Proof.
    intros cache ids. induction ids as [|i ids IH]; intros h m H; cbn in H.
    - injection H as <- <-. split; [constructor|]. split; [contradiction|]. split; [contradiction|reflexivity].
    - destruct (lookup E cache ids) as [h' m'] eqn:L. destruct (IH h' m' eq_refl) as (P & A & B & Fm). cbn [filter].
      destruct (cache i) as [e|] eqn:C; injection H as <- <-.
      + split; [cbn; constructor; exact P|]. split; [|split; [exact B|exact Fm]].
        intros j e' [H|H]; [injection H as <- <-; exact C|apply A; exact H].
      + split; [apply Permutation_sym, Permutation_cons_app, Permutation_sym; exact P|]. split; [exact A|].
        split; [intros j [<-|H]; [exact C|apply B; exact H]|f_equal; exact Fm].
  Qed.

  Variable parents : list id.
  Variable complete : id -> bool.

  Notation fetched := (filter complete parents).
  Notation incomplete := (filter (fun i => negb (complete i)) parents).

  (** What the subgraph answers to the objects it is asked for, in order. *)
  Theorem C23_answers_partial : forall subgraph b, fetched <> [] -> subgraph fetched = Http b -> valid E F read b ->
    exists us, fst (execute E F read parents complete None subgraph) = empty_updates F incomplete ++ us /\
      answers E F read fetched (elements_of E b) us.
  Proof.
    intros subgraph b Ne Sg V. unfold execute. destruct fetched as [|i0 r0] eqn:Fe; [contradiction|]. rewrite <- Fe in *.
    rewrite Sg. unfold ingest. destruct (read_body_valid true fetched (MkP E F [] false false []) b V) as (st & Rb & R).
    rewrite Rb. destruct (run_updates fetched (MkP E F [] false false []) (elements_of E b) true) as (U & _ & _).
    rewrite U. cbn [p_updates p_flag]. destruct (read_list_answers fetched (elements_of E b) false R) as (us & fl & Eq & A).
    rewrite Eq. exists us. split; [reflexivity|exact A].
  Qed.

  (** With the cache enabled: what is in the cache is not asked for. *)
  Theorem C23_answers_cached_partial : forall cache subgraph, fetched <> [] ->
    let misses := filter (fun i => match cache i with Some _ => false | None => true end) fetched in
    (forall b, misses <> [] -> subgraph misses = Http b -> valid E F read b) -> subgraph misses <> HttpError ->
    exists hits us, fst (execute E F read parents complete (Some cache) subgraph) =
        empty_updates F incomplete ++ map (fun h => (fst h, hit_update (read (snd h)))) hits ++ us /\
      Permutation (map fst hits ++ misses) fetched /\
      (forall i e, In (i, e) hits -> cache i = Some e) /\
      (misses = [] -> us = []) /\
      (forall b, misses <> [] -> subgraph misses = Http b -> answers E F read misses (elements_of E b) us).
  Proof.
    intros cache subgraph Ne misses V Nh.
    destruct (lookup E cache fetched) as [h m] eqn:L. destruct (lookup_spec cache fetched h m L) as (P & A & B & Fm).
    fold misses in Fm. clearbody misses. subst m.
    unfold execute. destruct fetched as [|i0 r0] eqn:Fe; [contradiction|]. rewrite <- Fe in *. rewrite L. exists h. destruct misses as [|m0 mr] eqn:M.
    - exists []. split; [cbn [fst]; rewrite app_nil_r, ingest_hits_updates; reflexivity|]. split; [exact P|]. split; [exact A|].
      split; [auto|]. intros b X. contradiction.
    - destruct (subgraph (m0 :: mr)) as [|b] eqn:Sg; [contradiction|].
      specialize (V b ltac:(discriminate) eq_refl). unfold ingest_cached.
      pose proof (ingest_hits_updates h false) as Hu. destruct (ingest_hits E F read false h) as [hs flag] eqn:Hh. cbn in Hu. subst hs.
      destruct (read_body_valid false (m0 :: mr) (MkP E F (map (fun h => (fst h, hit_update (read (snd h)))) h) flag false []) b V) as (st & Rb & R).
      rewrite Rb. destruct (run_updates (m0 :: mr) (MkP E F (map (fun h => (fst h, hit_update (read (snd h)))) h) flag false []) (elements_of E b) true) as (U & _ & _).
      destruct (read_list_answers (m0 :: mr) (elements_of E b) flag R) as (us & fl & Eq & An).
      exists us. split; [|split; [exact P|split; [exact A|split; [discriminate|intros b' _ X; injection X as <-; exact An]]]].
      destruct st; cbn [fst]; rewrite U; cbn [p_updates p_flag]; rewrite Eq; cbn [fst]; rewrite <- ?app_assoc; reflexivity.
  Qed.

  (** Data only ever comes from the element at the same position as the object, or
      from the cache entry of the object: for every response. *)
  Theorem C23_attribution : forall cache subgraph i f,
    In (i, UFields f) (fst (execute E F read parents complete cache subgraph)) ->
    (exists c e, cache = Some c /\ c i = Some e /\ read e = Fields f) \/
    (exists asked b n e, subgraph asked = Http b /\
       asked = filter (fun i => match cache with Some c => match c i with Some _ => false | None => true end | None => true end) fetched /\
       nth_error asked n = Some i /\ nth_error (elements_of E b) n = Some e /\ read e = Fields f).
  Proof.
    assert (Nempty : forall ids i f, ~ In (i, @UFields F f) (empty_updates F ids)).
    { intros ids i f H. unfold empty_updates in H. apply in_map_iff in H. destruct H as (x & H & _). discriminate. }
    assert (Nerror : forall ids i f, ~ In (i, @UFields F f) (error_updates F ids)).
    { intros [|j ids] i f H; [contradiction|]. destruct H as [H|H]; [discriminate|exact (Nempty _ _ _ H)]. }
    intros cache subgraph i f H. unfold execute in H.
    destruct fetched as [|i0 r0] eqn:Fe; [cbn in H; exfalso; exact (Nempty _ _ _ H)|]. rewrite <- Fe in *.
    destruct cache as [c|].
    - destruct (lookup E c fetched) as [h m] eqn:L. destruct (lookup_spec c fetched h m L) as (P & A & B & Fm).
      assert (Hits : forall flag, In (i, UFields f) (fst (ingest_hits E F read flag h)) ->
        exists c' e, Some c = Some c' /\ c' i = Some e /\ read e = Fields f).
      { intros flag Hi. rewrite ingest_hits_updates in Hi. apply in_map_iff in Hi. destruct Hi as ((j & e) & Eq & I). cbn in Eq.
        injection Eq as -> Eq. exists c, e. split; [reflexivity|]. split; [apply A; exact I|].
        unfold hit_update in Eq. destruct (read e) as [f'| | |[|]]; try discriminate. injection Eq as ->. reflexivity. }
      destruct m as [|m0 mr] eqn:M.
      + cbn [fst] in H. apply in_app_iff in H. destruct H as [H|H]; [exfalso; exact (Nempty _ _ _ H)|]. left. exact (Hits _ H).
      + unfold ingest_cached in H. destruct (subgraph (m0 :: mr)) as [|b] eqn:Sg.
        * cbn [fst] in H. apply in_app_iff in H. exfalso. destruct H as [H|H]; [exact (Nempty _ _ _ H)|exact (Nerror _ _ _ H)].
        * destruct (ingest_hits E F read false h) as [hs flag] eqn:Hh.
          destruct (read_body E F read false (m0 :: mr) (MkP E F hs flag false []) b) as [p st] eqn:Rb.
          assert (Hp : In (i, UFields f) (p_updates E F p)).
          { destruct st as [[| |]|]; cbn [fst] in H; rewrite ?in_app_iff in H; destruct H as [H|H]; try (exfalso; exact (Nempty _ _ _ H)); try exact H.
            destruct H as [H|H]; [exact H|]. destruct (p_flag E F p); [contradiction|]. exfalso. exact (Nerror _ _ _ H). }
          destruct (read_body_shape _ _ _ _ _ _ Rb) as [[-> _]|(cl & ->)].
          -- left. apply (Hits false). rewrite Hh. exact Hp.
          -- destruct (run_updates (m0 :: mr) (MkP E F hs flag false []) (elements_of E b) cl) as (U & _ & _). rewrite U in Hp.
             cbn [p_updates p_flag] in Hp. apply in_app_iff in Hp. destruct Hp as [Hp|Hp]; [left; apply (Hits false); rewrite Hh; exact Hp|].
             destruct (read_list_fields _ _ _ _ _ _ Hp) as (n & e & X & Y & Z).
             right. exists (m0 :: mr), b, n, e. auto.
    - cbn [fst] in H. apply in_app_iff in H. destruct H as [H|H]; [exfalso; exact (Nempty _ _ _ H)|].
      right. unfold ingest in H. destruct (subgraph fetched) as [|b] eqn:Sg; [exfalso; exact (Nerror _ _ _ H)|].
      destruct (read_body E F read true fetched (MkP E F [] false false []) b) as [p st] eqn:Rb.
      assert (Hp : In (i, UFields f) (p_updates E F p)).
      { destruct st; [exact H|]. apply in_app_iff in H. destruct H as [H|H]; [exact H|].
        destruct (p_flag E F p); [contradiction|]. exfalso. exact (Nerror _ _ _ H). }
      destruct (read_body_shape _ _ _ _ _ _ Rb) as [[-> _]|(cl & ->)]; [contradiction|].
      destruct (run_updates fetched (MkP E F [] false false []) (elements_of E b) cl) as (U & _ & _). rewrite U in Hp.
      cbn [p_updates p_flag app] in Hp. destruct (read_list_fields _ _ _ _ _ _ Hp) as (n & e & X & Y & Z).
      exists fetched, b, n, e. split; [exact Sg|]. split; [|auto].
      symmetry. clear. induction parents as [|x l IH]; cbn; [reflexivity|]. destruct (complete x); cbn; [f_equal|]; exact IH.
  Qed.

  (** Every object gets an update, whatever the subgraph answers; with the cache
      enabled, if what was read from it could be read. *)
  Theorem C23_updated_partial : forall cache subgraph i, In i parents ->
    (forall c j e, cache = Some c -> c j = Some e -> readable F (read e)) ->
    In i (map fst (fst (execute E F read parents complete cache subgraph))).
  Proof.
    intros cache subgraph i I R. unfold execute.
    destruct (complete i) eqn:C.
    2: { assert (In i (map fst (empty_updates F incomplete))).
         { rewrite fst_empty. apply filter_In. rewrite C. auto. }
         destruct fetched as [|i0 r0]; [assumption|]. destruct cache as [c|].
         - destruct (lookup E c (i0 :: r0)) as [h [|m0 mr]]; [cbn [fst]; rewrite map_app, in_app_iff; auto|].
           destruct (ingest_cached _ _ _ _ _ _ _) as [us st]. cbn [fst]. rewrite map_app, in_app_iff. auto.
         - cbn [fst]. rewrite map_app, in_app_iff. auto. }
    assert (If : In i fetched) by (apply filter_In; auto).
    destruct fetched as [|i0 r0] eqn:Fe; [contradiction|]. rewrite <- Fe in *. clear i0 r0 Fe.
    destruct cache as [c|].
    - destruct (lookup E c fetched) as [h m] eqn:L. destruct (lookup_spec c fetched h m L) as (P & A & B & Fm).
      assert (Rh : Forall (fun x => readable F (read (snd x))) h).
      { apply Forall_forall. intros [j e] J. apply (R c j e eq_refl). apply A. exact J. }
      assert (Hits : forall flag, In i (map fst h) -> In i (map fst (fst (ingest_hits E F read flag h)))).
      { intros flag H. rewrite ingest_hits_updates, map_map. cbn. exact H. }
      assert (Or : In i (map fst h) \/ In i m).
      { apply in_app_iff. apply (Permutation_in i (Permutation_sym P)). exact If. }
      destruct m as [|m0 mr] eqn:M.
      + cbn [fst]. rewrite map_app, in_app_iff. right. destruct Or as [Or|[]]. apply Hits. exact Or.
      + unfold ingest_cached. destruct (subgraph (m0 :: mr)) as [|b].
        { cbn [fst]. rewrite map_app, in_app_iff, fst_error. auto. }
        pose proof (Hits false) as Hi. pose proof (ingest_hits_flag h Rh) as Hf.
        destruct (ingest_hits E F read false h) as [hs flag] eqn:Hh. cbn in Hf, Hi. subst flag.
        destruct (read_body E F read false (m0 :: mr) (MkP E F hs false false []) b) as [p st] eqn:Rb.
        destruct (read_body_shape _ _ _ _ _ _ Rb) as [[-> ->]|(cl & ->)].
        * cbn [fst p_updates p_flag p_used]. rewrite !map_app, !in_app_iff, fst_error.
          destruct Or as [Or|Or]; [right; left; apply Hi; exact Or|right; right; exact Or].
        * destruct (run_updates (m0 :: mr) (MkP E F hs false false []) (elements_of E b) cl) as (U & _ & _).
          assert (Ip : In i (map fst (p_updates E F (fst (run_list (MkP E F hs false false []) (m0 :: mr) (elements_of E b) cl))))).
          { rewrite U. cbn [p_updates p_flag]. rewrite map_app, in_app_iff.
            destruct Or as [Or|Or]; [left; apply Hi; exact Or|right; apply read_list_covers; exact Or]. }
          destruct st as [[| |]|]; cbn [fst]; rewrite !map_app, !in_app_iff; auto.
    - cbn [fst]. rewrite map_app, in_app_iff. right. unfold ingest.
      destruct (subgraph fetched) as [|b]; [rewrite fst_error; exact I|].
      destruct (read_body E F read true fetched (MkP E F [] false false []) b) as [p st] eqn:Rb.
      destruct (read_body_shape _ _ _ _ _ _ Rb) as [[-> ->]|(cl & ->)].
      + cbn. rewrite fst_error. exact I.
      + destruct (run_updates fetched (MkP E F [] false false []) (elements_of E b) cl) as (U & _ & _).
        assert (Ip : In i (map fst (p_updates E F (fst (run_list (MkP E F [] false false []) fetched (elements_of E b) cl))))).
        { rewrite U. cbn [p_updates p_flag app]. apply read_list_covers. exact If. }
        destruct st; [exact Ip|]. rewrite map_app, in_app_iff. left. exact Ip.
  Qed.

  (** What is stored for an entity is what the subgraph returned for it. *)
  Theorem C23_stored : forall cache subgraph i e,
    In (i, e) (snd (execute E F read parents complete cache subgraph)) ->
    exists c b n, cache = Some c /\
      let asked := filter (fun i => match c i with Some _ => false | None => true end) fetched in
      subgraph asked = Http b /\ nth_error asked n = Some i /\ nth_error (elements_of E b) n = Some e /\ readable F (read e).
  Proof.
    intros cache subgraph i e H. unfold execute in H.
    destruct fetched as [|i0 r0] eqn:Fe; [contradiction|]. rewrite <- Fe in *. clear i0 r0 Fe.
    destruct cache as [c|]; [|contradiction].
    destruct (lookup E c fetched) as [h m] eqn:L. destruct (lookup_spec c fetched h m L) as (_ & _ & _ & Fm).
    destruct m as [|m0 mr] eqn:M; [contradiction|]. unfold ingest_cached in H.
    destruct (subgraph (m0 :: mr)) as [|b] eqn:Sg; [contradiction|].
    destruct (ingest_hits E F read false h) as [hs flag].
    destruct (read_body E F read false (m0 :: mr) (MkP E F hs flag false []) b) as [p st] eqn:Rb.
    destruct st as [[| |]|]; cbn [snd] in H; try contradiction.
    destruct (read_body_shape _ _ _ _ _ _ Rb) as [[-> X]|(cl & ->)]; [discriminate|].
    destruct (run_updates (m0 :: mr) (MkP E F hs flag false []) (elements_of E b) cl) as (_ & _ & S0). rewrite S0 in H. cbn [p_stored p_flag app] in H.
    destruct (read_list_stored _ _ _ _ _ _ H) as (n & X & Y & Z).
    exists c, b, n. split; [reflexivity|]. cbv zeta. rewrite <- Fm. auto.
  Qed.
End Proofs.

(** ** Errors of the subgraph *)

(** entities.rs 225-251: a path of an error, its segments being strings, numbers or
    anything else; [None]: a number that is not a [u64]. *)
Inductive segment := SName (s : bytes) | SIndex (n : option nat) | SOther.

Inductive out_segment := OName (s : bytes) | OIndex (n : nat).

(** "_entities" *)
Definition entities_name : bytes := [95; 101; 110; 116; 105; 116; 105; 101; 115]%N.

Fixpoint out_path (p : list segment) : option (list out_segment) :=
  match p with
  | [] => Some []
  | s :: r =>
      match s, out_path r with
      | SName n, Some o => Some (OName n :: o)
      | SIndex (Some n), Some o => Some (OIndex n :: o)
      | _, _ => None
      end
  end.

(** The object and the path below it. *)
Definition convert (fetched : list id) (path : list segment) : option (id * list out_segment) :=
  match path with
  | SName s :: SIndex (Some n) :: r =>
      if beqb s entities_name then
        match nth_error fetched n, out_path r with
        | Some i, Some o => Some (i, o)
        | _, _ => None
        end
      else None
  | _ => None
  end.

Definition in_segment (o : out_segment) : segment :=
  match o with OName s => SName s | OIndex n => SIndex (Some n) end.

Lemma out_path_spec : forall r o, out_path r = Some o <-> r = map in_segment o.
Proof.
  induction r as [|s r IH]; intros o; cbn.
  - split; [intros H; injection H as <-; reflexivity|]. destruct o; [reflexivity|discriminate].
  - split.
    + intros H. destruct s as [n|[n|]|]; try discriminate; (destruct (out_path r) as [o'|] eqn:O; [|discriminate]);
        injection H as <-; cbn; f_equal; apply IH; reflexivity.
    + destruct o as [|[n|n] o]; cbn; intros H; [discriminate| |]; injection H as -> H; rewrite (proj2 (IH o) H); reflexivity.
Qed.

(** An error at [_entities], n, rest is shown below the n-th object that was asked for,
    at the same rest; no other error is. *)
Theorem C23_error_paths : forall fetched path i o, convert fetched path = Some (i, o) <->
  exists n, path = SName entities_name :: SIndex (Some n) :: map in_segment o /\ nth_error fetched n = Some i.
Proof.
  intros fetched path i o. unfold convert. split.
  - intros H. destruct path as [|[s| |] [|[| [n|]|] r]]; try discriminate.
    destruct (beqb s entities_name) eqn:B; [|discriminate]. apply beqb_eq in B. subst s.
    destruct (nth_error fetched n) as [j|] eqn:N; [|discriminate]. destruct (out_path r) as [o'|] eqn:O; [|discriminate].
    injection H as -> ->. exists n. rewrite (proj1 (out_path_spec r o) O). auto.
  - intros (n & -> & N). rewrite beqb_refl, N, (proj2 (out_path_spec _ o) eq_refl). reflexivity.
Qed.
