(** C24, C29, C30: what a request executes, whatever was cached before. *)

From Coq Require Import List Arith NArith Bool Lia.
From Verif.OpCache Require Import Tiered Model Spec Keys.
Import ListNotations.
Local Open Scope nat_scope.

(** ** C24: the key of an operation *)

(** Two operations have the same key only if they are for the same schema, the
    same operation name and the same document.  Missing: names with NULs, and no
    name is not distinguished from the empty one. *)
Theorem C24_keys_partial : forall s s' k k', List.length s = List.length s' ->
  plain (dk_name k) -> plain (dk_name k') -> dk_sized k -> dk_sized k' ->
  key_bytes s k = key_bytes s' k' -> s = s' /\ same_document k k'.
Proof. exact key_bytes_inj. Qed.

(** No operation name, and an empty one. *)
Theorem C24_empty_name_refuted : forall s d, key_bytes s (KText None d) = key_bytes s (KText (Some []) d).
Proof. reflexivity. Qed.

(** "NULL bytes acting as a separator as it cannot be present in the operation
    name": nothing prevents it, the name is any string. *)
Theorem C24_nul_name_refuted : forall s n m d, exists k k',
  k = KText (Some n) (m ++ 0%N :: d) /\ k' = KText (Some (n ++ 0%N :: m)) d /\ key_bytes s k = key_bytes s k'.
Proof.
  intros s n m d. eexists. eexists. split; [reflexivity|]. split; [reflexivity|].
  unfold key_bytes. f_equal. cbn [name_bytes]. do 2 f_equal. rewrite <- app_assoc. reflexivity.
Qed.

Section Run.
  Variable sha256 : bytes -> bytes.
  Variable op : Type.
  Variable plan : bytes -> option bytes -> bytes -> option op.
  Variable digest : bytes -> bytes.
  Variable store : nat -> bytes -> bytes -> option bytes.
  Variable cfg : nat -> config.
  Variable schema : nat -> bytes.
  Variable enabled distributed : nat -> bool.
  Variable prefix : nat -> bytes.

  Variable klen : nat.
  (** The digest has a fixed length. *)
  Hypothesis digest_len : forall a, List.length (digest a) = klen.
  Hypothesis schema_len : forall g g', List.length (schema g) = List.length (schema g').
  (** An operation is only found by its name, which GraphQL restricts. *)
  Hypothesis plan_name : forall s n t o, plan s (Some n) t = Some o -> nul_free n /\ n <> [].
  (** Identifiers of trusted documents and the clients having some. *)
  Hypothesis store_ids : forall w c i t, store w c i = Some t -> nul_free c /\ nul_free i /\ small c /\ small i.

  Notation run := (s_run sha256 op plan digest store cfg schema enabled distributed prefix).
  Notation act := (s_act sha256 op plan digest store cfg schema enabled distributed prefix).
  Notation step := (s_step sha256 op plan digest store cfg schema enabled distributed prefix).
  Notation ckey := (cache_key digest schema).
  Notation trun := (t_run (cached op) enabled distributed prefix).
  Notation tdo := (t_do op enabled distributed prefix).

  (** A document key of one of the requests. *)
  Definition mentioned (es : list (sevent op)) (k : dockey) : Prop :=
    exists g r src, In (SRequest g r) es /\ extract sha256 (cfg g) r = Some (k, src).

  (** The digest has no collision among the operations of a run. *)
  Definition no_collision (es : list (sevent op)) : Prop := forall g g' k k', mentioned es k -> mentioned es k' ->
    digest (key_bytes (schema g) k) = digest (key_bytes (schema g') k') -> key_bytes (schema g) k = key_bytes (schema g') k'.

  (** The text designated by a document key. *)
  Definition legit (now : nat) (k : dockey) (t : bytes) : Prop :=
    match k with
    | KText _ d => t = d
    | KTrusted _ c i => exists w, w < now /\ store w c i = Some t
    | KApq _ e => e_version e = 1%N /\ sha256 t = e_hash e
    end.

  Definition entry (es : list (sevent op)) (k : bytes) (c : cached op) : Prop :=
    exists g, k = ckey g (c_key c) /\ plan (schema g) (dk_name (c_key c)) (c_text c) = Some (c_op c) /\
      legit (List.length es) (c_key c) (c_text c) /\ mentioned es (c_key c).

  Definition fits (k : dockey) (src : source) : Prop :=
    match k, src with
    | KText _ d, Inline t => t = d
    | KTrusted _ c i, Store c' i' => c = c' /\ i = i'
    | KApq _ e, ApqQuery _ e' => e = e'
    | _, _ => False
    end.

  Record proc_ok (h : list (sevent op)) (t : tier (cached op)) (p : proc op) : Prop := MkPok {
    po_extract : extract sha256 (cfg (p_gw p)) (p_req p) = Some (p_key p, p_src p);
    po_reader : exists st, nth_error (t_readers t) (p_reader p) = Some (p_gw p, ckey (p_gw p) (p_key p), st);
    po_done : forall c, p_state p = Finished (Some c) -> entry h (ckey (p_gw p) (p_key p)) c;
    po_mentioned : mentioned h (p_key p)
  }.

  Record ok (h : list (sevent op)) (s : sys op) : Prop := MkOk {
    ok_now : s_now s = List.length h;
    ok_tier : exists es, s_tier s = trun es /\ Forall (same_length klen) es /\
      forall k c, inserted es k c -> entry h k c;
    ok_procs : forall p, In p (s_procs s) -> proc_ok h (s_tier s) p;
    ok_inserts : forall g k c, In (g, k, c) (s_inserts s) -> entry h k c
  }.

  Lemma legit_later : forall n n' k t, n <= n' -> legit n k t -> legit n' k t.
  Proof. intros n n' [nm e|nm c i|nm d] t L H; cbn in *; auto. destruct H as (w & Hw & H). exists w. split; [lia|exact H]. Qed.

  Lemma mentioned_later : forall h e k, mentioned h k -> mentioned (h ++ [e]) k.
  Proof. intros h e k (g & r & src & I & X). exists g, r, src. split; [apply in_or_app; left; exact I|exact X]. Qed.

  Lemma entry_later : forall h e k c, entry h k c -> entry (h ++ [e]) k c.
  Proof.
    intros h e k c (g & E & P & H & M). exists g. split; [exact E|]. split; [exact P|].
    split; [|apply mentioned_later; exact M]. eapply legit_later; [|exact H]. rewrite app_length. lia.
  Qed.

  Lemma entry_len : forall h k c, entry h k c -> List.length k = klen.
  Proof. intros h k c (g & -> & _). apply digest_len. Qed.

  Lemma readers_keep : forall t e i g k st, nth_error (t_readers t) i = Some (g, k, st) ->
    exists st', nth_error (t_readers (tdo t e)) i = Some (g, k, st').
  Proof.
    intros t e i g k st H. unfold t_do. destruct e as [g' k' v|g' k'|j b|j b|g' k'|k']; cbn [t_step].
    - unfold t_insert. destruct (mem_insert_rest _ enabled t g' k' v) as (_ & _ & E).
      destruct (distributed g'); cbn; rewrite E; eauto.
    - cbn. exists st. rewrite nth_error_app1; [exact H|]. apply nth_error_Some. congruence.
    - unfold t_step_reader. destruct (nth_error (t_readers t) j) as [[[g0 k0] st0]|] eqn:Ej; [|eauto].
      assert (B : forall t' st', t_readers t' = t_readers t ->
        exists st'', nth_error (set_nth j (g0, k0, st') (t_readers t')) i = Some (g, k, st'')).
      { intros t' st' ->. destruct (Nat.eq_dec i j) as [->|N].
        - rewrite Ej in H. inversion H; subst. exists st'. eapply nth_set_same. exact Ej.
        - exists st. rewrite <- H. clear - N. revert i j N. generalize (t_readers t) as l.
          induction l as [|a l IH]; intros [|i] [|j] N; cbn; auto; try congruence. }
      destruct st0; cbn.
      + destruct (mem_get _ enabled t g0 k0); apply B; reflexivity.
      + destruct (if b then t_redis t (redis_key prefix g0 k0) else None); apply B; reflexivity.
      + apply B. apply mem_insert_rest.
      + eauto.
    - destruct (nth_error (t_writes t) j) as [[k0 v0]|]; cbn; eauto.
    - cbn. eauto.
    - cbn. eauto.
  Qed.

  Lemma trun_app : forall es e, trun (es ++ [e]) = tdo (trun es) e.
  Proof. intros es e. unfold t_run. rewrite fold_left_app. reflexivity. Qed.

  (** An event of the caches which inserts nothing, or something right. *)
  Lemma ok_tier_step : forall h s e, ok h s -> same_length klen e ->
    (forall g k c, e = TInsert g k c -> entry h k c) ->
    (exists es, tdo (s_tier s) e = trun es /\ Forall (same_length klen) es /\
      forall k c, inserted es k c -> entry h k c) /\
    (forall p, In p (s_procs s) -> proc_ok h (tdo (s_tier s) e) p).
  Proof.
    intros h s e [_ (es & E & F & I) P _] L N. split.
    - exists (es ++ [e]). split; [rewrite trun_app, E; reflexivity|]. split; [apply Forall_app; auto|].
      intros k c (g & H). apply in_app_iff in H. destruct H as [H|[H|[]]]; [apply I; exists g; exact H|]. eapply N. exact H.
    - intros p H. destruct (P p H) as [X (st & R) D Mn]. constructor; auto. eapply readers_keep. exact R.
  Qed.

  Lemma extract_fits : forall g r k src, extract sha256 g r = Some (k, src) -> fits k src.
  Proof.
    intros g r k src H. unfold extract, permissive in H.
    repeat match type of H with
           | context [match ?x with _ => _ end] => destruct x
           end; inversion H; subst; cbn; auto.
  Qed.

  Lemma load_legit : forall now g k src c, fits k src ->
    fresh sha256 op plan store schema now g k src = Some c ->
    c_key c = k /\ plan (schema g) (dk_name k) (c_text c) = Some (c_op c) /\ legit (S now) k (c_text c).
  Proof.
    intros now g k src c F H. unfold fresh in H.
    destruct (load sha256 src _) as [t|] eqn:L; [|discriminate].
    destruct (plan (schema g) (dk_name k) t) as [o|] eqn:P; [|discriminate]. inversion H; subst. cbn.
    split; [reflexivity|]. split; [exact P|].
    destruct k as [n e|n cl i|n d], src as [t'|cl' i'|q e']; cbn in F; try contradiction; cbn in L.
    - subst e'. destruct (e_version e =? 1)%N eqn:V; [|discriminate]. apply N.eqb_eq in V. cbn in L.
      destruct (non_empty q) as [t'|]; [|discriminate]. destruct (beqb (sha256 t') (e_hash e)) eqn:B; [|discriminate].
      apply beqb_eq in B. inversion L; subst. split; assumption.
    - destruct F as [-> ->]. exists now. split; [lia|exact L].
    - congruence.
  Qed.

  Lemma in_set : forall A (l : list A) i x y, In y (set_nth i x l) -> y = x \/ In y l.
  Proof.
    induction l as [|a l IH]; intros [|i] x y H; cbn in *; auto.
    - destruct H as [<-|H]; auto.
    - destruct H as [<-|H]; auto. destruct (IH i x y H); auto.
  Qed.

  Lemma proc_later : forall h e t p, proc_ok h t p -> proc_ok (h ++ [e]) t p.
  Proof.
    intros h e t p [X R D M]. constructor; auto; [|apply mentioned_later; exact M].
    intros c H. apply entry_later. auto.
  Qed.

  Lemma ok_step : forall h s e, ok h s -> ok (h ++ [e]) (step s e).
  Proof.
    intros h s e O. pose proof O as [Nw (es & Et & F & I) P N].
    assert (Nw' : S (s_now s) = List.length (h ++ [e])) by (rewrite app_length, Nw; cbn; lia).
    assert (Keep : ok (h ++ [e]) (MkS (S (s_now s)) (s_tier s) (s_procs s) (s_inserts s))).
    { constructor; cbn; [exact Nw'| | |].
      - exists es. split; [exact Et|]. split; [exact F|]. intros k c H. apply entry_later. eauto.
      - intros p H. apply proc_later. eauto.
      - intros g k c H. apply entry_later. eauto. }
    assert (Tier : forall e', same_length klen e' -> (forall g k c, e' = TInsert g k c -> entry h k c) ->
      forall ins, (forall x, In x ins -> In x (s_inserts s)) ->
      ok (h ++ [e]) (MkS (S (s_now s)) (tdo (s_tier s) e') (s_procs s) ins)).
    { intros e' L X ins Sub. destruct (ok_tier_step h s e' O L X) as [(es' & E' & F' & I') P']. constructor; cbn; [exact Nw'| | |].
      - exists es'. split; [exact E'|]. split; [exact F'|]. intros k c H. apply entry_later. eauto.
      - intros p H. apply proc_later. eauto.
      - intros g k c H. apply entry_later. eauto. }
    unfold s_step. destruct e as [g r|g k|e'|i b|i|g g' k]; cbn [s_act].
    - destruct (extract sha256 (cfg g) r) as [[k src]|] eqn:X; [|exact Keep]. cbn [s_now s_tier s_procs s_inserts].
      destruct (Tier (TGet g (ckey g k)) (digest_len _) ltac:(discriminate) (s_inserts s) (fun x H => H)) as [T0 T1 T2 T3].
      cbn [s_now s_tier s_procs s_inserts] in *. constructor; cbn [s_now s_tier s_procs s_inserts]; auto.
      intros p H. apply in_app_iff in H. destruct H as [H|[<-|[]]]; [auto|]. constructor; cbn.
      + exact X.
      + exists RMem. rewrite nth_error_app2 by apply le_n. rewrite Nat.sub_diag. reflexivity.
      + discriminate.
      + exists g, r, src. split; [apply in_or_app; right; left; reflexivity|exact X].
    - apply (Tier (TGet g (ckey g k)) (digest_len _) ltac:(discriminate) (s_inserts s) (fun x H => H)).
    - destruct e' as [g' k' v|g' k'|j b|j b|g' k'|k']; try exact Keep; cbn [s_now s_tier s_procs s_inserts];
        (apply Tier; [exact Logic.I|discriminate|auto]).
    - unfold serve. destruct (nth_error (s_procs s) i) as [p|] eqn:Ep; [|exact Keep].
      pose proof (nth_error_In _ _ Ep) as Ip. destruct (P p Ip) as [X (st & R) D Mn].
      destruct (p_state p) eqn:Es; [|exact Keep]. rewrite R. destruct st as [| |v|[c|]]; try exact Keep.
      + (* found *)
        destruct Keep as [K0 K1 K2 K3]. constructor; cbn [s_now s_tier s_procs s_inserts] in *; auto.
        intros q H. apply in_set in H. destruct H as [->|H]; [|auto]. constructor; cbn; eauto using mentioned_later.
        intros c' H. destruct b; [|discriminate]. inversion H; subst c'.
        rewrite Et in R. pose proof (C28_found_was_inserted _ enabled distributed prefix klen es _ _ _ _ F R) as J.
        apply entry_later. exact (I _ _ J).
      + (* made *)
        destruct Keep as [K0 K1 K2 K3].
        assert (Fr : forall c, (if b then fresh sha256 op plan store schema (s_now s) (p_gw p) (p_key p) (p_src p) else None) = Some c ->
          entry (h ++ [SServe i b]) (ckey (p_gw p) (p_key p)) c).
        { intros c H. destruct b; [|discriminate].
          destruct (load_legit _ _ _ _ _ (extract_fits _ _ _ _ X) H) as (Ek & Pl & Lg).
          exists (p_gw p). rewrite Ek. rewrite Nw' in Lg. split; [reflexivity|]. split; [exact Pl|]. split; [exact Lg|].
          apply mentioned_later. exact Mn. }
        destruct (if b then fresh sha256 op plan store schema (s_now s) (p_gw p) (p_key p) (p_src p) else None) as [c|];
          constructor; cbn [s_now s_tier s_procs s_inserts] in *; auto.
        * intros q H. apply in_set in H. destruct H as [->|H]; [|auto]. constructor; cbn; eauto using mentioned_later.
          intros c' H. inversion H; subst c'. apply Fr. reflexivity.
        * intros g k c' H. apply in_app_iff in H. destruct H as [H|[H|[]]]; [eauto|]. inversion H; subst. apply Fr. reflexivity.
        * intros q H. apply in_set in H. destruct H as [->|H]; [|auto]. constructor; cbn; eauto using mentioned_later. discriminate.
    - destruct (nth_error (s_inserts s) i) as [[[g k] c]|] eqn:En; [|exact Keep]. apply nth_error_In in En.
      cbn [s_now s_tier s_procs s_inserts]. apply Tier.
      + cbn. eapply entry_len. eauto.
      + intros g' k' c' H. inversion H; subst. eauto.
      + intros x H. eapply in_remove. exact H.
    - destruct (mem_get (cached op) enabled (s_tier s) g' k) as [c|] eqn:M; [|exact Keep].
      destruct (plan (schema g) (dk_name (c_key c)) (c_text c)) as [o|] eqn:Pl; [|exact Keep].
      cbn [s_now s_tier s_procs s_inserts]. apply Tier; [cbn; apply digest_len| |auto].
      intros g0 k0 c0 H. inversion H; subst. cbn.
      unfold mem_get in M. destruct (enabled g'); [|discriminate]. rewrite Et in M.
      pose proof (sd_mem _ _ _ _ (sound_run _ enabled distributed prefix klen es F) g' k c M) as J.
      destruct (I _ _ J) as (g1 & _ & _ & Lg & Mn). exists g0. split; [reflexivity|]. split; [exact Pl|]. split; assumption.
  Qed.

  Lemma ok_run : forall es, ok es (run es).
  Proof.
    intros es. induction es as [|e es IH] using rev_ind.
    - constructor; cbn.
      + reflexivity.
      + exists []. split; [reflexivity|]. split; [constructor|]. intros k c (g & []).
      + intros p [].
      + intros g k c [].
    - unfold s_run. rewrite fold_left_app. cbn [fold_left]. apply ok_step. exact IH.
  Qed.

  (** Operation [o] on text [t] is what request [r] at gateway [g] executes, at
      some moment of a run. *)
  Definition executes (es : list (sevent op)) (g : nat) (r : request) (t : bytes) (o : op) : Prop :=
    exists p c, In p (s_procs (run es)) /\ p_gw p = g /\ p_req p = r /\ p_state p = Finished (Some c) /\
      c_text c = t /\ c_op c = o.

  Definition req_sized (r : request) : Prop :=
    (forall e, q_ext r = Some e -> (e_version e < 2 ^ 32)%N /\ small (hex (e_hash e))) /\
    (forall c, q_client r = Some c -> small c) /\ (forall i, q_doc_id r = Some i -> small i) /\
    (forall t, small (hex (sha256 t))).

  Lemma legit_sized : forall now k t, legit now k t -> dk_sized k.
  Proof.
    intros now [n e|n c i|n d] t H; cbn in *; auto.
    - destruct H as [-> _]. reflexivity.
    - destruct H as (w & _ & H). apply store_ids in H. tauto.
  Qed.

  Lemma plan_plain : forall s n t o, plan s n t = Some o -> plain n.
  Proof. intros s [n|] t o H; [|exact Logic.I]. apply plan_name in H. apply H. Qed.

  (** A request's operation name may be what it likes for trusted documents. *)
  Definition tame (k : dockey) : Prop := match k with KTrusted _ _ _ => True | _ => plain (dk_name k) end.

  Lemma executed_key : forall es g r t o, no_collision es -> executes es g r t o ->
    exists k src, extract sha256 (cfg g) r = Some (k, src) /\
      (tame k -> dk_sized k ->
       exists n, plan (schema g) n t = Some o /\ same_name n (dk_name k) /\ legit (List.length es) k t).
  Proof.
    intros es g r t o NC (p & c & Ip & <- & <- & Es & <- & <-).
    destruct (ok_run es) as [_ _ P _]. destruct (P p Ip) as [X _ D Mn].
    exists (p_key p), (p_src p). split; [exact X|]. intros Tm Sz.
    destruct (D c Es) as (g' & Ek & Pl & Lg & Mc). unfold cache_key in Ek. apply NC in Ek; [|exact Mn|exact Mc].
    pose proof (plan_plain _ _ _ _ Pl) as Pn. pose proof (legit_sized _ _ _ Lg) as Sc.
    destruct (p_key p) as [n e|n cl i|n d] eqn:Epk.
    - apply key_bytes_inj in Ek; auto. destruct Ek as [Es' Sd]. inversion Sd as [| |n0 n' v h Sn E1 E2]; subst.
      exists n'. rewrite <- E2 in *. cbn in Pl, Lg. split; [congruence|]. split; [|exact Lg].
      destruct Sn as [->|[[-> ->]|[-> ->]]]; unfold same_name; cbn; auto.
    - destruct Sz as [Z1 Z2]. apply trusted_key_inj in Ek; auto.
      + destruct Ek as [Es' (n' & E' & Sn)]. rewrite E' in *. exists n'. cbn in Pl, Lg. split; [congruence|]. auto.
      + intros n' c' i' E'. rewrite E' in Lg. cbn in Lg. destruct Lg as (w & _ & H). apply store_ids in H. exact H.
    - apply key_bytes_inj in Ek; auto. destruct Ek as [Es' Sd]. inversion Sd as [n0 n' d' Sn E1 E2| |]; subst.
      exists n'. rewrite <- E2 in *. cbn in Pl, Lg. split; [congruence|]. split; [|exact Lg].
      destruct Sn as [->|[[-> ->]|[-> ->]]]; unfold same_name; cbn; auto.
  Qed.

  Lemma bypassed_iff : forall g r, bypassed g r = true <->
    exists name value, g_bypass g = Some (name, value) /\ q_header r name = Some value.
  Proof.
    intros g r. unfold bypassed. destruct (g_bypass g) as [[name value]|].
    - unfold opt_beqb. destruct (q_header r name) as [v|] eqn:E.
      + rewrite beqb_eq. split.
        * intros ->. eauto.
        * intros (n & w & H & H'). inversion H; subst. congruence.
      + split; [discriminate|]. intros (n & w & H & H'). inversion H; subst. congruence.
    - split; [discriminate|]. intros (n & w & H & _). discriminate.
  Qed.

  (** C29: with enforced trusted documents, what is executed is always what the
      store answered for the request's client and document, whatever its operation
      name and whatever was cached, by whom and when. *)
  Theorem C29_trusted_text : forall es g r t o, no_collision es -> executes es g r t o ->
    g_mode (cfg g) = Enforce -> ~ bypasses (cfg g) r -> req_sized r ->
    exists c i w n, q_client r = Some c /\ refers_to sha256 r = Some i /\ w < List.length es /\ store w c i = Some t /\
      plan (schema g) n t = Some o /\ same_name n (q_name r).
  Proof.
    intros es g r t o NC E M B (Z1 & Z2 & Z3 & Z4).
    destruct (executed_key es g r t o NC E) as (k & src & X & H).
    unfold extract in X. rewrite M in X. unfold refers_to, bypasses in *.
    destruct (q_ext r) as [e|] eqn:Ex.
    - destruct (q_client r) as [c|] eqn:Ec; [|discriminate]. inversion X; subst k src.
      destruct H as (n & Pl & Sn & w & Hw & St); [exact Logic.I|split; [auto|apply (Z1 e eq_refl)]|].
      exists c, (hex (e_hash e)), w, n. auto 10.
    - destruct (q_doc_id r) as [i|] eqn:Ed.
      + destruct (q_client r) as [c|] eqn:Ec; [|discriminate]. inversion X; subst k src.
        destruct H as (n & Pl & Sn & w & Hw & St); [exact Logic.I|split; auto|].
        exists c, i, w, n. auto 10.
      + destruct (bypassed (cfg g) r) eqn:Eb.
        * exfalso. apply B. split; [reflexivity|]. split; [reflexivity|]. apply bypassed_iff. exact Eb.
        * destruct (q_query r) as [[|b q]|]; cbn [non_empty] in X; try discriminate.
          destruct (q_client r) as [c|] eqn:Ec; [|discriminate]. inversion X; subst k src.
          destruct H as (n & Pl & Sn & w & Hw & St); [exact Logic.I|split; auto|].
          exists c, (hex (sha256 (b :: q))), w, n. auto 10.
  Qed.

  (** C30: what is executed for a persisted query is a text with that hash.
      Missing: operation names with NULs. *)
  Theorem C30_hash_of_text_partial : forall es g r t o e, no_collision es -> executes es g r t o ->
    persisted (cfg g) r e -> plain (q_name r) -> req_sized r ->
    e_version e = 1%N /\ sha256 t = e_hash e /\ exists n, plan (schema g) n t = Some o /\ same_name n (q_name r).
  Proof.
    intros es g r t o e NC E (M & A & Ex & Md) Pn (Z1 & _).
    destruct (executed_key es g r t o NC E) as (k & src & X & H).
    assert (K : k = KApq (q_name r) e).
    { unfold extract in X. rewrite Ex, A in X. destruct (g_mode (cfg g)); [congruence| |].
      - destruct Md as [Md|Md]; [discriminate|]. rewrite Md in X. congruence.
      - congruence. }
    subst k. destruct H as (n & Pl & Sn & V & Hh); [exact Pn|exact (proj1 (Z1 e Ex))|]. eauto.
  Qed.

  (** C24: a request with its own text executes that text, whatever was cached.
      Missing: operation names with NULs. *)
  Theorem C24_own_text_partial : forall es g r t t' o, no_collision es -> executes es g r t o ->
    inlines (cfg g) r t' -> plain (q_name r) ->
    t = t' /\ exists n, plan (schema g) n t = Some o /\ same_name n (q_name r).
  Proof.
    intros es g r t t' o NC E (Q & I) Pn.
    destruct (executed_key es g r t o NC E) as (k & src & X & H).
    assert (K : k = KText (q_name r) t').
    { unfold extract, permissive in X. rewrite Q in X. destruct (g_mode (cfg g)).
      - destruct I as (E1 & E2 & B). apply bypassed_iff in B. rewrite E1, E2, B in X. congruence.
      - destruct I as [[E1 E2]|(Ne & I)].
        + rewrite E1, E2 in X. congruence.
        + assert (Nt : non_empty (Some t') = Some t') by (destruct t'; [congruence|reflexivity]). rewrite Nt in X.
          destruct (q_doc_id r) as [i|].
          * destruct (q_ext r); destruct (q_client r); congruence.
          * destruct I as [I|[I A]]; [congruence|]. destruct (q_ext r) as [e|]; [|congruence]. rewrite A in X.
            destruct (q_client r); congruence.
      - rewrite I in X. congruence. }
    subst k. destruct H as (n & Pl & Sn & L); [exact Pn|exact Logic.I|]. cbn in L. eauto.
  Qed.
End Run.
