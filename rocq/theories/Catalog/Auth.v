(** C121: who gets to the graph, with which token, and what the others are told. *)
From Coq Require Import List Bool String NArith Arith Lia Sorting.Permutation.
From Verif.Catalog Require Import Model Spec Properties.
Import ListNotations.
Open Scope string_scope.
Open Scope list_scope.

(** * Selection *)

Lemma id_by_key_spec : forall key l id i,
  id_by_key id key l = Some i -> exists x, id <= i /\ nth_error l (i - id) = Some x /\ e_key x = key.
Proof.
  induction l as [|x l IH]; intros id i E; cbn [id_by_key] in E; [discriminate|].
  destruct (String.eqb (e_key x) key) eqn:K.
  - injection E as <-. exists x. split; [lia|]. rewrite Nat.sub_diag. split; [reflexivity|apply String.eqb_eq, K].
  - apply IH in E. destruct E as (y & L & H & Hk). exists y. split; [lia|]. split; [|exact Hk].
    replace (i - id) with (S (i - S id)) by lia. exact H.
Qed.

Lemma ids_of_keys_spec : forall catalog keys ids,
  ids_of_keys catalog keys = inl ids ->
  Forall2 (fun key id => exists x, nth_error catalog id = Some x /\ e_key x = key /\ IsAuth x) keys ids.
Proof.
  intros catalog. induction keys as [|key keys IH]; intros ids E; cbn [ids_of_keys] in E.
  - injection E as <-. constructor.
  - destruct (id_by_key 0 key catalog) as [id|] eqn:K; [|discriminate].
    apply id_by_key_spec in K. destruct K as (x & _ & Hx & Hk). rewrite Nat.sub_0_r in Hx. rewrite Hx in E.
    destruct (is_authentication (mf_kind (e_manifest x))) eqn:A; [|discriminate].
    destruct (ids_of_keys catalog keys) as [l|]; [|discriminate]. injection E as <-. constructor; [|apply IH; reflexivity].
    exists x. split; [exact Hx|]. split; [exact Hk|]. unfold IsAuth. destruct (mf_kind (e_manifest x)); try discriminate. reflexivity.
Qed.

Lemma all_authentication_spec : forall l id i,
  In i (all_authentication id l) <-> id <= i /\ exists x, nth_error l (i - id) = Some x /\ IsAuth x.
Proof.
  induction l as [|x l IH]; intros id i; cbn [all_authentication].
  - split; [intros []|]. intros (_ & x & H & _). destruct (i - id); discriminate.
  - assert (Q : In i (all_authentication (S id) l) <-> S id <= i /\ exists y, nth_error (x :: l) (i - id) = Some y /\ IsAuth y).
    { rewrite IH. split; intros (L & y & H & Ha).
      - split; [exact L|]. exists y. replace (i - id) with (S (i - S id)) by lia. split; assumption.
      - split; [exact L|]. exists y. replace (i - id) with (S (i - S id)) in H by lia. split; assumption. }
    destruct (is_authentication (mf_kind (e_manifest x))) eqn:A.
    + cbn [In]. rewrite Q. split.
      * intros [<-|(L & H)]; [|split; [lia|exact H]]. split; [lia|]. exists x. rewrite Nat.sub_diag. split; [reflexivity|].
        unfold IsAuth. destruct (mf_kind (e_manifest x)); try discriminate. reflexivity.
      * intros (L & H). destruct (Nat.eq_dec id i) as [->|Ne]; [left; reflexivity|right; split; [lia|exact H]].
    + rewrite Q. split; [intros (L & H); split; [lia|exact H]|]. intros (L & y & H & Ha).
      destruct (Nat.eq_dec id i) as [->|Ne]; [|split; [lia|exists y; split; assumption]].
      rewrite Nat.sub_diag in H. cbn in H. injection H as <-. unfold IsAuth in Ha. rewrite Ha in A. discriminate.
Qed.

Lemma right_nth : forall d config catalog i x,
  Forall2 (Right d) config catalog -> nth_error catalog i = Some x -> exists c, nth_error config i = Some (e_key x, c).
Proof.
  intros d config catalog i x F H. destruct (forall2_nth _ _ _ _ _ _ _ F H) as ([k c] & Hc & R1 & _).
  cbn [fst] in R1. exists c. rewrite R1. exact Hc.
Qed.

Lemma nodup_keys : forall (config : list (string * ext_config)) i j k a b,
  NoDup (map fst config) -> nth_error config i = Some (k, a) -> nth_error config j = Some (k, b) -> i = j.
Proof.
  intros config i j k a b ND Hi Hj. rewrite NoDup_nth_error in ND. apply ND.
  - rewrite map_length. apply nth_error_Some. congruence.
  - rewrite !nth_error_map, Hi, Hj. reflexivity.
Qed.

(** The layer of a resource has exactly the extensions it names, or all, and they are of authentication. *)
Lemma layer_ids : forall d config catalog r default contract l,
  NoDup (map fst config) -> create_catalog d config = ROk catalog ->
  build_layer catalog r default contract = inl l ->
  (forall id, In id (l_ids l) <-> Authenticates config catalog r id) /\
  (forall id, In id (l_ids l) -> exists x, nth_error catalog id = Some x /\ IsAuth x) /\
  Default r default (l_default l) /\ l_contract l = contract.
Proof.
  intros d config catalog r default contract l ND E B. apply C120_catalog in E. unfold build_layer in B.
  assert (Q : exists ids, match rs_extensions r with Some keys => ids_of_keys catalog keys | None => inl (all_authentication 0 catalog) end
              = inl ids /\ l = {| l_ids := ids; l_default := or (rs_default r) default; l_contract := contract |}).
  { destruct (rs_extensions r) as [keys|].
    - destruct (ids_of_keys catalog keys) as [ids|]; [|discriminate]. exists ids. injection B as <-. split; reflexivity.
    - exists (all_authentication 0 catalog). injection B as <-. split; reflexivity. }
  destruct Q as (ids & Q & ->). cbn [l_ids l_default l_contract].
  assert (D : Default r default (or (rs_default r) default)).
  { unfold Default, or. destruct (rs_default r); [right; split; [discriminate|reflexivity]|left; split; reflexivity]. }
  unfold Authenticates. destruct (rs_extensions r) as [keys|].
  - apply ids_of_keys_spec in Q. split; [|split; [|split; [exact D|reflexivity]]].
    + intros id. split.
      * intros H. apply In_nth_error in H. destruct H as [n H]. destruct (forall2_nth _ _ _ _ _ _ _ Q H) as (key & Hk & x & Hx & He & _).
        destruct (right_nth _ _ _ _ _ E Hx) as (c & Hc). exists key, c. split; [eapply nth_error_In; exact Hk|]. rewrite <- He. exact Hc.
      * intros (key & c & Hk & Hc). clear D B. induction Q as [|k i keys ids (x & Hx & He & Ha) Q IH]; [destruct Hk|].
        destruct Hk as [->|Hk]; [|right; apply IH, Hk]. left.
        destruct (right_nth _ _ _ _ _ E Hx) as (c' & Hc'). rewrite He in Hc'. eapply nodup_keys; eassumption.
    + intros id H. apply In_nth_error in H. destruct H as [n H]. destruct (forall2_nth _ _ _ _ _ _ _ Q H) as (key & _ & x & Hx & _ & Ha).
      exists x. split; assumption.
  - injection Q as <-. assert (A : forall id, In id (all_authentication 0 catalog) <-> exists x, nth_error catalog id = Some x /\ IsAuth x).
    { intros id. rewrite all_authentication_spec, Nat.sub_0_r. split; [intros [_ H]; exact H|intros H; split; [lia|exact H]]. }
    split; [exact A|]. split; [intros id H; apply A, H|]. split; [exact D|reflexivity].
Qed.

Lemma asked_spec : forall g ids id, In id (asked g ids) <-> In id (map pc_id (g_authentication g)) /\ In id ids.
Proof.
  intros g ids id. unfold asked. rewrite filter_In, existsb_exists. split.
  - intros (H & j & Hj & E). apply Nat.eqb_eq in E. subst j. split; assumption.
  - intros (H & H'). split; [exact H|]. exists id. split; [exact H'|apply Nat.eqb_refl].
Qed.

(** * Combination *)

Lemma outcome_token : forall w id t, outcome (w_reply w id) = inl t <-> w_reply w id = Gave t.
Proof.
  intros w id t. unfold outcome. destruct (w_reply w id); split; intros E; try discriminate; [injection E as ->|injection E as ->]; reflexivity.
Qed.

Lemma outcome_fails : forall w id e, outcome (w_reply w id) = inr e <-> Fails w id e.
Proof.
  intros w id e. unfold outcome, Fails, internal_error. destruct (w_reply w id) as [| |t|e'] eqn:R; split.
  - intros E. injection E as <-. right. split; [left; reflexivity|reflexivity].
  - intros [E|[_ ->]]; [discriminate|reflexivity].
  - intros E. injection E as <-. right. split; [right; reflexivity|reflexivity].
  - intros [E|[_ ->]]; [discriminate|reflexivity].
  - discriminate.
  - intros [E|[[E|E] _]]; discriminate.
  - intros E. injection E as ->. left. reflexivity.
  - intros [E|[[E|E] _]]; [injection E as ->; reflexivity|discriminate|discriminate].
Qed.

Lemma client_error_spec : forall e, client_error e = true <-> ClientError e.
Proof. intros e. unfold client_error, ClientError. rewrite andb_true_iff, N.leb_le, N.ltb_lt. tauto. Qed.

Lemma fold_token : forall l t, fold_left merge l (inl t) = inl t.
Proof. induction l as [|r l IH]; intros t; [reflexivity|]. cbn [fold_left merge]. apply IH. Qed.

Definition results (w : world) (l : list nat) : list (token + failure) := map (fun id => outcome (w_reply w id)) l.

(** The first token, the first client error when there is none, and the first error otherwise. *)
Lemma fold_spec : forall w l e r,
  fold_left merge (results w l) (inr e) = r ->
  match r with
  | inl t => exists before id after, l = before ++ id :: after /\ Tokenless w before /\ w_reply w id = Gave t
  | inr e' => Tokenless w l /\
    ((ClientError e /\ e' = e) \/
     (~ ClientError e /\ ((exists before id after, l = before ++ id :: after /\ Fails w id e' /\ ClientError e' /\
         forall j f, In j before -> Fails w j f -> ~ ClientError f)
       \/ ((forall j f, In j l -> Fails w j f -> ~ ClientError f) /\ e' = e))))
  end.
Proof.
  intros w. induction l as [|id l IH]; intros e r E; cbn [results map fold_left] in E.
  - subst r. split; [intros id t []|]. destruct (client_error e) eqn:C.
    + left. split; [apply client_error_spec, C|reflexivity].
    + right. split; [intros H; apply client_error_spec in H; congruence|]. right. split; [intros j f []|reflexivity].
  - destruct (outcome (w_reply w id)) as [t|f] eqn:O.
    + cbn [merge] in E. rewrite fold_token in E. subst r. apply outcome_token in O.
      exists [], id, l. split; [reflexivity|]. split; [intros j t' []|exact O].
    + pose proof O as F. apply outcome_fails in F.
      assert (Nt : forall t, w_reply w id <> Gave t) by (intros t H; apply outcome_token in H; congruence).
      assert (U : forall f', Fails w id f' -> f' = f) by (intros f' H; apply outcome_fails in H; congruence).
      assert (Hm : merge (inr e) (inr f) = inr (if client_error e then e else if client_error f then f else e)).
      { cbn [merge]. destruct (client_error e); [reflexivity|]. destruct (client_error f); reflexivity. }
      rewrite Hm in E. apply IH in E. destruct r as [t|e'].
      * destruct E as (before & j & after & -> & Tb & Hj). exists (id :: before), j, after. split; [reflexivity|]. split; [|exact Hj].
        intros k t' [<-|H]; [apply Nt|apply Tb, H].
      * destruct E as (Tl & E). split; [intros k t' [<-|H]; [apply Nt|apply Tl, H]|].
        destruct (client_error e) eqn:Ce.
        { apply client_error_spec in Ce. left. destruct E as [E|[E _]]; [exact E|contradiction]. }
        { assert (Ne : ~ ClientError e) by (intros H; apply client_error_spec in H; congruence). right. split; [exact Ne|].
          destruct (client_error f) eqn:Cf.
          - apply client_error_spec in Cf. destruct E as [[_ ->]|[E _]]; [|contradiction].
            left. exists [], id, l. split; [reflexivity|]. split; [exact F|]. split; [exact Cf|]. intros j g [].
          - assert (Nf : ~ ClientError f) by (intros H; apply client_error_spec in H; congruence).
            destruct E as [[E _]|[_ [(before & j & after & -> & A & B & C)|[A ->]]]]; [contradiction| |].
            + left. exists (id :: before), j, after. split; [reflexivity|]. split; [exact A|]. split; [exact B|].
              intros k g [<-|H] Hg; [rewrite (U g Hg); exact Nf|apply (C k g H Hg)].
            + right. split; [|reflexivity]. intros k g [<-|H] Hg; [rewrite (U g Hg); exact Nf|apply (A k g H Hg)]. }
Qed.

Lemma combine_spec : forall w l r,
  combine (results w l) = Some r ->
  l <> [] /\
  match r with
  | inl t => exists before id after, l = before ++ id :: after /\ Tokenless w before /\ w_reply w id = Gave t
  | inr e => Tokenless w l /\ Reported w l e
  end.
Proof.
  intros w l r E. destruct l as [|id l]; [discriminate|]. split; [discriminate|].
  cbn [results map combine] in E. injection E as E. fold (results w l) in E.
  destruct (outcome (w_reply w id)) as [t|f] eqn:O.
  - rewrite fold_token in E. subst r. apply outcome_token in O. exists [], id, l. split; [reflexivity|]. split; [intros j t' []|exact O].
  - pose proof O as F. apply outcome_fails in F.
    assert (Nt : forall t, w_reply w id <> Gave t) by (intros t H; apply outcome_token in H; congruence).
    assert (U : forall f', Fails w id f' -> f' = f) by (intros f' H; apply outcome_fails in H; congruence).
    apply fold_spec in E. destruct r as [t|e].
    + destruct E as (before & j & after & -> & Tb & Hj). exists (id :: before), j, after. split; [reflexivity|]. split; [|exact Hj].
      intros k t' [<-|H]; [apply Nt|apply Tb, H].
    + destruct E as (Tl & E). split; [intros k t' [<-|H]; [apply Nt|apply Tl, H]|]. unfold Reported.
      destruct E as [[Ce ->]|[Ne [(before & j & after & -> & A & B & C)|[A ->]]]].
      * left. exists [], id, l. split; [reflexivity|]. split; [exact F|]. split; [exact Ce|]. intros j g [].
      * left. exists (id :: before), j, after. split; [reflexivity|]. split; [exact A|]. split; [exact B|].
        intros k g [<-|H] Hg; [rewrite (U g Hg); exact Ne|apply (C k g H Hg)].
      * right. split; [|exists id, l; split; [reflexivity|exact F]].
        intros k g [<-|H] Hg; [rewrite (U g Hg); exact Ne|apply (A k g H Hg)].
Qed.

Lemma asks_map : forall l, asks (map Ask l) = l.
Proof. induction l as [|a l IH]; [reflexivity|]. cbn [map asks]. rewrite IH. reflexivity. Qed.

Lemma asks_app : forall a b, asks (a ++ b) = asks a ++ asks b.
Proof. induction a as [|x a IH]; intros b; [reflexivity|]. destruct x; cbn [app asks]; rewrite ?IH; reflexivity. Qed.

(** What has been set up: a catalog, a gateway that runs it, and the layer of a resource. *)
Definition SetUp (d : disk) (works : nat -> bool) (config : list (string * ext_config)) (r : resource)
    (default : option behavior) (contract : option string) (catalog : list extension) (g : gateway) (l : layer) : Prop :=
  NoDup (map fst config) /\ create_catalog d config = ROk catalog /\
  gateway_new works catalog config = Some (Started g) /\ build_layer catalog r default contract = inl l.

(** Whatever the order extensions complete in, all of them do. *)
Definition Fair (w : world) : Prop := forall ids, Permutation (w_order w ids) ids.

Lemma setup_asked : forall d works config r default contract catalog g l,
  SetUp d works config r default contract catalog g l ->
  NoDup (asked g (l_ids l)) /\ (forall id, In id (asked g (l_ids l)) <-> Authenticates config catalog r id) /\
  (asked g (l_ids l) = [] <-> l_ids l = []).
Proof.
  intros d works config r default contract catalog g l (ND & E & G & B).
  destruct (gateway_pools _ _ _ _ _ ND E G) as (N1 & A1 & _).
  destruct (layer_ids _ _ _ _ _ _ _ ND E B) as (L1 & L2 & _).
  assert (Q : forall id, In id (asked g (l_ids l)) <-> In id (l_ids l)).
  { intros id. rewrite asked_spec. split; [intros [_ H]; exact H|]. intros H. split; [apply A1, L2, H|exact H]. }
  split; [unfold asked; apply NoDup_filter, N1|]. split; [intros id; rewrite Q; apply L1|].
  split.
  - intros H. destruct (l_ids l) as [|id ids]; [reflexivity|]. exfalso. rewrite H in Q.
    apply (Q id). left. reflexivity.
  - intros H. destruct (asked g (l_ids l)) as [|id ids]; [reflexivity|]. exfalso.
    rewrite H in Q. apply (Q id). left. reflexivity.
Qed.

(** The decision over a request. *)
Lemma decide_spec : forall d works config r default contract catalog g l w,
  SetUp d works config r default contract catalog g l -> Fair w ->
  exists effects res, decide w g l = Some (effects, res) /\ effects = map Ask (asked g (l_ids l)) /\
    match res with
    | inl t => Admitted w (w_order w (asks effects)) (l_default l) t
    | inr e => Denied w (w_order w (asks effects)) (l_default l) e
    end.
Proof.
  intros d works config r default contract catalog g l w SU Fw.
  destruct (setup_asked _ _ _ _ _ _ _ _ _ SU) as (_ & _ & Em). unfold decide.
  destruct (l_ids l) as [|i ids] eqn:L.
  - assert (As : asked g [] = []) by (apply Em; reflexivity). rewrite As.
    assert (Or : w_order w (asks []) = []).
    { cbn [asks]. pose proof (Fw []) as P. apply Permutation_sym, Permutation_nil in P. exact P. }
    eexists. eexists. split; [reflexivity|]. split; [reflexivity|]. cbn [map]. rewrite Or.
    destruct (l_default l) as [[|]|].
    + left. split; [reflexivity|]. split; [discriminate|reflexivity].
    + left. split; [reflexivity|]. split; reflexivity.
    + left. split; [reflexivity|]. split; [discriminate|reflexivity].
  - assert (As : asked g (i :: ids) <> []) by (intros H; apply Em in H; discriminate).
    set (order := w_order w (asked g (i :: ids))).
    assert (Or : order <> []).
    { intros H. pose proof (Fw (asked g (i :: ids))) as P. fold order in P. rewrite H in P. apply Permutation_nil in P. contradiction. }
    fold (results w order).
    destruct (combine (results w order)) as [res|] eqn:C.
    2:{ destruct order; [contradiction|discriminate]. }
    eexists. eexists. split; [reflexivity|]. split; [reflexivity|]. rewrite asks_map. fold order.
    apply combine_spec in C. destruct C as [_ C]. destruct res as [t|e].
    + right. left. exact C.
    + destruct C as [C1 C2]. destruct (l_default l) as [[|]|].
      * right. right. split; [exact Or|]. split; [exact C1|]. split; reflexivity.
      * right. split; [exact Or|]. split; [exact C1|]. split; [discriminate|exact C2].
      * right. split; [exact Or|]. split; [exact C1|]. split; [discriminate|exact C2].
Qed.

(** Requests for a resource are served without a panic. *)
Theorem C121_no_panic : forall d works config r default contract catalog g l w,
  SetUp d works config r default contract catalog g l -> Fair w -> call w g l <> None.
Proof.
  intros d works config r default contract catalog g l w SU Fw. unfold call.
  destruct (w_on_request w) as [hook|e]; [|discriminate].
  destruct (decide_spec _ _ _ _ _ _ _ _ _ _ SU Fw) as (effects & res & -> & _). destruct res; discriminate.
Qed.

(** Every extension the resource is to be authenticated by is asked once, and no other; none is asked when the hook on
    requests fails. *)
Theorem C121_asked : forall d works config r default contract catalog g l w effects response,
  SetUp d works config r default contract catalog g l -> Fair w ->
  call w g l = Some (effects, response) ->
  NoDup (asks effects) /\
  (forall id, In id (asks effects) <-> (exists hook, w_on_request w = inl hook) /\ Authenticates config catalog r id).
Proof.
  intros d works config r default contract catalog g l w effects response SU Fw. unfold call.
  destruct (setup_asked _ _ _ _ _ _ _ _ _ SU) as (N1 & A1 & _).
  destruct (w_on_request w) as [hook|e].
  - destruct (decide_spec _ _ _ _ _ _ _ _ _ _ SU Fw) as (effs & res & -> & -> & _).
    intros E. assert (Q : asks effects = asked g (l_ids l)).
    { destruct res; injection E as <- _; [rewrite asks_app|]; rewrite asks_map; [apply app_nil_r|reflexivity]. }
    rewrite Q. split; [exact N1|]. intros id. rewrite A1. split; [intros H; split; [exists hook; reflexivity|exact H]|intros [_ H]; exact H].
  - intros E. injection E as <- <-. cbn [asks]. split; [constructor|]. intros id. split; [intros []|]. intros [[hook H] _]. discriminate.
Qed.

Lemma reach_not_ask : forall l t k, ~ In (Reach t k) (map Ask l).
Proof. intros l t k H. apply in_map_iff in H. destruct H as (x & H & _). discriminate. Qed.

Lemma respond_not_ask : forall l s, ~ In (Respond s) (map Ask l).
Proof. intros l s H. apply in_map_iff in H. destruct H as (x & H & _). discriminate. Qed.

Lemma admitted_denied : forall w order b t e, Admitted w order b t -> Denied w order b e -> False.
Proof.
  intros w order b t e A D. destruct D as [(-> & -> & _)|(Ne & Tl & Nb & _)].
  - destruct A as [(_ & H & _)|[(before & id & after & H & _)|(H & _)]]; [congruence|destruct before; discriminate|congruence].
  - destruct A as [(H & _)|[(before & id & after & H & _ & Hr)|(_ & _ & H & _)]]; [congruence| |congruence].
    apply (Tl id t); [rewrite H; apply in_or_app; right; left; reflexivity|exact Hr].
Qed.

Lemma admitted_unique : forall w order b t t', Admitted w order b t -> Admitted w order b t' -> t = t'.
Proof.
  intros w order b t t' A B.
  assert (K : forall before id after u, order = before ++ id :: after -> w_reply w id = Gave u -> Tokenless w order -> False).
  { intros before id after u E H Tl. apply (Tl id u); [rewrite E; apply in_or_app; right; left; reflexivity|exact H]. }
  destruct A as [(A1 & _ & ->)|[(b1 & i1 & a1 & A1 & A2 & A3)|(A1 & A2 & _ & ->)]];
    destruct B as [(B1 & _ & ->)|[(b2 & i2 & a2 & B1 & B2 & B3)|(B1 & B2 & _ & ->)]]; try reflexivity; try congruence;
    try (exfalso; eapply K; eassumption).
  - exfalso. subst order. destruct b2; discriminate.
  - exfalso. subst order. destruct b1; discriminate.
  - assert (E : b1 ++ i1 :: a1 = b2 ++ i2 :: a2) by congruence. clear A1 B1 K. revert b2 E B2.
    induction b1 as [|x b1 IH]; intros b2 E B2.
    + destruct b2 as [|y b2]; cbn [app] in E; injection E as E1 E2; [congruence|].
      exfalso. apply (B2 y t); [left; reflexivity|congruence].
    + destruct b2 as [|y b2]; cbn [app] in E; injection E as E1 E2.
      * exfalso. apply (A2 x t'); [left; reflexivity|congruence].
      * apply (IH (fun id u H => A2 id u (or_intror H)) b2 E2 (fun id u H => B2 id u (or_intror H))).
Qed.

(** A request reaches the graph exactly when the hook lets it and it is admitted, once, with the token it is admitted
    with and the contract of the hook or of the gateway. *)
Theorem C121_reach : forall d works config r default contract catalog g l w effects response t key,
  SetUp d works config r default contract catalog g l -> Fair w ->
  call w g l = Some (effects, response) ->
  (In (Reach t key) effects <->
   exists hook b, w_on_request w = inl hook /\ Default r default b /\ Admitted w (w_order w (asks effects)) b t /\
     key = match hook with Some k => Some k | None => contract end).
Proof.
  intros d works config r default contract catalog g l w effects response t key SU Fw. unfold call.
  assert (LD := SU). destruct LD as (ND & E0 & _ & B0).
  destruct (layer_ids _ _ _ _ _ _ _ ND E0 B0) as (_ & _ & De & Ct).
  assert (DU : forall b, Default r default b -> b = l_default l).
  { intros b [(H1 & H2)|(H1 & H2)]; destruct De as [(H3 & H4)|(H3 & H4)]; congruence. }
  destruct (w_on_request w) as [hook|e] eqn:O.
  - destruct (decide_spec _ _ _ _ _ _ _ _ _ _ SU Fw) as (effs & res & -> & -> & Hr).
    destruct res as [t'|e']; intros E; injection E as <- <-.
    + rewrite asks_app. cbn [asks]. rewrite app_nil_r. rewrite in_app_iff. cbn [In]. split.
      * intros [H|[H|[H|[]]]]; [destruct (reach_not_ask _ _ _ H)| |discriminate]. injection H as <- <-.
        exists hook, (l_default l). split; [reflexivity|]. split; [exact De|]. split; [exact Hr|]. rewrite Ct. destruct hook; reflexivity.
      * intros (hook' & b & H1 & H2 & H3 & ->). injection H1 as <-. right. left.
        rewrite (DU b H2) in H3. rewrite (admitted_unique _ _ _ _ _ H3 Hr). rewrite Ct. destruct hook; reflexivity.
    + split; [intros H; destruct (reach_not_ask _ _ _ H)|]. intros (hook' & b & H1 & H2 & H3 & _).
      exfalso. rewrite (DU b H2) in H3. eapply admitted_denied; eassumption.
  - intros E. injection E as <- <-. split; [intros []|]. intros (hook & b & H & _). discriminate.
Qed.

(** Whoever does not reach the graph gets the failure of the hook, or the one their authentication is denied with. The
    hook on responses is not called for them. *)
Theorem C121_refusal : forall d works config r default contract catalog g l w effects response,
  SetUp d works config r default contract catalog g l -> Fair w ->
  call w g l = Some (effects, response) -> (forall t key, ~ In (Reach t key) effects) ->
  (forall s, ~ In (Respond s) effects) /\
  exists e, response = Failed e /\
    (w_on_request w = inr e \/
     exists hook b, w_on_request w = inl hook /\ Default r default b /\ Denied w (w_order w (asks effects)) b e).
Proof.
  intros d works config r default contract catalog g l w effects response SU Fw. unfold call.
  assert (LD := SU). destruct LD as (ND & E0 & _ & B0).
  destruct (layer_ids _ _ _ _ _ _ _ ND E0 B0) as (_ & _ & De & _).
  destruct (w_on_request w) as [hook|e] eqn:O.
  - destruct (decide_spec _ _ _ _ _ _ _ _ _ _ SU Fw) as (effs & res & -> & -> & Hr).
    destruct res as [t'|e']; intros E; injection E as <- <-; intros H.
    + exfalso. eapply H. apply in_or_app. right. left. reflexivity.
    + split; [apply respond_not_ask|]. exists e'. split; [reflexivity|]. right. exists hook, (l_default l).
      split; [reflexivity|]. split; [exact De|exact Hr].
  - intros E. injection E as <- <-. intros _. split; [intros s []|]. exists e. split; [reflexivity|]. left. reflexivity.
Qed.

(** Whoever does gets what the hook on responses makes of the status of the graph, or its failure; the hook is called
    once, after the graph. *)
Theorem C121_response : forall d works config r default contract catalog g l w effects response t key,
  SetUp d works config r default contract catalog g l -> Fair w ->
  call w g l = Some (effects, response) -> In (Reach t key) effects ->
  effects = map Ask (asks effects) ++ [Reach t key; Respond (w_next w t key)] /\
  ((exists s, w_on_response w (w_next w t key) = inl s /\ response = Served s) \/
   (exists text, w_on_response w (w_next w t key) = inr text /\ response = Failed {| f_status := 500; f_text := text |})).
Proof.
  intros d works config r default contract catalog g l w effects response t key SU Fw. unfold call.
  destruct (w_on_request w) as [hook|e] eqn:O; [|intros E; injection E as <- <-; intros []].
  destruct (decide_spec _ _ _ _ _ _ _ _ _ _ SU Fw) as (effs & res & -> & -> & Hr).
  destruct res as [t'|e']; intros E; injection E as <- <-; intros H; [|destruct (reach_not_ask _ _ _ H)].
  apply in_app_iff in H. destruct H as [H|[H|[H|[]]]]; [destruct (reach_not_ask _ _ _ H)| |discriminate]. injection H as <- <-.
  split; [rewrite asks_app; cbn [asks]; rewrite app_nil_r, asks_map; reflexivity|].
  destruct (w_on_response w _) as [s|text]; [left; exists s|right; exists text]; split; reflexivity.
Qed.

Lemma forall2_flip : forall A B (P : A -> B -> Prop) l l', Forall2 P l l' -> Forall2 (fun b a => P a b) l' l.
Proof. intros A B P l l' F. induction F; constructor; assumption. Qed.

(** Layers: a resource whose extensions can't be found, or are of another kind, stops the gateway. *)
Theorem C121_layer : forall d config catalog r default contract,
  NoDup (map fst config) -> create_catalog d config = ROk catalog ->
  ((exists l, build_layer catalog r default contract = inl l) <->
   forall keys key, rs_extensions r = Some keys -> In key keys ->
     exists id c x, nth_error config id = Some (key, c) /\ nth_error catalog id = Some x /\ IsAuth x).
Proof.
  intros d config catalog r default contract ND E. apply C120_catalog in E. unfold build_layer.
  destruct (rs_extensions r) as [keys|].
  - assert (Q : (exists ids, ids_of_keys catalog keys = inl ids) <->
      forall key, In key keys -> exists id c x, nth_error config id = Some (key, c) /\ nth_error catalog id = Some x /\ IsAuth x).
    { split.
      - intros (ids & H) key Hk. apply ids_of_keys_spec in H. apply In_nth_error in Hk. destruct Hk as [n Hk].
        apply forall2_flip in H.
        destruct (forall2_nth _ _ _ _ _ _ _ H Hk) as (id & _ & x & Hx & He & Ha).
        destruct (right_nth _ _ _ _ _ E Hx) as (c & Hc). exists id, c, x. rewrite <- He. split; [exact Hc|split; assumption].
      - induction keys as [|key keys IH]; intros H; [eexists; reflexivity|]. cbn [ids_of_keys].
        destruct IH as [ids IH]; [intros k Hk; apply H; right; exact Hk|].
        destruct (H key (or_introl eq_refl)) as (id & c & x & Hc & Hx & Ha).
        assert (Fi : id_by_key 0 key catalog = Some id).
        { destruct (forall2_nth _ _ _ _ _ _ _ E Hx) as (kc & Hkc & R1 & _). rewrite Hc in Hkc. injection Hkc as <-. cbn [fst] in R1.
          destruct (id_by_key 0 key catalog) as [j|] eqn:K.
          - apply id_by_key_spec in K. destruct K as (y & _ & Hy & Hk). rewrite Nat.sub_0_r in Hy.
            destruct (right_nth _ _ _ _ _ E Hy) as (c' & Hc'). rewrite Hk in Hc'. f_equal. eapply nodup_keys; eassumption.
          - exfalso. clear - Hx R1 K. revert id Hx K. generalize 0. induction catalog as [|z l IHl]; intros n id Hx K; [destruct id; discriminate|].
            cbn [id_by_key] in K. destruct (String.eqb (e_key z) key) eqn:Q; [discriminate|].
            destruct id as [|id]; cbn [nth_error] in Hx; [injection Hx as <-; rewrite R1, String.eqb_refl in Q; discriminate|].
            eapply IHl; eassumption. }
        rewrite Fi, Hx. unfold IsAuth in Ha. rewrite Ha, IH. cbn [is_authentication]. eexists. reflexivity. }
    split.
    + intros (l & H) keys' key K. injection K as <-. apply Q. destruct (ids_of_keys catalog keys) as [ids|]; [exists ids; reflexivity|discriminate].
    + intros H. destruct Q as [_ Q]. destruct Q as [ids Q]; [intros key Hk; apply (H keys key eq_refl Hk)|]. rewrite Q. eexists. reflexivity.
  - split; [intros _ keys key K; discriminate|]. intros _. eexists. reflexivity.
Qed.
