(** C120: the extensions of the configuration are the ones that run, and they may do what they are allowed to. *)
From Coq Require Import List Bool String NArith Arith Lia Sorting.Sorted.
From Verif.Catalog Require Import Model Spec.
Import ListNotations.
Open Scope string_scope.
Open Scope list_scope.

Lemma version_ltb_spec : forall a b, version_ltb a b = true <-> Below a b.
Proof.
  intros [[a1 a2] a3] [[b1 b2] b3]. unfold version_ltb, Below.
  rewrite !orb_true_iff, !andb_true_iff, !orb_true_iff, !andb_true_iff, !N.ltb_lt, !N.eqb_eq. tauto.
Qed.

Lemma below_trans : forall a b c, Below a b -> Below b c -> Below a c.
Proof. intros [[a1 a2] a3] [[b1 b2] b3] [[c1 c2] c3]. unfold Below. lia. Qed.

Lemma below_total : forall a b, Below a b \/ a = b \/ Below b a.
Proof.
  intros [[a1 a2] a3] [[b1 b2] b3]. unfold Below.
  destruct (N.lt_trichotomy a1 b1) as [?|[->|?]]; try lia.
  destruct (N.lt_trichotomy a2 b2) as [?|[->|?]]; try lia.
  destruct (N.lt_trichotomy a3 b3) as [?|[->|?]]; try lia.
  right. left. reflexivity.
Qed.

Lemma below_irrefl : forall a, ~ Below a a.
Proof. intros [[a1 a2] a3]. unfold Below. lia. Qed.

Lemma not_below_trans : forall a b c, ~ Below a b -> ~ Below b c -> ~ Below a c.
Proof. intros [[a1 a2] a3] [[b1 b2] b3] [[c1 c2] c3]. unfold Below. lia. Qed.

Definition entry (v : version) : option dirent := Some {| de_dir := Some true; de_version := Some v |}.

Lemma find_version_found : forall req l found o,
  find_version req found l = ROk o ->
  match o with
  | None => found = None /\ forall v, In (entry v) l -> req v = false
  | Some v =>
    (found = Some v \/ (In (entry v) l /\ req v = true)) /\
    (forall v', In (entry v') l -> req v' = true -> ~ Below v v') /\
    (forall v', found = Some v' -> ~ Below v v')
  end.
Proof.
  induction l as [|e l IH]; intros found o; cbn [find_version].
  - intros E. injection E as <-. destruct found as [v|].
    + split; [left; reflexivity|]. split; [intros v' []|]. intros v' E. injection E as <-. apply below_irrefl.
    + split; [reflexivity|intros v []].
  - destruct e as [[dir ver]|]; [|discriminate]. cbn [de_dir de_version].
    assert (Skip : forall found, (forall v, Some {| de_dir := dir; de_version := ver |} <> entry v) \/
              (exists v, Some {| de_dir := dir; de_version := ver |} = entry v /\
                 (req v = false \/ exists v', found = Some v' /\ ~ Below v' v)) ->
              find_version req found l = ROk o ->
              match o with
              | None => found = None /\ forall v, In (entry v) (Some {| de_dir := dir; de_version := ver |} :: l) -> req v = false
              | Some v =>
                (found = Some v \/ (In (entry v) (Some {| de_dir := dir; de_version := ver |} :: l) /\ req v = true)) /\
                (forall v', In (entry v') (Some {| de_dir := dir; de_version := ver |} :: l) -> req v' = true -> ~ Below v v') /\
                (forall v', found = Some v' -> ~ Below v v')
              end).
    { intros fo Hs E. specialize (IH _ _ E). destruct o as [v|].
      - destruct IH as (A & B & C). split; [|split; [|exact C]].
        + destruct A as [A|[A A']]; [left; exact A|right; split; [right; exact A|exact A']].
        + intros v' [D|D] Hr; [|apply B; assumption].
          destruct Hs as [Hs|(v1 & Hv & Hs)]; [destruct (Hs v' D)|].
          rewrite Hv in D. injection D as <-. destruct Hs as [Hs|(v2 & Hf & Hn)]; [congruence|].
          eapply not_below_trans; [apply C, Hf|exact Hn].
      - destruct IH as (A & B). split; [exact A|]. intros v [D|D]; [|apply B, D].
        destruct Hs as [Hs|(v1 & Hv & Hs)]; [destruct (Hs v D)|].
        rewrite Hv in D. injection D as <-. destruct Hs as [Hs|(v2 & Hf & _)]; [exact Hs|congruence]. }
    destruct dir as [[|]|]; [|apply Skip; left; intros v; discriminate|discriminate].
    destruct ver as [v|]; [|apply Skip; left; intros v; discriminate].
    destruct (req v && match found with Some old => version_ltb old v | None => true end) eqn:Q.
    + intros E. specialize (IH _ _ E). apply andb_true_iff in Q. destruct Q as [Q1 Q2].
      destruct o as [u|]; [|destruct IH; discriminate].
      destruct IH as (A & B & C). split; [|split].
      * right. destruct A as [A|[A A']]; [injection A as ->; split; [left; reflexivity|exact Q1]|].
        split; [right; exact A|exact A'].
      * intros v' [D|D] Hr; [|apply B; assumption]. injection D as <-. apply C. reflexivity.
      * intros v' Hf. subst found. apply version_ltb_spec in Q2.
        intros Hb. apply (C v eq_refl). eapply below_trans; [exact Hb|exact Q2].
    + apply Skip. right. exists v. split; [reflexivity|]. apply andb_false_iff in Q. destruct Q as [Q|Q]; [left; exact Q|].
      destruct found as [old|]; [|discriminate]. right. exists old. split; [reflexivity|].
      intros Hb. apply version_ltb_spec in Hb. congruence.
Qed.

Lemma find_version_ok : forall req l found,
  Forall (fun e => exists x b, e = Some x /\ de_dir x = Some b) l -> exists o, find_version req found l = ROk o.
Proof.
  induction l as [|e l IH]; intros found F; [eexists; reflexivity|].
  apply Forall_cons_iff in F. destruct F as [(x & b & -> & Hb) F]. cbn [find_version]. rewrite Hb.
  destruct b; [|apply IH, F]. destruct (de_version x) as [v|]; [|apply IH, F].
  destruct (req v && _); apply IH, F.
Qed.

Lemma read_files_found : forall l m w m' ,
  read_files m w l = ROk (Some m', true) ->
  (w = true \/ In (Some FiWasm) l) /\ (m = Some m' \/ In (Some (FiManifest (Some m'))) l).
Proof.
  induction l as [|f l IH]; intros m w m'; cbn [read_files].
  - intros E. injection E as -> ->. split; left; reflexivity.
  - destruct f as [f|]; [|discriminate]. destruct f as [|o|n].
    + destruct m as [m|].
      * intros E. injection E as ->. split; [right; left; reflexivity|left; reflexivity].
      * intros E. apply IH in E. destruct E as [_ [E|E]]; [discriminate|].
        split; [right; left; reflexivity|right; right; exact E].
    + destruct o as [m1|]; [|discriminate]. destruct w.
      * intros E. injection E as ->. split; [left; reflexivity|right; left; reflexivity].
      * intros E. apply IH in E. destruct E as [[E|E] A]; [discriminate|]. split; [right; right; exact E|].
        destruct A as [A|A]; [injection A as ->; right; left; reflexivity|right; right; exact A].
    + intros E.
      assert (R : read_files m w l = ROk (Some m', true) \/ (m = Some m' /\ w = true)).
      { destruct m as [m|]; [destruct w|]; [right|left; exact E|left; exact E]. injection E as ->. split; reflexivity. }
      destruct R as [R|[-> ->]]; [|split; left; reflexivity]. apply IH in R. destruct R as [A B].
      split; [destruct A as [A|A]; [left; exact A|right; right; exact A]|
              destruct B as [B|B]; [left; exact B|right; right; exact B]].
Qed.

Lemma read_files_ok : forall l m w,
  Forall (fun f => exists x, f = Some x) l -> ~ In (Some (FiManifest None)) l ->
  (forall a, In (Some (FiManifest (Some a))) l -> forall b, In (Some (FiManifest (Some b))) l \/ m = Some b -> a = b) ->
  forall m', (w = true \/ In (Some FiWasm) l) -> (m = Some m' \/ In (Some (FiManifest (Some m'))) l) ->
  read_files m w l = ROk (Some m', true).
Proof.
  induction l as [|f l IH]; intros m w F Hn One m' Hw Hm; cbn [read_files].
  - destruct Hw as [->|[]]. destruct Hm as [->|[]]. reflexivity.
  - apply Forall_cons_iff in F. destruct F as [(x & ->) F].
    assert (Hn' : ~ In (Some (FiManifest None)) l) by (intros D; apply Hn; right; exact D).
    destruct x as [|o|n].
    + destruct m as [m|].
      * destruct Hm as [Hm|Hm]; [congruence|]. destruct Hm as [Hm|Hm]; [discriminate|].
        f_equal. f_equal. f_equal. symmetry. apply One; [right; exact Hm|right; reflexivity].
      * apply IH; try assumption.
        { intros a A b [B|B]; [|discriminate]. apply One; [right; exact A|left; right; exact B]. }
        { left. reflexivity. }
        { destruct Hm as [Hm|[Hm|Hm]]; [discriminate|discriminate|right; exact Hm]. }
    + destruct o as [m1|]; [|destruct Hn; left; reflexivity].
      assert (E : m1 = m').
      { apply One; [left; reflexivity|]. destruct Hm as [Hm|Hm]; [right; exact Hm|left; exact Hm]. }
      subst m1. destruct w; [reflexivity|]. apply IH; try assumption.
      { intros a A b [B|B]; [apply One; [right; exact A|left; right; exact B]|].
        injection B as <-. apply One; [right; exact A|left; left; reflexivity]. }
      { destruct Hw as [Hw|[Hw|Hw]]; [discriminate|discriminate|right; exact Hw]. }
      { left. reflexivity. }
    + assert (R : read_files m w l = ROk (Some m', true)).
      { apply IH; try assumption.
        - intros a A b [B|B]; apply One; try (right; exact A); [left; right; exact B|right; exact B].
        - destruct Hw as [Hw|[Hw|Hw]]; [left; exact Hw|discriminate|right; exact Hw].
        - destruct Hm as [Hm|[Hm|Hm]]; [left; exact Hm|discriminate|right; exact Hm]. }
      destruct m as [m|]; [|exact R]. destruct w; [|exact R].
      apply f_equal with (f := fun r => r) in R.
      destruct Hm as [Hm|[Hm|Hm]]; [rewrite Hm; reflexivity|discriminate|].
      f_equal. f_equal. f_equal. symmetry. apply One; [right; exact Hm|right; reflexivity].
Qed.

Lemma load_extension_found : forall d at_ key x,
  load_extension d at_ key = ROk x ->
  e_key x = key /\ e_path x = at_ /\ Contains d at_ (e_manifest x) /\ mf_name (e_manifest x) = key.
Proof.
  intros d at_ key x. unfold load_extension. destruct (d_content d at_) as [files|] eqn:C; [|discriminate].
  destruct (read_files None false files) as [[[m|] [|]]|] eqn:R; try discriminate.
  destruct (String.eqb (mf_name m) key) eqn:K; [|discriminate]. intros E. injection E as <-. cbn [e_key e_path e_manifest].
  apply read_files_found in R. destruct R as [[R|R] [R'|R']]; try discriminate.
  apply String.eqb_eq in K. split; [reflexivity|]. split; [reflexivity|]. split; [|exact K].
  exists files. split; [exact C|split; assumption].
Qed.

Lemma load_extension_ok : forall d at_ key m,
  Readable d -> Contains d at_ m -> mf_name m = key ->
  load_extension d at_ key = ROk {| e_key := key; e_manifest := m; e_path := at_ |}.
Proof.
  intros d at_ key m R (files & C & W & M) K. unfold load_extension. rewrite C.
  rewrite (read_files_ok files None false) with (m' := m).
  - apply String.eqb_eq in K. rewrite K. reflexivity.
  - eapply r_files; eassumption.
  - eapply r_manifests; eassumption.
  - intros a A b [B|B]; [|discriminate]. assert (E : Some a = Some b) by (eapply r_one; eassumption).
    injection E as ->. reflexivity.
  - right. exact W.
  - right. exact M.
Qed.

Lemma create_cons : forall d kc rest l,
  create_catalog d (kc :: rest) = ROk l ->
  exists x l', l = x :: l' /\ create_catalog d rest = ROk l' /\ Right d kc x.
Proof.
  intros d [key c] rest l. cbn [create_catalog]. intros E.
  assert (Q : exists x, match xc_path c with Some p => load_extension d (LPath p) key | None => find_extension d c key end = ROk x
            /\ Right d (key, c) x).
  { unfold Right, Chosen. cbn [fst snd].
    destruct (xc_path c) as [p|] eqn:P.
    - destruct (load_extension d (LPath p) key) as [x|] eqn:L; [|discriminate]. exists x. split; [reflexivity|].
      apply load_extension_found in L. destruct L as (A & B & C & D).
      rewrite B. split; [exact A|]. split; [reflexivity|]. split; assumption.
    - destruct (find_extension d c key) as [x|] eqn:L; [|discriminate]. exists x. split; [reflexivity|].
      unfold find_extension in L. destruct (d_installed d key) as [entries|] eqn:I; [|discriminate].
      destruct (find_version (xc_version c) None entries) as [[v|]|] eqn:V; try discriminate.
      apply load_extension_found in L. destruct L as (A & B & C & D). rewrite B.
      split; [exact A|]. split; [|split; assumption]. apply find_version_found in V. destruct V as (V1 & V2 & _).
      destruct V1 as [V1|[V1 V3]]; [discriminate|]. exists v. split; [reflexivity|]. split; [|split; [exact V3|]].
      + exists entries. split; assumption.
      + intros v' (entries' & I' & H) Hr. rewrite I in I'. injection I' as <-. apply V2; assumption. }
  destruct Q as (x & Q & Rx). rewrite Q in E.
  destruct (create_catalog d rest) as [l'|] eqn:C; [|discriminate]. injection E as <-.
  exists x, l'. split; [reflexivity|]. split; [reflexivity|exact Rx].
Qed.

(** Every entry of the configuration gives one extension, in its place: the one in the configured directory or of the
    greatest version that is installed and accepted, with the manifest found there and the name of the entry. *)
Theorem C120_catalog : forall d config catalog,
  create_catalog d config = ROk catalog -> Forall2 (Right d) config catalog.
Proof.
  induction config as [|kc rest IH]; intros catalog E.
  - injection E as <-. constructor.
  - apply create_cons in E. destruct E as (x & l' & -> & E & Rx). constructor; [exact Rx|apply IH, E].
Qed.

(** There is one such extension at most. *)
Theorem C120_unique : forall d kc x y, Readable d -> Right d kc x -> Right d kc y -> x = y.
Proof.
  intros d [key c] [kx mx px] [ky my py] R (A & B & C & _) (A' & B' & C' & _).
  cbn [e_key e_path e_manifest fst snd] in *. subst kx ky.
  assert (P : px = py).
  { unfold Chosen in B, B'. destruct (xc_path c); [congruence|].
    destruct B as (v & -> & H & Q & M), B' as (v' & -> & H' & Q' & M').
    destruct (below_total v v') as [L|[->|L]]; [destruct (M v' H' Q' L)|reflexivity|destruct (M' v H Q L)]. }
  subst py. destruct C as (files & F & _ & M), C' as (files' & F' & _ & M').
  rewrite F in F'. injection F' as <-.
  assert (E : Some mx = Some my) by (eapply r_one; eassumption). injection E as ->. reflexivity.
Qed.

(** When directories can be read and every entry has an extension, the gateway has its catalog. *)
Theorem C120_loads : forall d config,
  Readable d -> (forall kc, In kc config -> exists x, Right d kc x) ->
  exists catalog, create_catalog d config = ROk catalog.
Proof.
  intros d config R. induction config as [|[key c] rest IH]; intros F; [eexists; reflexivity|].
  destruct IH as [l E]; [intros kc H; apply F; right; exact H|].
  destruct (F (key, c) (or_introl eq_refl)) as (x & A & B & C & D). cbn [fst snd] in *.
  cbn [create_catalog]. unfold Chosen in B. destruct (xc_path c) as [p|].
  - rewrite B in C. rewrite (load_extension_ok d (LPath p) key _ R C D), E. eexists. reflexivity.
  - destruct B as (v & P & (entries & I & H) & Q & M). unfold find_extension. rewrite I.
    destruct (find_version_ok (xc_version c) entries None (r_dirs d R _ _ I)) as [o V]. rewrite V.
    pose proof (find_version_found _ _ _ _ V) as S'. destruct o as [u|].
    + destruct S' as (S1 & S2 & _). destruct S1 as [S1|[S1 S3]]; [discriminate|].
      assert (U : u = v).
      { destruct (below_total u v) as [L|[->|L]]; [destruct (S2 v H Q L)|reflexivity|].
        destruct (M u); [exists entries; split; assumption|exact S3|exact L]. }
      subst u. rewrite P in C. rewrite (load_extension_ok d _ key _ R C D), E. eexists. reflexivity.
    + destruct S' as [_ S']. rewrite (S' v H) in Q. discriminate.
Qed.

(** The order directories are listed in does not matter. *)
Theorem C120_listing : forall d d' config catalog,
  Readable d -> Readable d' ->
  (forall key v, Has d key v <-> Has d' key v) ->
  (forall at_ m, Contains d at_ m <-> Contains d' at_ m) ->
  create_catalog d config = ROk catalog -> create_catalog d' config = ROk catalog.
Proof.
  intros d d' config catalog R R' H C E.
  assert (T : forall kc x, Right d kc x -> Right d' kc x).
  { intros kc x (P1 & P2 & P3 & P4). split; [exact P1|]. split; [|split; [apply C, P3|exact P4]].
    unfold Chosen in *. destruct (xc_path (snd kc)); [exact P2|].
    destruct P2 as (v & A & B & Q & M). exists v. split; [exact A|]. split; [apply H, B|]. split; [exact Q|].
    intros v' B' Q'. apply M; [apply H, B'|exact Q']. }
  pose proof (C120_catalog _ _ _ E) as F.
  destruct (C120_loads d' config R') as [catalog' E'].
  { clear E. induction F as [|kc x config catalog Rx F IH]; intros kc' D; [destruct D|].
    destruct D as [<-|D]; [exists x; apply T, Rx|apply IH, D]. }
  pose proof (C120_catalog _ _ _ E') as F'. rewrite E'. f_equal. clear E E'. revert catalog' F'.
  induction F as [|kc x config catalog Rx F IH]; intros catalog' F'; inversion F' as [|? ? ? ? Ry F'']; subst; [reflexivity|].
  f_equal; [|apply IH; assumption]. eapply C120_unique; [exact R'|exact Ry|apply T, Rx].
Qed.

(** Names *)

Lemma get_nth : forall A (config : list (string * A)) i key c,
  NoDup (map fst config) -> nth_error config i = Some (key, c) -> get key config = Some c.
Proof.
  induction config as [|[k a] rest IH]; intros i key c ND E; [destruct i; discriminate|].
  cbn [map fst] in ND. apply NoDup_cons_iff in ND. destruct ND as [Nk ND]. cbn [get].
  destruct i as [|i]; cbn [nth_error] in E.
  - injection E as -> ->. rewrite String.eqb_refl. reflexivity.
  - destruct (String.eqb k key) eqn:K; [|eapply IH; eassumption].
    apply String.eqb_eq in K. subst k. destruct Nk. apply nth_error_In in E. apply in_map with (f := fst) in E. exact E.
Qed.

Lemma forall2_nth : forall A B (P : A -> B -> Prop) l l' i b,
  Forall2 P l l' -> nth_error l' i = Some b -> exists a, nth_error l i = Some a /\ P a b.
Proof.
  intros A B P l l' i b F. revert i. induction F as [|a b' l l' Ra F IH]; intros i E; [destruct i; discriminate|].
  destruct i as [|i]; cbn [nth_error] in *; [injection E as <-; exists a; split; [reflexivity|exact Ra]|apply IH, E].
Qed.

(** What is known of the pool of an extension. *)
Definition PoolOf (config : list (string * ext_config)) (catalog : list extension) (pc : pool_config) : Prop :=
  exists c x, nth_error config (pc_id pc) = Some (pc_name pc, c) /\ nth_error catalog (pc_id pc) = Some x /\
    mf_name (e_manifest x) = pc_name pc /\
    (forall p, pc_allowed pc p = true <-> May c (e_manifest x) p) /\
    pc_max pc = xc_pool c /\
    (xc_guest c = Some (pc_guest pc) \/ (xc_guest c = None /\ pc_guest pc = "")).

Lemma enabled_in : forall m p, enabled m p = true <-> In p (mf_permissions m).
Proof.
  intros m p. unfold enabled. rewrite existsb_exists. split.
  - intros (q & H & E). destruct p, q; try discriminate; exact H.
  - intros H. exists p. split; [exact H|destruct p; reflexivity].
Qed.

Lemma load_from_spec : forall d all whole skip keep rest before,
  NoDup (map fst all) -> Forall2 (Right d) all whole -> whole = before ++ rest ->
  exists pools, load_from (List.length before) skip all keep rest = Some pools /\
    Forall (fun pc => PoolOf all whole pc /\ pc_skip_events pc = skip /\ List.length before <= pc_id pc) pools /\
    StronglySorted lt (map pc_id pools) /\
    (forall id, List.length before <= id ->
       (In id (map pc_id pools) <-> exists x, nth_error whole id = Some x /\ keep (mf_kind (e_manifest x)) = true)).
Proof.
  intros d all whole skip keep rest. induction rest as [|x rest IH]; intros before ND F E.
  - exists []. split; [reflexivity|]. split; [constructor|]. split; [constructor|]. intros id Hid. split; [intros []|].
    intros (y & H & _). assert (id < List.length whole) by (apply nth_error_Some; congruence).
    rewrite E, app_nil_r in H0. lia.
  - destruct (IH (before ++ [x])) as (pools & A & B & C & D); [exact ND|exact F|rewrite <- app_assoc; exact E|].
    rewrite app_length in A, B, D. cbn [List.length] in A, B, D. rewrite Nat.add_1_r in A, B, D.
    assert (Hx : nth_error whole (List.length before) = Some x).
    { rewrite E, nth_error_app2, Nat.sub_diag by lia. reflexivity. }
    cbn [load_from]. destruct (keep (mf_kind (e_manifest x))) eqn:K.
    + destruct (forall2_nth _ _ _ _ _ _ _ F Hx) as ([key c] & Hc & Rx). destruct Rx as (R1 & R2 & R3 & R4).
      cbn [fst snd] in *. rewrite R4. rewrite (get_nth _ _ _ _ _ ND Hc). rewrite A. cbn [cons_opt].
      eexists. split; [reflexivity|]. split; [|split].
      * apply Forall_cons.
        { cbn [pc_id pc_skip_events]. split; [|split; [reflexivity|lia]].
          exists c, x. cbn [pc_id pc_name pc_allowed pc_max pc_guest].
          split; [exact Hc|]. split; [exact Hx|]. split; [exact R4|]. split; [|split; [reflexivity|]].
          - intros p. unfold May. destruct (xc_flag c p) as [[|]|]; cbn [unwrap_or].
            + split; intros _; [left; reflexivity|reflexivity].
            + split; [discriminate|]. intros [H|[H _]]; discriminate.
            + rewrite enabled_in. split; [intros H; right; split; [reflexivity|exact H]|]. intros [H|[_ H]]; [discriminate|exact H].
          - destruct (xc_guest c) as [s|]; [left; reflexivity|right; split; reflexivity]. }
        { eapply Forall_impl; [|exact B]. cbv beta. intros pc (P1 & P2 & P3). split; [exact P1|]. split; [exact P2|lia]. }
      * cbn [map pc_id]. constructor; [exact C|]. apply Forall_forall. intros i Hi. apply in_map_iff in Hi.
        destruct Hi as (pc & <- & Hi). rewrite Forall_forall in B. specialize (B _ Hi). lia.
      * intros id Hid. cbn [map pc_id In]. split.
        { intros [<-|H]; [exists x; split; assumption|].
          assert (S (List.length before) <= id).
          { apply in_map_iff in H. destruct H as (pc & <- & Hi). rewrite Forall_forall in B. specialize (B _ Hi). lia. }
          apply D; assumption. }
        { intros H. destruct (Nat.eq_dec id (List.length before)) as [->|Ne]; [left; reflexivity|right].
          apply D; [lia|exact H]. }
    + exists pools. split; [exact A|]. split; [|split; [exact C|]].
      { eapply Forall_impl; [|exact B]. cbv beta. intros pc (P1 & P2 & P3). split; [exact P1|]. split; [exact P2|lia]. }
      intros id Hid. destruct (Nat.eq_dec id (List.length before)) as [->|Ne]; [|apply D; lia]. split.
      * intros H. apply in_map_iff in H. destruct H as (pc & Hq & Hi). rewrite Forall_forall in B. specialize (B _ Hi). lia.
      * intros (y & H & Hk). congruence.
Qed.

(** Every extension of the kinds that are asked for has one pool, whose settings are of its own entry of the
    configuration: it may do what it is allowed there, or what its manifest asks for when nothing is said. *)
Theorem C120_pools : forall d config catalog keep,
  NoDup (map fst config) -> create_catalog d config = ROk catalog ->
  exists pools, load_config catalog config keep = Some pools /\
    Forall (PoolOf config catalog) pools /\
    NoDup (map pc_id pools) /\
    (forall id, In id (map pc_id pools) <-> exists x, nth_error catalog id = Some x /\ keep (mf_kind (e_manifest x)) = true).
Proof.
  intros d config catalog keep ND E. apply C120_catalog in E.
  destruct (load_from_spec d config catalog (can_skip_events catalog) keep catalog [] ND E eq_refl) as (pools & A & B & C & D).
  exists pools. split; [exact A|]. split; [eapply Forall_impl; [|exact B]; intros pc (P & _); exact P|]. split.
  - clear - C. induction C as [|a l C IH F]; constructor; [|exact IH].
    intros H. rewrite Forall_forall in F. specialize (F _ H). lia.
  - intros id. apply D. cbn. lia.
Qed.

(** The gateway that starts *)

Definition empty_gateway : gateway := {| g_hooks := None; g_filter := None; g_authentication := [] |}.

Lemma start_spec : forall works catalog l g g',
  start works catalog g l = Started g' ->
  NoDup (map pc_id l) ->
  (forall pc, In pc l -> exists x, nth_error catalog (pc_id pc) = Some x) ->
  (* authentication *)
  (forall id, In id (map pc_id (g_authentication g')) <->
     In id (map pc_id (g_authentication g)) \/ (In id (map pc_id l) /\ exists x, nth_error catalog id = Some x /\ IsAuth x)) /\
  (* hooks *)
  ((g_hooks g' = g_hooks g /\ g_filter g' = g_filter g /\
    forall pc x, In pc l -> nth_error catalog (pc_id pc) = Some x -> ~ IsHooks x) \/
   (g_hooks g = None /\ exists pc x f, In pc l /\ g_hooks g' = Some pc /\ nth_error catalog (pc_id pc) = Some x /\
      mf_kind (e_manifest x) = KHooks f /\ g_filter g' = or f (mf_legacy_filter (e_manifest x)) /\
      forall pc' x', In pc' l -> nth_error catalog (pc_id pc') = Some x' -> IsHooks x' -> pc' = pc)) /\
  (* all of them run *)
  (forall id, In id (map pc_id (g_authentication g')) -> In id (map pc_id (g_authentication g)) \/ works id = true) /\
  (g_hooks g = None -> forall pc, g_hooks g' = Some pc -> works (pc_id pc) = true).
Proof.
  intros works catalog. induction l as [|c l IH]; intros g g' E ND Hl; cbn [start] in E.
  - injection E as <-. split; [|split; [|split]].
    + intros id. split; [intros H; left; exact H|intros [H|[[] _]]; exact H].
    + left. split; [reflexivity|]. split; [reflexivity|]. intros pc x [].
    + intros id H. left. exact H.
    + intros H pc H'. congruence.
  - cbn [map] in ND. apply NoDup_cons_iff in ND. destruct ND as [Nc ND].
    destruct (Hl c (or_introl eq_refl)) as [x Hx]. rewrite Hx in E.
    assert (Hl' : forall pc, In pc l -> exists x, nth_error catalog (pc_id pc) = Some x) by (intros pc H; apply Hl; right; exact H).
    destruct (mf_kind (e_manifest x)) as [|f|] eqn:K.
    + destruct (works (pc_id c)) eqn:Wk; [|discriminate].
      specialize (IH _ _ E ND Hl'). cbn [g_hooks g_filter g_authentication] in IH. destruct IH as (A & B & C & D).
      split; [|split; [|split]].
      * intros id. rewrite A, map_app, in_app_iff. cbn [map In]. split.
        { intros [[H|[<-|[]]]|[H H']]; [left; exact H|right; split; [left; reflexivity|exists x; split; assumption]|].
          right. split; [right; exact H|exact H']. }
        { intros [H|[[<-|H] H']]; [left; left; exact H|left; right; left; reflexivity|right; split; assumption]. }
      * destruct B as [(B1 & B2 & B3)|(B1 & pc & y & f & B2 & B3 & B4 & B5 & B6 & B7)].
        { left. split; [exact B1|]. split; [exact B2|]. intros pc y [<-|H] Hy; [|apply (B3 pc y H Hy)].
          rewrite Hx in Hy. injection Hy as <-. intros [f Hf]. congruence. }
        { right. split; [exact B1|]. exists pc, y, f. split; [right; exact B2|]. split; [exact B3|]. split; [exact B4|].
          split; [exact B5|]. split; [exact B6|]. intros pc' x' [<-|H] Hy Hh; [|apply (B7 pc' x' H Hy Hh)].
          rewrite Hx in Hy. injection Hy as <-. destruct Hh as [f' Hf]. congruence. }
      * intros id H. apply C in H. rewrite map_app, in_app_iff in H. cbn [map In] in H.
        destruct H as [[H|[<-|[]]]|H]; [left; exact H|right; exact Wk|right; exact H].
      * exact D.
    + destruct (g_hooks g) as [h|] eqn:Hh; [discriminate|]. destruct (works (pc_id c)) eqn:Wk; [|discriminate].
      specialize (IH _ _ E ND Hl'). cbn [g_hooks g_filter g_authentication] in IH. destruct IH as (A & B & C & D).
      destruct B as [(B1 & B2 & B3)|(B1 & _)]; [|discriminate].
      split; [|split; [|split]].
      * intros id. rewrite A. split.
        { intros [H|[H H']]; [left; exact H|right; split; [right; exact H|exact H']]. }
        { intros [H|[[<-|H] (y & Hy & Ha)]]; [left; exact H| |right; split; [exact H|exists y; split; assumption]].
          rewrite Hx in Hy. injection Hy as <-. unfold IsAuth in Ha. congruence. }
      * right. split; [reflexivity|]. exists c, x, f. split; [left; reflexivity|]. split; [exact B1|]. split; [exact Hx|].
        split; [exact K|]. split; [exact B2|]. intros pc' x' [<-|H] Hy Hk; [reflexivity|]. destruct (B3 pc' x' H Hy Hk).
      * exact C.
      * intros _ pc Hp. rewrite B1 in Hp. injection Hp as <-. exact Wk.
    + specialize (IH _ _ E ND Hl'). destruct IH as (A & B & C & D).
      split; [|split; [|split; [exact C|exact D]]].
      * intros id. rewrite A. split.
        { intros [H|[H H']]; [left; exact H|right; split; [right; exact H|exact H']]. }
        { intros [H|[[<-|H] (y & Hy & Ha)]]; [left; exact H| |right; split; [exact H|exists y; split; assumption]].
          rewrite Hx in Hy. injection Hy as <-. unfold IsAuth in Ha. congruence. }
      * destruct B as [(B1 & B2 & B3)|(B1 & pc & y & f & B2 & B3 & B4 & B5 & B6 & B7)].
        { left. split; [exact B1|]. split; [exact B2|]. intros pc y [<-|H] Hy; [|apply (B3 pc y H Hy)].
          rewrite Hx in Hy. injection Hy as <-. intros [f Hf]. congruence. }
        { right. split; [exact B1|]. exists pc, y, f. split; [right; exact B2|]. split; [exact B3|]. split; [exact B4|].
          split; [exact B5|]. split; [exact B6|]. intros pc' x' [<-|H] Hy Hh; [|apply (B7 pc' x' H Hy Hh)].
          rewrite Hx in Hy. injection Hy as <-. destruct Hh as [f' Hf]. congruence. }
Qed.

Lemma start_authentication_nodup : forall works catalog l g g',
  start works catalog g l = Started g' ->
  NoDup (map pc_id (g_authentication g) ++ map pc_id l) -> NoDup (map pc_id (g_authentication g')).
Proof.
  intros works catalog. induction l as [|c l IH]; intros g g' E ND; cbn [start] in E.
  - injection E as <-. cbn [map] in ND. rewrite app_nil_r in ND. exact ND.
  - cbn [map] in ND. assert (ND' : NoDup (map pc_id (g_authentication g) ++ map pc_id l)) by (eapply NoDup_remove_1; exact ND).
    destruct (nth_error catalog (pc_id c)) as [x|]; [|eapply IH; eassumption].
    destruct (mf_kind (e_manifest x)).
    + destruct (works (pc_id c)); [|discriminate]. eapply IH; [exact E|]. cbn [g_authentication].
      rewrite map_app, <- app_assoc. exact ND.
    + destruct (g_hooks g); [discriminate|]. destruct (works (pc_id c)); [|discriminate]. eapply IH; [exact E|]. exact ND'.
    + eapply IH; eassumption.
Qed.

Lemma gateway_pools : forall d works config catalog g,
  NoDup (map fst config) -> create_catalog d config = ROk catalog ->
  gateway_new works catalog config = Some (Started g) ->
  NoDup (map pc_id (g_authentication g)) /\
  (forall id, In id (map pc_id (g_authentication g)) <-> exists x, nth_error catalog id = Some x /\ IsAuth x) /\
  ((g_hooks g = None /\ g_filter g = None /\ forall id x, nth_error catalog id = Some x -> ~ IsHooks x) \/
   (exists pc x f, PoolOf config catalog pc /\ g_hooks g = Some pc /\ nth_error catalog (pc_id pc) = Some x /\
      mf_kind (e_manifest x) = KHooks f /\ g_filter g = or f (mf_legacy_filter (e_manifest x)) /\
      works (pc_id pc) = true /\
      forall id' x', nth_error catalog id' = Some x' -> IsHooks x' -> id' = pc_id pc)) /\
  (forall id, In id (map pc_id (g_authentication g)) -> works id = true).
Proof.
  intros d works config catalog g ND E G.
  destruct (C120_pools d config catalog of_gateway ND E) as (pools & A & B & C & D).
  unfold gateway_new in G. rewrite A in G. injection G as G.
  assert (Hl : forall pc, In pc pools -> exists x, nth_error catalog (pc_id pc) = Some x).
  { intros pc H. rewrite Forall_forall in B. destruct (B _ H) as (c & x & _ & Hx & _). exists x. exact Hx. }
  pose proof (start_authentication_nodup _ _ _ _ _ G C) as N1.
  destruct (start_spec _ _ _ _ _ G C Hl) as (S1 & S2 & S3 & S4). cbn [g_hooks g_filter g_authentication map In] in *.
  split; [exact N1|]. split; [|split].
  - intros id. rewrite S1. split; [intros [[]|[_ H]]; exact H|]. intros (x & Hx & Ha). right. split; [|exists x; split; assumption].
    apply D. exists x. split; [exact Hx|]. unfold IsAuth in Ha. rewrite Ha. reflexivity.
  - assert (Hh : forall id x, nth_error catalog id = Some x -> IsHooks x -> exists pc, In pc pools /\ pc_id pc = id).
    { intros id x Hx [f Hf]. assert (Hi : In id (map pc_id pools)) by (apply D; exists x; split; [exact Hx|rewrite Hf; reflexivity]).
      apply in_map_iff in Hi. destruct Hi as (pc & Hq & Hi). exists pc. split; assumption. }
    destruct S2 as [(B1 & B2 & B3)|(_ & pc & x & f & B2 & B3 & B4 & B5 & B6 & B7)].
    + left. split; [exact B1|]. split; [exact B2|]. intros id x Hx Hk. destruct (Hh id x Hx Hk) as (pc & Hp & Hq).
      subst id. apply (B3 pc x Hp Hx Hk).
    + right. exists pc, x, f. rewrite Forall_forall in B. split; [apply B, B2|]. split; [exact B3|]. split; [exact B4|].
      split; [exact B5|]. split; [exact B6|]. split; [apply (S4 eq_refl), B3|].
      intros id' x' Hx' Hk. destruct (Hh id' x' Hx' Hk) as (pc' & Hp & Hq). subst id'. f_equal. apply (B7 pc' x' Hp Hx' Hk).
  - intros id H. destruct (S3 id H) as [[]|H']; exact H'.
Qed.

(** A gateway that starts runs every authentication extension it has, each once, and the one hooks extension it has. *)
Theorem C120_gateway : forall d works config catalog g,
  NoDup (map fst config) -> create_catalog d config = ROk catalog ->
  gateway_new works catalog config = Some (Started g) ->
  NoDup (map pc_id (g_authentication g)) /\
  (forall id, In id (map pc_id (g_authentication g)) <-> exists x, nth_error catalog id = Some x /\ IsAuth x) /\
  (forall id x, nth_error catalog id = Some x -> IsHooks x -> option_map pc_id (g_hooks g) = Some id) /\
  (forall pc, g_hooks g = Some pc -> exists x, nth_error catalog (pc_id pc) = Some x /\ IsHooks x) /\
  (forall id x, nth_error catalog id = Some x -> IsAuth x \/ IsHooks x -> works id = true).
Proof.
  intros d works config catalog g ND E G.
  destruct (gateway_pools _ _ _ _ _ ND E G) as (A & B & C & D).
  split; [exact A|]. split; [exact B|]. destruct C as [(C1 & C2 & C3)|(pc & x & f & C1 & C2 & C3 & C4 & C5 & C6 & C7)].
  - split; [intros id x Hx Hk; destruct (C3 id x Hx Hk)|]. split; [intros pc H; congruence|].
    intros id x Hx [Hk|Hk]; [apply D, B; exists x; split; assumption|destruct (C3 id x Hx Hk)].
  - rewrite C2. cbn [option_map]. split; [intros id y Hy Hk; f_equal; symmetry; apply (C7 id y Hy Hk)|]. split.
    + intros pc' H. injection H as <-. exists x. split; [exact C3|exists f; exact C4].
    + intros id y Hy [Hk|Hk]; [apply D, B; exists y; split; assumption|]. rewrite (C7 id y Hy Hk). exact C6.
Qed.

(** Two hooks extensions are too many. *)
Theorem C120_one_hooks : forall d works config catalog g i j x y,
  NoDup (map fst config) -> create_catalog d config = ROk catalog ->
  gateway_new works catalog config = Some (Started g) ->
  nth_error catalog i = Some x -> nth_error catalog j = Some y -> IsHooks x -> IsHooks y -> i = j.
Proof.
  intros d works config catalog g i j x y ND E G Hx Hy Kx Ky.
  destruct (C120_gateway _ _ _ _ _ ND E G) as (_ & _ & A & _).
  pose proof (A i x Hx Kx) as P. pose proof (A j y Hy Ky) as Q. rewrite P in Q. injection Q as <-. reflexivity.
Qed.

(** The gateway never panics over the configuration of its extensions. *)
Theorem C120_no_panic : forall d works config catalog,
  NoDup (map fst config) -> create_catalog d config = ROk catalog -> gateway_new works catalog config <> None.
Proof.
  intros d works config catalog ND E G. destruct (C120_pools d config catalog of_gateway ND E) as (pools & A & _).
  unfold gateway_new in G. rewrite A in G. discriminate.
Qed.
