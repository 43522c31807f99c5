(** What is detected is stored, and gives every key field to inputs that can take it. *)

From Coq Require Import List Arith Lia ZArith String Bool Permutation.
From Verif Require Import Response.Model Response.Spec Views.Model Views.Spec Lookup.Model Lookup.Spec Lookup.Store.
Import ListNotations.
Local Open Scope nat_scope.

(** ** Comparisons *)

Lemma bools_eqb_eq : forall a b, bools_eqb a b = true <-> a = b.
Proof.
  induction a as [|x a IH]; destruct b as [|y b]; cbn; split; intros H; try congruence; try discriminate.
  - apply andb_true_iff in H. destruct H as [E F]. apply Bool.eqb_prop in E. apply IH in F. congruence.
  - injection H as -> ->. rewrite Bool.eqb_reflx. cbn. apply IH. reflexivity.
Qed.
Lemma wrap_eqb_eq : forall a b, wrap_eqb a b = true <-> a = b.
Proof.
  intros [l i] [m j]. unfold wrap_eqb. cbn. rewrite andb_true_iff, bools_eqb_eq. split.
  - intros [-> E]. apply Bool.eqb_prop in E. congruence.
  - intros E. injection E as -> ->. split; [reflexivity|apply Bool.eqb_reflx].
Qed.
Lemma def_eqb_eq : forall a b, def_eqb a b = true <-> a = b.
Proof.
  intros [n|n|n|n] [m|m|m|m]; cbn; split; intros H; try discriminate H;
    try (apply Nat.eqb_eq in H; congruence); injection H as ->; apply Nat.eqb_refl.
Qed.
Lemma ty_eqb_eq : forall a b, ty_eqb a b = true <-> a = b.
Proof.
  intros [d w] [e v]. unfold ty_eqb. cbn. rewrite andb_true_iff, def_eqb_eq, wrap_eqb_eq. split; [intros [-> ->]; reflexivity|].
  intros E. injection E as -> ->. auto.
Qed.

Lemma takes_wrap_spec : forall w f, wrap_eqb w f || wrap_eqb (non_null w) f = true <-> takes_wrap w f.
Proof.
  intros w f. rewrite orb_true_iff, !wrap_eqb_eq. unfold takes_wrap. split.
  - intros [->| <-]; [left; reflexivity|]. destruct w as [[|[] l] []]; cbn; try (left; reflexivity); right; split; reflexivity.
  - intros [->|[E ->]]; [left; reflexivity|]. right. destruct f as [[|[] l] []]; cbn in *; try discriminate; reflexivity.
Qed.

Lemma can_inject_takes : forall f i batch, can_inject f i batch = true <-> takes batch (i_ty i) (f_ty f).
Proof.
  intros f i batch. unfold can_inject, takes. rewrite andb_true_iff.
  assert (D : (match t_def (f_ty f) with
               | DEnum _ | DScalar _ => def_eqb (t_def (f_ty f)) (t_def (i_ty i))
               | _ => match t_def (i_ty i) with DInput _ => true | _ => false end
               end = true) <-> takes_def (t_def (i_ty i)) (t_def (f_ty f))).
  { unfold takes_def. destruct (t_def (f_ty f)); try (rewrite def_eqb_eq; split; intros H; symmetry; exact H);
      destruct (t_def (i_ty i)); split; intros H; try discriminate H; try (eexists; reflexivity); try reflexivity;
      destruct H as [? H]; discriminate H. }
  rewrite D. destruct batch.
  - unfold pop_list. destruct (w_lists (t_wrap (i_ty i))) as [|b l] eqn:W.
    + split; intros [_ H]; [discriminate H|]. destruct H as (b & w & E & _). discriminate E.
    + rewrite takes_wrap_spec. split; intros [A H]; (split; [exact A|]).
      * exists b. eexists. split; [|split; [|exact H]]; reflexivity.
      * destruct H as (b' & [l' j] & E & F & T). cbn in E, F. injection E as -> ->. rewrite F. exact T.
  - rewrite takes_wrap_spec. reflexivity.
Qed.

Lemma position_in : forall test l p q k, position test l p = Some (q, k) ->
  p <= q /\ nth_error l (q - p) = Some k /\ test q k = true.
Proof.
  intros test l. induction l as [|x l IH]; cbn; intros p q k E; [discriminate|].
  destruct (test p x) eqn:T.
  - injection E as <- <-. rewrite Nat.sub_diag. cbn. auto.
  - destruct (IH _ _ _ E) as (A & B & C). split; [lia|]. split; [|exact C].
    replace (q - p) with (S (q - S p)) by lia. exact B.
Qed.

Lemma combine_seq : forall (l : list item) s q k, nth_error l q = Some k ->
  nth_error (combine (seq s (List.length l)) l) q = Some (s + q, k).
Proof.
  induction l as [|x l IH]; intros s q k E; [destruct q; discriminate E|].
  destruct q as [|q]; cbn in *; [injection E as ->; rewrite Nat.add_0_r; reflexivity|].
  rewrite (IH _ _ _ E), Nat.add_succ_r. reflexivity.
Qed.

Section Sound.
  Variable g : graph.
  Hypothesis distinct_inputs : forall o, NoDup (o_inputs (g_object g o)).

  Definition nested_ok (nested : list item -> list nat -> store -> option vinj * store) : Prop :=
    forall keys inputs st r st', NoDup inputs -> good_store st -> nested keys inputs st = (r, st') ->
      grown st st' /\ forall v, r = Some v -> exists l, means st' v (IObject l) /\ given_all g false keys inputs l.

  Section Step.
    Variable nested : list item -> list nat -> store -> option vinj * store.
    Hypothesis Hn : nested_ok nested.

    Lemma suits_entitled : forall inputs keys batch id p k, nth_error keys p = Some k ->
      suits g inputs keys batch id p k = true -> entitled g inputs keys id k.
    Proof.
      intros inputs keys batch id p k Nk T. unfold suits in T. apply andb_true_iff in T. destruct T as [_ T].
      apply orb_true_iff in T. destruct T as [T|T]; [left; apply Nat.eqb_eq; exact T|right].
      apply andb_true_iff in T. destruct T as [A B]. rewrite forallb_forall in A, B. split.
      - intros j J N E. specialize (A j J). apply orb_true_iff in A. destruct A as [A|A]; [apply Nat.eqb_eq in A; contradiction|].
        apply negb_true_iff in A. rewrite (proj2 (ty_eqb_eq _ _) E) in A. discriminate A.
      - intros k' J N E. apply In_nth_error in J. destruct J as (q & Nq).
        assert (L : q < List.length keys) by (apply nth_error_Some; congruence).
        assert (Jq : In (q, k') (combine (seq 0 (List.length keys)) keys)).
        { apply (nth_error_In _ q). exact (combine_seq keys 0 q k' Nq). }
        specialize (B _ Jq). cbn in B. apply orb_true_iff in B. destruct B as [B|B].
        + apply Nat.eqb_eq in B. subst q. congruence.
        + apply negb_true_iff in B. rewrite (proj2 (ty_eqb_eq _ _) E) in B. discriminate B.
    Qed.

    Lemma map_input_ok : forall inputs keys batch id st r st', good_store st ->
      map_input g nested inputs keys batch id st = (r, st') ->
      grown st st' /\ forall p v, r = Some (p, v) -> exists i, means st' v i /\ given g batch inputs keys id i /\
        forall p', p = Some p' -> exists k next, nth_error keys p' = Some k /\ i = ISelect (i_field k) next.
    Proof.
      intros inputs keys batch id st r st' G E. unfold map_input in E.
      destruct (position (suits g inputs keys batch id) keys 0) as [[q k]|] eqn:P.
      - destruct (position_in _ _ _ _ _ P) as (_ & Nk & T). rewrite Nat.sub_0_r in Nk.
        assert (Ik := nth_error_In _ _ Nk). assert (En := suits_entitled _ _ _ _ _ _ Nk T).
        unfold suits in T. apply andb_true_iff in T. destruct T as [T _]. rewrite can_inject_takes in T.
        destruct (i_sub k) as [|s sub] eqn:Sub.
        + cbn in E. injection E as <- <-. split; [apply grown_refl|]. intros p v X. injection X as <- <-.
          exists (ISelect (i_field k) IIdentity). split; [|split].
          * apply MeSelect with IdentityV; [exact G|constructor].
          * apply GvLeaf; assumption.
          * intros p' X. injection X as <-. eauto.
        + destruct (t_def (i_ty (g_input g id))) as [| |o|] eqn:D;
            try (injection E as <- <-; split; [apply grown_refl|intros; discriminate]).
          destruct (nested (s :: sub) (o_inputs (g_object g o)) st) as [[v|] st1] eqn:Ne.
          * destruct (push_inj v st1) as [n st2] eqn:Pu. injection E as <- <-.
            destruct (Hn _ _ _ _ _ (distinct_inputs o) G Ne) as (G1 & M). destruct (M v eq_refl) as (l & Mv & Gl).
            assert (G2 := push_inj_grown _ _ _ _ Pu).
            destruct (push_inj_means _ _ _ _ _ (good_grown _ _ G G1) Pu Mv) as (v' & Nv & Mv').
            split; [exact (grown_trans _ _ _ G1 G2)|]. intros p w X. injection X as <- <-.
            exists (ISelect (i_field k) (IObject l)). split; [|split].
            -- apply MeSelect with v'; assumption.
            -- apply GvObject with o; try assumption; [rewrite Sub; discriminate|rewrite Sub; exact Gl].
            -- intros p' X. injection X as <-. eauto.
          * injection E as <- <-. split; [exact (proj1 (Hn _ _ _ _ _ (distinct_inputs o) G Ne))|intros; discriminate].
      - destruct (i_default (g_input g id)) as [x|] eqn:Df; injection E as <- <-; (split; [apply grown_refl|intros p v X; try discriminate X]).
        injection X as <- <-. exists (IDefault x). split; [constructor|]. split; [constructor; exact Df|]. intros p' X. discriminate X.
    Qed.

    Lemma map_inputs_ok : forall inputs keys batch l st r st', good_store st -> NoDup l ->
      map_inputs g nested inputs keys batch l st = (r, st') ->
      grown st st' /\ forall ps vs, r = Some (ps, vs) -> exists ids,
        each_means st' vs ids /\ incl (map fst ids) l /\ NoDup (map fst ids) /\ given_each g batch inputs keys ids /\
        (forall id, In id l -> is_non_null (t_wrap (i_ty (g_input g id))) = true -> In id (map fst ids)) /\
        (forall p, In p ps -> exists k id next, nth_error keys p = Some k /\ In (id, ISelect (i_field k) next) ids).
    Proof.
      intros inputs keys batch l. induction l as [|id l IH]; intros st r st' G Nd E.
      - cbn in E. injection E as <- <-. split; [apply grown_refl|]. intros ps vs X. injection X as <- <-.
        exists []. split; [constructor|]. split; [intros x []|]. split; [constructor|]. split; [constructor|]. split; [intros x []|intros p []].
      - cbn [map_inputs] in E. destruct (map_input g nested inputs keys batch id st) as [m st1] eqn:M.
        destruct (map_input_ok _ _ _ _ _ _ _ G M) as (G1 & Ok1). inversion Nd; subst.
        assert (Step : exists w, (match m with
            | Some (p, v) => Some (match p with Some p => [p] | None => [] end, [(id, v)])
            | None => match i_default (g_input g id) with
                      | Some x => Some ([], [(id, DefaultV x)])
                      | None => if is_non_null (t_wrap (i_ty (g_input g id))) then None else Some ([], [])
                      end
            end) = w /\ forall ps vs, w = Some (ps, vs) -> exists ids, each_means st1 vs ids /\ incl (map fst ids) [id] /\ NoDup (map fst ids) /\
              given_each g batch inputs keys ids /\ (is_non_null (t_wrap (i_ty (g_input g id))) = true -> In id (map fst ids)) /\
              (forall p, In p ps -> exists k id next, nth_error keys p = Some k /\ In (id, ISelect (i_field k) next) ids)).
        { eexists. split; [reflexivity|]. intros ps vs X. destruct m as [[p v]|].
          - destruct (Ok1 _ _ eq_refl) as (i & Mi & Gi & Pi). injection X as <- <-. exists [(id, i)].
            split; [constructor; [split; [reflexivity|exact Mi]|constructor]|].
            split; [intros x J; exact J|]. split; [repeat constructor; intros []|]. split; [repeat constructor; exact Gi|].
            split; [intros _; left; reflexivity|]. intros p' J. destruct p as [p|]; [|destruct J].
            destruct J as [<-|[]]. destruct (Pi _ eq_refl) as (k & next & Nk & ->). exists k, id, next. split; [exact Nk|left; reflexivity].
          - destruct (i_default (g_input g id)) as [x|] eqn:Df.
            + injection X as <- <-. exists [(id, IDefault x)].
              split; [constructor; [split; [reflexivity|constructor]|constructor]|].
              split; [intros y J; exact J|]. split; [repeat constructor; intros []|]. split; [repeat constructor; exact Df|].
              split; [intros _; left; reflexivity|intros p []].
            + destruct (is_non_null _) eqn:Nn; [discriminate X|]. injection X as <- <-. exists [].
              split; [constructor|]. split; [intros y []|]. split; [constructor|]. split; [constructor|].
              split; [congruence|intros p []]. }
        destruct Step as (w & Ew & Ok2). rewrite Ew in E. destruct w as [[ps1 vs1]|]; [|injection E as <- <-; split; [exact G1|intros; discriminate]].
        destruct (map_inputs g nested inputs keys batch l st1) as [[[ps2 vs2]|] st2] eqn:R.
        + injection E as <- <-. destruct (IH _ _ _ (good_grown _ _ G G1) H2 R) as (G2 & Ok3).
          split; [exact (grown_trans _ _ _ G1 G2)|]. intros ps vs X. injection X as <- <-.
          destruct (Ok2 _ _ eq_refl) as (ids1 & A1 & A2 & A3 & A4 & A5 & A6).
          destruct (Ok3 _ _ eq_refl) as (ids2 & B1 & B2 & B3 & B4 & B5 & B6).
          exists (ids1 ++ ids2). rewrite map_app. split; [|split; [|split; [|split; [|split]]]].
          * apply Forall2_app; [exact (all_grown _ _ _ _ G2 A1)|exact B1].
          * intros x J. apply in_app_or in J. destruct J as [J|J]; [destruct (A2 _ J) as [<-|[]]; left; reflexivity|right; exact (B2 _ J)].
          * assert (Dis : forall x, In x (map fst ids1) -> ~ In x (map fst ids2)).
            { intros x J K. destruct (A2 _ J) as [<-|[]]. exact (H1 (B2 _ K)). }
            clear - A3 B3 Dis. induction (map fst ids1) as [|x r IHr]; [exact B3|]. inversion A3; subst. cbn. constructor.
            -- intros J. apply in_app_or in J. destruct J as [J|J]; [contradiction|]. exact (Dis x (or_introl eq_refl) J).
            -- apply IHr; [assumption|]. intros y J. apply Dis. right. exact J.
          * clear - A4 B4. induction ids1 as [|[x i] r IHr]; [exact B4|]. inversion A4; subst. cbn. constructor; auto.
          * intros x [<-|J] Nn; apply in_or_app; [left; exact (A5 Nn)|right; exact (B5 _ J Nn)].
          * intros p J. apply in_app_or in J. destruct J as [J|J].
            -- destruct (A6 _ J) as (k & x & next & Nk & K). exists k, x, next. split; [exact Nk|apply in_or_app; left; exact K].
            -- destruct (B6 _ J) as (k & x & next & Nk & K). exists k, x, next. split; [exact Nk|apply in_or_app; right; exact K].
        + injection E as <- <-. split; [|intros; discriminate].
          exact (grown_trans _ _ _ G1 (proj1 (IH _ _ _ (good_grown _ _ G G1) H2 R))).
    Qed.

    Lemma all_taken_spec : forall keys ps, all_taken keys ps = true -> forall k, In k keys -> exists p, nth_error keys p = Some k /\ In p ps.
    Proof.
      unfold all_taken. intros keys ps H k J. apply In_nth_error in J. destruct J as (p & Np). exists p. split; [exact Np|].
      rewrite forallb_forall in H. specialize (H p). rewrite in_seq in H. cbn in H.
      assert (L : p < List.length keys) by (apply nth_error_Some; congruence).
      assert (X := H (conj (Nat.le_0_l p) L)). apply existsb_exists in X. destruct X as (q & Jq & E). apply Nat.eqb_eq in E. subst q. exact Jq.
    Qed.

    Lemma taken_ids : forall keys ps (ids : list (nat * inj)), all_taken keys ps = true ->
      (forall p, In p ps -> exists k id next, nth_error keys p = Some k /\ In (id, ISelect (i_field k) next) ids) ->
      forall k, In k keys -> exists id next, In (id, ISelect (i_field k) next) ids.
    Proof.
      intros keys ps ids A H k J. destruct (all_taken_spec _ _ A k J) as (p & Np & Jp).
      destruct (H _ Jp) as (k' & id & next & Nk & K). assert (k' = k) by congruence. subst k'. eauto.
    Qed.

    Lemma map_object_ok : forall keys inputs st r st', NoDup inputs -> good_store st ->
      map_object g nested false keys inputs st = (r, st') ->
      grown st st' /\ forall v, r = Some v -> exists l, means st' v (IObject l) /\ given_all g false keys inputs l.
    Proof.
      intros keys inputs st r st' Nd G E. unfold map_object in E.
      destruct (map_inputs g nested inputs keys false inputs st) as [[[ps vs]|] st1] eqn:M.
      - destruct (map_inputs_ok _ _ _ _ _ _ _ G Nd M) as (G1 & Ok1). destruct (Ok1 _ _ eq_refl) as (ids & A1 & A2 & A3 & A4 & A5 & A6).
        destruct (all_taken keys ps) eqn:T.
        + destruct (push_kvs (map (fun p => (i_name (g_input g (fst p)), snd p)) vs) st1) as [v st2] eqn:P. injection E as <- <-.
          split; [exact (grown_trans _ _ _ G1 (push_kvs_grown _ _ _ _ P))|]. intros v' X. injection X as <-.
          destruct (push_kvs_means _ _ _ _ (map (fun p => (i_name (g_input g (fst p)), snd p)) ids) P) as (m' & M' & Pm & O).
          { clear - A1. induction A1 as [|[a v] [b i] l m [K Mv] F IH]; constructor; [|exact IH]. cbn in *. subst b. split; [reflexivity|exact Mv]. }
          exists m'. split; [exact M'|]. apply GvAll with ids; try assumption. exact (taken_ids _ _ _ T A6).
        + injection E as <- <-. split; [exact G1|intros; discriminate].
      - injection E as <- <-. split; [exact (proj1 (map_inputs_ok _ _ _ _ _ _ _ G Nd M))|intros; discriminate].
    Qed.

    Lemma map_arguments_ok : forall batch keys args st r st', NoDup args -> good_store st ->
      map_arguments g nested batch keys args st = (r, st') ->
      grown st st' /\ forall c, r = Some c -> exists l, means_args g st' (fst c) (snd c) l /\ given_args g batch keys args l.
    Proof.
      intros batch keys args st r st' Nd G E. unfold map_arguments in E.
      destruct (map_inputs g nested args keys batch args st) as [[[ps vs]|] st1] eqn:M.
      - destruct (map_inputs_ok _ _ _ _ _ _ _ G Nd M) as (G1 & Ok1). destruct (Ok1 _ _ eq_refl) as (ids & A1 & A2 & A3 & A4 & A5 & A6).
        destruct (all_taken keys ps) eqn:T.
        + destruct (push_args (map (fun p => (fst p, ValueA (snd p))) vs) st1) as [c st2] eqn:P. injection E as <- <-.
          split; [exact (grown_trans _ _ _ G1 (push_args_grown _ _ _ _ P))|]. intros c' X. injection X as <-.
          eexists. split; [exact (push_args_means g _ _ _ _ _ P A1)|]. apply GaDirect; try assumption. exact (taken_ids _ _ _ T A6).
        + injection E as <- <-. split; [exact G1|intros; discriminate].
      - injection E as <- <-. split; [exact (proj1 (map_inputs_ok _ _ _ _ _ _ _ G Nd M))|intros; discriminate].
    Qed.

    Lemma oneof_values_ok : forall key batch inputs l st r st', good_store st ->
      oneof_values g nested key batch inputs l st = (r, st') ->
      grown st st' /\ forall vs, r = Some vs -> forall id v, In (id, v) vs ->
        In id l /\ exists i, means st' v i /\ given g batch inputs [key] id i.
    Proof.
      intros key batch inputs l. induction l as [|id l IH]; intros st r st' G E.
      - cbn in E. injection E as <- <-. split; [apply grown_refl|]. intros vs X. injection X as <-. intros id v [].
      - cbn [oneof_values] in E. destruct (map_input g nested inputs [key] batch id st) as [m st1] eqn:M.
        destruct (map_input_ok _ _ _ _ _ _ _ G M) as (G1 & Ok1).
        destruct m as [[p v]|].
        + destruct (oneof_values g nested key batch inputs l st1) as [[r2|] st2] eqn:R; injection E as <- <-;
            destruct (IH _ _ _ (good_grown _ _ G G1) R) as (G2 & Ok2); (split; [exact (grown_trans _ _ _ G1 G2)|]); [|intros; discriminate].
          intros vs X. injection X as <-. intros id' v' [E|J].
          * injection E as <- <-. split; [left; reflexivity|]. destruct (Ok1 _ _ eq_refl) as (i & Mi & Gi & _). exists i.
            split; [exact (means_grown _ _ _ _ Mi G2)|exact Gi].
          * destruct (Ok2 _ eq_refl _ _ J) as (A & B). split; [right; exact A|exact B].
        + destruct (is_non_null _); [injection E as <- <-; split; [exact G1|intros; discriminate]|].
          destruct (IH _ _ _ (good_grown _ _ G G1) E) as (G2 & Ok2). split; [exact (grown_trans _ _ _ G1 G2)|].
          intros vs X id' v' J. destruct (Ok2 _ X _ _ J) as (A & B). split; [right; exact A|exact B].
    Qed.

    Lemma oneof_single_ok : forall batch key inputs st r st', good_store st ->
      oneof_single g nested batch key inputs st = (r, st') ->
      grown st st' /\ forall id v, r = Some (id, v) -> In id inputs /\ exists i, means st' v i /\ given g batch inputs [key] id i.
    Proof.
      intros batch key inputs st r st' G E. unfold oneof_single in E.
      destruct (oneof_values g nested key batch inputs inputs st) as [[l|] st1] eqn:O; destruct (oneof_values_ok _ _ _ _ _ _ _ G O) as (G1 & Ok1).
      - destruct (rev l) as [|w rest] eqn:R; [injection E as <- <-; split; [exact G1|intros; discriminate]|].
        assert (J : In w l) by (rewrite in_rev, R; left; reflexivity).
        destruct (Nat.ltb 1 (List.length rest)); injection E as <- <-; (split; [exact G1|intros id v X; try discriminate X]).
        injection X as ->. exact (Ok1 _ eq_refl _ _ J).
      - injection E as <- <-. split; [exact G1|intros; discriminate].
    Qed.

    Lemma single_depth_spec : forall batch t, single_depth batch (t_wrap t) = true <-> depth_for batch t.
    Proof.
      intros batch t. unfold single_depth, depth_for. destruct batch, (w_lists (t_wrap t)) as [|b [|]]; split; intros H;
        try discriminate H; try reflexivity; try (destruct H as [? H]; discriminate H); eauto.
    Qed.

    Definition all_ok (batch : bool) (keys : list item) (args : list nat) (cs : list (nat * nat)) (st : store) : Prop :=
      forall c, In c cs -> exists l, means_args g st (fst c) (snd c) l /\ given_args g batch keys args l.
    Lemma all_ok_grown : forall batch keys args cs st st', grown st st' -> all_ok batch keys args cs st -> all_ok batch keys args cs st'.
    Proof. intros batch keys args cs st st' G A c J. destruct (A c J) as (l & M & R). exists l. split; [exact (args_grown _ _ _ _ _ _ G M)|exact R]. Qed.

    (** ** The store, whatever happens *)

    Lemma oneof_fields_grown : forall batch keys arg state l st cs st', good_store state -> grown state st ->
      oneof_fields g nested batch keys arg state l st = (cs, st') ->
      grown state st' /\ (cs = [] -> st = state -> st' = state).
    Proof.
      intros batch keys arg state l. induction l as [|f l IH]; intros st cs st' G G0 E.
      - cbn in E. injection E as <- <-. auto.
      - cbn [oneof_fields] in E.
        destruct (t_def (i_ty (g_input g f))) as [| |of_|] eqn:Df; try (exact (IH _ _ _ G G0 E)).
        destruct (single_depth batch (t_wrap (i_ty (g_input g f)))) eqn:Sd; [|exact (IH _ _ _ G G0 E)].
        destruct (map_object g nested false keys (o_inputs (g_object g of_)) st) as [[v|] st1] eqn:M;
          destruct (map_object_ok _ _ _ _ _ (distinct_inputs of_) (good_grown _ _ G G0) M) as (G1 & Ok1).
        + destruct (push_nested arg f v st1) as [c st2] eqn:P.
          destruct (oneof_fields g nested batch keys arg state l st2) as [rs st3] eqn:R. injection E as <- <-.
          assert (G2 : grown st1 st2).
          { unfold push_nested in P. destruct (push_args [(f, ValueA v)] st1) as [n st4] eqn:P1.
            exact (grown_trans _ _ _ (push_args_grown _ _ _ _ P1) (push_args_grown _ _ _ _ P)). }
          destruct (IH _ _ _ G (grown_trans _ _ _ G0 (grown_trans _ _ _ G1 G2)) R) as (G3 & _). split; [exact G3|discriminate].
        + assert (G2 := grown_trans _ _ _ G0 G1). rewrite (reset_grown _ _ G2) in E.
          destruct (IH _ _ _ G (grown_refl _) E) as (G3 & N3). split; [exact G3|auto].
    Qed.

    Lemma candidates_of_grown : forall batch keys id st cs st', good_store st ->
      candidates_of g nested batch keys id st = (cs, st') -> grown st st' /\ (cs = [] -> st' = st).
    Proof.
      intros batch keys id st cs st' G E. unfold candidates_of in E.
      assert (No : ([], st) = (cs, st') -> grown st st' /\ (cs = [] -> st' = st)).
      { intros X. injection X as <- <-. split; [apply grown_refl|reflexivity]. }
      destruct (t_def (i_ty (g_input g id))) as [| |o|] eqn:D; try (exact (No E)).
      destruct (o_oneof (g_object g o)) eqn:Oo.
      - destruct (w_lists (t_wrap (i_ty (g_input g id)))) as [|b l] eqn:W; [|exact (No E)].
        assert (Many : oneof_fields g nested batch keys id st (o_inputs (g_object g o)) st = (cs, st') -> grown st st' /\ (cs = [] -> st' = st)).
        { intros F. destruct (oneof_fields_grown _ _ _ _ _ _ _ _ G (grown_refl st) F) as (A & B). auto. }
        destruct keys as [|key [|k2 ks]]; [exact (Many E)| |exact (Many E)].
        destruct (oneof_single g nested batch key (o_inputs (g_object g o)) st) as [[[f v]|] st1] eqn:S1;
          destruct (oneof_single_ok _ _ _ _ _ _ G S1) as (G1 & Ok1).
        + destruct (push_nested id f v st1) as [c st2] eqn:P. injection E as <- <-. destruct (Ok1 _ _ eq_refl) as (Jf & i & Mi & Gi).
          destruct (push_nested_means g _ _ _ _ _ _ _ P Mi) as (G2 & Mc). split; [exact (grown_trans _ _ _ G1 G2)|discriminate].
        + rewrite (reset_grown _ _ G1) in E. exact (No E).
      - destruct keys as [|k1 [|k2 ks]]; try (exact (No E)).
        destruct (single_depth batch (t_wrap (i_ty (g_input g id)))) eqn:Sd; [|exact (No E)].
        destruct (map_object g nested false (k1 :: k2 :: ks) (o_inputs (g_object g o)) st) as [[v|] st1] eqn:M;
          destruct (map_object_ok _ _ _ _ _ (distinct_inputs o) G M) as (G1 & Ok1).
        + destruct (push_args [(id, ValueA v)] st1) as [c st2] eqn:P. injection E as <- <-.
          split; [exact (grown_trans _ _ _ G1 (push_args_grown _ _ _ _ P))|discriminate].
        + rewrite (reset_grown _ _ G1) in E. exact (No E).
    Qed.

    Lemma nested_candidates_grown : forall batch keys required l st cs st', good_store st ->
      nested_candidates g nested batch keys required l st = (cs, st') -> grown st st' /\ (cs = [] -> st' = st).
    Proof.
      intros batch keys required l. induction l as [|id l IH]; intros st cs st' G E.
      - cbn in E. injection E as <- <-. split; [apply grown_refl|reflexivity].
      - cbn [nested_candidates] in E. destruct (existsb _ _); [exact (IH _ _ _ G E)|].
        destruct (candidates_of g nested batch keys id st) as [c1 st1] eqn:C1.
        destruct (candidates_of_grown _ _ _ _ _ _ G C1) as (G1 & N1).
        destruct (nested_candidates g nested batch keys required l st1) as [c2 st2] eqn:C2. injection E as <- <-.
        destruct (IH _ _ _ (good_grown _ _ G G1) C2) as (G2 & N2). split; [exact (grown_trans _ _ _ G1 G2)|].
        intros X. apply app_eq_nil in X. destruct X as [-> ->]. rewrite N2, N1; reflexivity.
    Qed.

    Lemma detect_step_grown : forall batch keys args st r st', good_store st -> NoDup args ->
      detect_step g nested batch keys args st = (r, st') -> grown st st' /\ (r = None -> st' = st).
    Proof.
      intros batch keys args st r st' G Nd E. unfold detect_step in E.
      destruct (all_candidates g nested batch keys args st) as [cs st1] eqn:C.
      assert (X : grown st st1 /\ (cs = [] -> st1 = st)).
      { unfold all_candidates in C.
        destruct (if Nat.eqb (List.length keys) 1 || negb batch then
                    match map_arguments g nested batch keys args st with
                    | (Some r, st') => ([r], st') | (None, st') => ([], reset st st') end else ([], st)) as [c1 st2] eqn:C1.
        assert (H1 : grown st st2 /\ (c1 = [] -> st2 = st)).
        { destruct (Nat.eqb (List.length keys) 1 || negb batch).
          - destruct (map_arguments g nested batch keys args st) as [[x|] st3] eqn:M; injection C1 as <- <-;
              destruct (map_arguments_ok _ _ _ _ _ _ Nd G M) as (G1 & _).
            + split; [exact G1|discriminate].
            + rewrite (reset_grown _ _ G1). split; [apply grown_refl|reflexivity].
          - injection C1 as <- <-. split; [apply grown_refl|reflexivity]. }
        destruct H1 as (G1 & N1). cbn zeta in C. destruct (Nat.ltb 1 _); [injection C as <- <-; auto|].
        destruct (nested_candidates g nested batch keys _ args st2) as [c2 st3] eqn:C2. injection C as <- <-.
        destruct (nested_candidates_grown _ _ _ _ _ _ _ (good_grown _ _ G G1) C2) as (G2 & N2).
        split; [exact (grown_trans _ _ _ G1 G2)|]. intros X. apply app_eq_nil in X. destruct X as [-> ->]. rewrite N2, N1; reflexivity. }
      destruct X as (G1 & N1). destruct cs as [|c [|c2 cs]]; injection E as <- <-.
      - auto.
      - split; [exact G1|discriminate].
      - rewrite (reset_grown _ _ G1). split; [apply grown_refl|reflexivity].
    Qed.

    Lemma oneof_fields_none : forall batch keys arg state l st,
      (forall id o, In id l -> t_def (i_ty (g_input g id)) = DInput o -> ~ depth_for batch (i_ty (g_input g id))) ->
      oneof_fields g nested batch keys arg state l st = ([], st).
    Proof.
      intros batch keys arg state l. induction l as [|id l IH]; intros st H; [reflexivity|]. cbn.
      assert (H' : forall id o, In id l -> t_def (i_ty (g_input g id)) = DInput o -> ~ depth_for batch (i_ty (g_input g id))).
      { intros x o J. apply H. right. exact J. }
      destruct (t_def (i_ty (g_input g id))) eqn:D; try (apply IH; exact H').
      destruct (single_depth batch (t_wrap (i_ty (g_input g id)))) eqn:Sd; [|apply IH; exact H'].
      apply single_depth_spec in Sd. exfalso. exact (H _ _ (or_introl eq_refl) D Sd).
    Qed.

    (** With at most one field to go to, nothing is lost. *)
    Lemma oneof_fields_ok : forall batch keys args id o l st cs st', good_store st -> NoDup l -> incl l (o_inputs (g_object g o)) ->
      alone g args id -> t_def (i_ty (g_input g id)) = DInput o -> w_lists (t_wrap (i_ty (g_input g id))) = [] ->
      o_oneof (g_object g o) = true ->
      (forall a b oa ob, In a l -> In b l -> t_def (i_ty (g_input g a)) = DInput oa -> t_def (i_ty (g_input g b)) = DInput ob ->
        depth_for batch (i_ty (g_input g a)) -> depth_for batch (i_ty (g_input g b)) -> a = b) ->
      oneof_fields g nested batch keys id st l st = (cs, st') ->
      grown st st' /\ all_ok batch keys args cs st' /\ (cs = [] -> st' = st).
    Proof.
      intros batch keys args id o l. induction l as [|f l IH]; intros st cs st' G Nd In_ Al D W Oo One E.
      - cbn in E. injection E as <- <-. split; [apply grown_refl|]. split; [intros c []|reflexivity].
      - cbn [oneof_fields] in E. inversion Nd; subst.
        assert (In' : incl l (o_inputs (g_object g o))) by (intros x J; apply In_; right; exact J).
        assert (One' : forall a b oa ob, In a l -> In b l -> t_def (i_ty (g_input g a)) = DInput oa -> t_def (i_ty (g_input g b)) = DInput ob ->
          depth_for batch (i_ty (g_input g a)) -> depth_for batch (i_ty (g_input g b)) -> a = b).
        { intros a b oa ob Ja Jb. apply One; right; assumption. }
        destruct (t_def (i_ty (g_input g f))) as [| |of_|] eqn:Df; try (exact (IH _ _ _ G H2 In' Al D W Oo One' E)).
        destruct (single_depth batch (t_wrap (i_ty (g_input g f)))) eqn:Sd; [|exact (IH _ _ _ G H2 In' Al D W Oo One' E)].
        apply single_depth_spec in Sd.
        destruct (map_object g nested false keys (o_inputs (g_object g of_)) st) as [[v|] st1] eqn:M;
          destruct (map_object_ok _ _ _ _ _ (distinct_inputs of_) G M) as (G1 & Ok1).
        + destruct (push_nested id f v st1) as [c st2] eqn:P. destruct (Ok1 _ eq_refl) as (lv & Mv & Gv).
          destruct (push_nested_means g _ _ _ _ _ _ _ P Mv) as (G2 & Mc).
          rewrite (oneof_fields_none batch keys id st l st2) in E.
          * injection E as <- <-. split; [exact (grown_trans _ _ _ G1 G2)|]. split; [|discriminate].
            intros c' [<-|[]]. eexists. split; [exact Mc|]. apply GaOneOf with o of_; try assumption. apply In_. left. reflexivity.
          * intros x ox J Dx Sx. rewrite (One f x of_ ox (or_introl eq_refl) (or_intror J) Df Dx Sd Sx) in H1. exact (H1 J).
        + rewrite (reset_grown _ _ G1) in E. exact (IH _ _ _ G H2 In' Al D W Oo One' E).
    Qed.

    Lemma candidates_of_ok : forall batch keys args id st cs st', good_store st -> one_choice g batch keys args -> alone g args id ->
      candidates_of g nested batch keys id st = (cs, st') ->
      grown st st' /\ all_ok batch keys args cs st' /\ (cs = [] -> st' = st).
    Proof.
      intros batch keys args id st cs st' G One Al E. unfold candidates_of in E.
      assert (No : ([], st) = (cs, st') -> grown st st' /\ all_ok batch keys args cs st' /\ (cs = [] -> st' = st)).
      { intros X. injection X as <- <-. split; [apply grown_refl|]. split; [intros c []|reflexivity]. }
      destruct (t_def (i_ty (g_input g id))) as [| |o|] eqn:D; try (exact (No E)).
      destruct (o_oneof (g_object g o)) eqn:Oo.
      - destruct (w_lists (t_wrap (i_ty (g_input g id)))) as [|b l] eqn:W; [|exact (No E)].
        assert (Many : List.length keys <> 1 -> oneof_fields g nested batch keys id st (o_inputs (g_object g o)) st = (cs, st') ->
          grown st st' /\ all_ok batch keys args cs st' /\ (cs = [] -> st' = st)).
        { intros L F. eapply oneof_fields_ok; try eassumption; [apply distinct_inputs|apply incl_refl|].
          intros a b oa ob Ja Jb Da Db Sa Sb. exact (One id o a b oa ob L (proj1 Al) D Oo Ja Jb Da Db Sa Sb). }
        destruct keys as [|key [|k2 ks]]; [apply Many; [discriminate|exact E]| |apply Many; [discriminate|exact E]].
        destruct (oneof_single g nested batch key (o_inputs (g_object g o)) st) as [[[f v]|] st1] eqn:S1;
          destruct (oneof_single_ok _ _ _ _ _ _ G S1) as (G1 & Ok1).
        + destruct (push_nested id f v st1) as [c st2] eqn:P. injection E as <- <-. destruct (Ok1 _ _ eq_refl) as (Jf & i & Mi & Gi).
          destruct (push_nested_means g _ _ _ _ _ _ _ P Mi) as (G2 & Mc).
          split; [exact (grown_trans _ _ _ G1 G2)|]. split; [|discriminate]. intros c' [<-|[]]. eexists. split; [exact Mc|].
          apply GaOneOfKey with o key; auto.
        + rewrite (reset_grown _ _ G1) in E. exact (No E).
      - destruct keys as [|k1 [|k2 ks]]; try (exact (No E)).
        destruct (single_depth batch (t_wrap (i_ty (g_input g id)))) eqn:Sd; [|exact (No E)]. apply single_depth_spec in Sd.
        destruct (map_object g nested false (k1 :: k2 :: ks) (o_inputs (g_object g o)) st) as [[v|] st1] eqn:M;
          destruct (map_object_ok _ _ _ _ _ (distinct_inputs o) G M) as (G1 & Ok1).
        + destruct (Ok1 _ eq_refl) as (lv & Mv & Gv).
          destruct (push_args [(id, ValueA v)] st1) as [c st2] eqn:P. injection E as <- <-.
          split; [exact (grown_trans _ _ _ G1 (push_args_grown _ _ _ _ P))|]. split; [|discriminate].
          intros c' [<-|[]]. exists [(id, ArgValue (IObject lv))]. split.
          * refine (push_args_means g [(id, v)] st1 c st2 [(id, IObject lv)] P _). constructor; [split; [reflexivity|exact Mv]|constructor].
          * apply GaObject with o; assumption.
        + rewrite (reset_grown _ _ G1) in E. exact (No E).
    Qed.

    Lemma nested_candidates_ok : forall batch keys args l st cs st', good_store st -> one_choice g batch keys args -> incl l args ->
      nested_candidates g nested batch keys (filter (fun id => is_non_null (t_wrap (i_ty (g_input g id)))) args) l st = (cs, st') ->
      grown st st' /\ all_ok batch keys args cs st' /\ (cs = [] -> st' = st).
    Proof.
      intros batch keys args l. induction l as [|id l IH]; intros st cs st' G One Il E.
      - cbn in E. injection E as <- <-. split; [apply grown_refl|]. split; [intros c []|reflexivity].
      - cbn [nested_candidates] in E. assert (Il' : incl l args) by (intros x J; apply Il; right; exact J).
        destruct (existsb _ _) eqn:Ex; [exact (IH _ _ _ G One Il' E)|].
        assert (Al : alone g args id).
        { split; [apply Il; left; reflexivity|]. intros j J Nn. destruct (Nat.eq_dec j id) as [|Ne]; [assumption|]. exfalso.
          rewrite <- not_true_iff_false in Ex. apply Ex. apply existsb_exists. exists j. split; [apply filter_In; auto|].
          apply negb_true_iff. apply Nat.eqb_neq. exact Ne. }
        destruct (candidates_of g nested batch keys id st) as [c1 st1] eqn:C1.
        destruct (candidates_of_ok _ _ _ _ _ _ _ G One Al C1) as (G1 & A1 & N1).
        destruct (nested_candidates g nested batch keys _ l st1) as [c2 st2] eqn:C2. injection E as <- <-.
        destruct (IH _ _ _ (good_grown _ _ G G1) One Il' C2) as (G2 & A2 & N2).
        split; [exact (grown_trans _ _ _ G1 G2)|]. split.
        + intros c J. apply in_app_or in J. destruct J as [J|J]; [exact (all_ok_grown _ _ _ _ _ _ G2 A1 c J)|exact (A2 c J)].
        + intros X. apply app_eq_nil in X. destruct X as [-> ->]. rewrite N2, N1; reflexivity.
    Qed.

    Lemma all_candidates_ok : forall batch keys args st cs st', good_store st -> NoDup args -> one_choice g batch keys args ->
      all_candidates g nested batch keys args st = (cs, st') ->
      grown st st' /\ all_ok batch keys args cs st' /\ (cs = [] -> st' = st).
    Proof.
      intros batch keys args st cs st' G Nd One E. unfold all_candidates in E.
      destruct (if Nat.eqb (List.length keys) 1 || negb batch then
                  match map_arguments g nested batch keys args st with
                  | (Some r, st') => ([r], st') | (None, st') => ([], reset st st') end else ([], st)) as [c1 st1] eqn:C1.
      assert (H1 : grown st st1 /\ all_ok batch keys args c1 st1 /\ (c1 = [] -> st1 = st)).
      { destruct (Nat.eqb (List.length keys) 1 || negb batch).
        - destruct (map_arguments g nested batch keys args st) as [[r|] st2] eqn:M; injection C1 as <- <-;
            destruct (map_arguments_ok _ _ _ _ _ _ Nd G M) as (G1 & Ok1).
          + split; [exact G1|]. split; [|discriminate]. intros c [<-|[]]. exact (Ok1 _ eq_refl).
          + rewrite (reset_grown _ _ G1). split; [apply grown_refl|]. split; [intros c []|reflexivity].
        - injection C1 as <- <-. split; [apply grown_refl|]. split; [intros c []|reflexivity]. }
      destruct H1 as (G1 & A1 & N1). cbn zeta in E.
      destruct (Nat.ltb 1 _); [injection E as <- <-; auto|].
      destruct (nested_candidates g nested batch keys _ args st1) as [c2 st2] eqn:C2. injection E as <- <-.
      destruct (nested_candidates_ok _ _ _ _ _ _ _ (good_grown _ _ G G1) One (incl_refl _) C2) as (G2 & A2 & N2).
      split; [exact (grown_trans _ _ _ G1 G2)|]. split.
      - intros c J. apply in_app_or in J. destruct J as [J|J]; [exact (all_ok_grown _ _ _ _ _ _ G2 A1 c J)|exact (A2 c J)].
      - intros X. apply app_eq_nil in X. destruct X as [-> ->]. rewrite N2, N1; reflexivity.
    Qed.

    Lemma detect_step_ok : forall batch keys args st r st', good_store st -> NoDup args -> one_choice g batch keys args ->
      detect_step g nested batch keys args st = (r, st') ->
      grown st st' /\ (r = None -> st' = st) /\
      forall c, r = Some c -> exists l, means_args g st' (fst c) (snd c) l /\ given_args g batch keys args l.
    Proof.
      intros batch keys args st r st' G Nd One E. unfold detect_step in E.
      destruct (all_candidates g nested batch keys args st) as [cs st1] eqn:C.
      destruct (all_candidates_ok _ _ _ _ _ _ G Nd One C) as (G1 & A1 & N1).
      destruct cs as [|c [|c2 cs]].
      - injection E as <- <-. split; [exact G1|]. split; [intros _; apply N1; reflexivity|intros; discriminate].
      - injection E as <- <-. split; [exact G1|]. split; [discriminate|]. intros c' X. injection X as <-. apply A1. left. reflexivity.
      - rewrite (reset_grown _ _ G1) in E. injection E as <- <-. split; [apply grown_refl|]. split; [reflexivity|intros; discriminate].
    Qed.
  End Step.

  Lemma nested_object_ok : forall fuel, nested_ok (nested_object g fuel).
  Proof.
    induction fuel as [|n IH]; intros keys inputs st r st' Nd G E.
    - cbn in E. injection E as <- <-. split; [apply grown_refl|intros; discriminate].
    - exact (map_object_ok (nested_object g n) IH _ _ _ _ _ Nd G E).
  Qed.

  Theorem detect_ok : forall fuel batch keys args st r st', good_store st -> NoDup args -> one_choice g batch keys args ->
    detect g fuel batch keys args st = (r, st') ->
    grown st st' /\ (r = None -> st' = st) /\
    forall c, r = Some c -> exists l, means_args g st' (fst c) (snd c) l /\ given_args g batch keys args l.
  Proof. intros fuel. exact (detect_step_ok _ (nested_object_ok fuel)). Qed.

  Theorem detect_grown : forall fuel batch keys args st r st', good_store st -> NoDup args ->
    detect g fuel batch keys args st = (r, st') -> grown st st' /\ (r = None -> st' = st).
  Proof. intros fuel. exact (detect_step_grown _ (nested_object_ok fuel)). Qed.
End Sound.
