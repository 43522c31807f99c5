(** The arguments written for the objects looked up. *)

From Coq Require Import List Arith Lia ZArith String Bool Permutation.
From Verif Require Import Response.Model Response.Spec Views.Model Views.Spec Views.Trees Views.Properties
  Lookup.Model Lookup.Spec Lookup.Store Lookup.Detect Lookup.Values.
Import ListNotations.
Local Open Scope nat_scope.

(** What is stored has one meaning. *)
Lemma means_same_both : forall st,
  (forall v i, means st v i -> forall j, means st v j -> i = j) /\
  (forall a n l, means_range st a n l -> forall m, means_range st a n m -> l = m).
Proof.
  intros st. apply means_both; intros.
  - inversion H; reflexivity.
  - inversion H; reflexivity.
  - inversion H0; subst. f_equal. apply H. congruence.
  - inversion H0; subst. f_equal. apply H. assumption.
  - inversion H; reflexivity.
  - inversion H1; subst. assert (X : (k, v) = (k0, v0)) by congruence. injection X as <- <-. f_equal; [f_equal; apply H; assumption|].
    apply H0. assumption.
Qed.

Lemma fields_same : forall g st a n l, means_fields g st a n l -> forall m, means_fields g st a n m -> l = m.
Proof.
  intros g st a n l M. induction M; intros m M'; inversion M'; subst; [reflexivity|].
  assert (X : (id, ValueA v) = (id0, ValueA v0)) by congruence. injection X as <- <-.
  f_equal; [f_equal; exact (proj1 (means_same_both st) _ _ H0 _ H3)|]. apply IHM. assumption.
Qed.

Lemma args_same : forall g st a n l, means_args g st a n l -> forall m, means_args g st a n m -> l = m.
Proof.
  intros g st a n l M. induction M; intros m' M'; inversion M'; subst; try reflexivity; try congruence.
  - assert (X : (id, ValueA v) = (id0, ValueA v0)) by congruence. injection X as <- <-.
    f_equal; [f_equal; f_equal; exact (proj1 (means_same_both st) _ _ H0 _ H3)|]. apply IHM. assumption.
  - assert (X : (id, InputA b m) = (id0, InputA b0 m0)) by congruence. injection X as <- <- <-.
    f_equal; [f_equal; f_equal; exact (fields_same _ _ _ _ _ H0 _ H3)|]. apply IHM. assumption.
Qed.

Section Render.
  Variable g : graph.
  Variable leaf : def -> out -> Prop.
  Hypothesis Sound : sound_schema g leaf.
  Variable ps : list part.
  Variable fuel : nat.
  Variable r : list req.
  Variable keys : list item.
  Variable batch : bool.
  Variable who : parents.
  Variable args : list nat.
  Hypothesis Sr : sorted_reqs r.
  Hypothesis Hs : has_set r keys.
  Hypothesis Who : looked_up g leaf ps fuel r keys batch who.
  Hypothesis Tops : oneof_on_top g keys args.

  Lemma each_parent : forall i (Q : out -> Prop), within r i ->
    (forall d fs, holds g leaf r keys fs -> exists x, fills_object r i d fs x /\ Q x) ->
    exists x, injected ps fuel r who i = VOk x /\ if batch then exists xs, x = OList xs /\ Forall Q xs else Q x.
  Proof.
    intros i Q W H. assert (One : forall v, entity_at g leaf ps fuel r keys v -> exists x, view_injection ps fuel (r, i) v = VOk x /\ Q x).
    { intros v (t & R & Ds & D & m & d & fs & -> & C). destruct (H d fs C) as (x & F & Qx). exists x. split; [|exact Qx].
      apply (proj1 (C93_injected ps fuel r i v _ R Ds D Sr W)). constructor. exact F. }
    destruct who as [v|l]; cbn in Who; destruct Who as [-> E].
    - exact (One v E).
    - assert (X : exists xs, vall (map (view_injection ps fuel (r, i)) l) = VOk xs /\ Forall Q xs).
      { clear - E One. induction E as [|v l Ev E IH]; [exists []; split; [reflexivity|constructor]|].
        destruct IH as (xs & A & B). destruct (One v Ev) as (x & C & D). exists (x :: xs). cbn. rewrite C. cbn. rewrite A. cbn.
        split; [reflexivity|constructor; assumption]. }
      destruct X as (xs & A & B). exists (OList xs). cbn. rewrite A. cbn. split; [reflexivity|]. exists xs. auto.
  Qed.

  Lemma value_ok : forall inputs id i, given g batch inputs keys id i -> (forall x, i <> IDefault x) -> safe_for g keys id ->
    exists x, injected ps fuel r who i = VOk x /\ valid_for g leaf (i_ty (g_input g id)) x /\
      (forall f next, i = ISelect f next -> is_non_null (t_wrap (f_ty (g_field g f))) = true -> x <> ONull).
  Proof.
    intros inputs id i G Nd Sf.
    destruct (each_parent i (fun x => wrapped (valid g leaf (t_def (i_ty (g_input g id)))) (elem batch (t_wrap (i_ty (g_input g id))))
      (w_inner (t_wrap (i_ty (g_input g id)))) x /\ (forall f next, i = ISelect f next -> is_non_null (t_wrap (f_ty (g_field g f))) = true -> x <> ONull)))
      as (x & E & H).
    - exact (proj1 (given_within g) _ _ _ _ _ G r Hs).
    - intros d fs Hh. exact (proj1 (given_fill g leaf Sound (proj1 Tops)) _ _ _ _ _ G (fun _ => Nd) Sf r d fs Hh).
    - exists x. split; [exact E|]. destruct batch eqn:B.
      + destruct H as (xs & -> & F). split; [|discriminate]. unfold valid_for.
        assert (T : exists b w, w_lists (t_wrap (i_ty (g_input g id))) = b :: w).
        { inversion G; subst; [exfalso; eapply Nd; reflexivity| |];
            match goal with T : takes true _ _ |- _ => destruct T as [_ (b & w & T & _)] end; eauto. }
        destruct T as (b & w & T). rewrite T. constructor. rewrite Forall_forall in *. intros y J.
        specialize (F y J). destruct F as [F _]. unfold elem in F. rewrite T in F. exact F.
      + exact H.
  Qed.

  Lemma object_ok : forall t o l, given_all g false keys (o_inputs (g_object g o)) l -> o_oneof (g_object g o) = false ->
    t_def t = DInput o -> depth_for batch t ->
    exists x, injected ps fuel r who (IObject l) = VOk x /\ valid_for g leaf t x /\ x <> ONull.
  Proof.
    intros t o l G Oo D Dp.
    destruct (each_parent (IObject l) (fun x => valid g leaf (DInput o) x /\ x <> ONull)) as (x & E & H).
    - exact (proj1 (proj2 (given_within g)) _ _ _ _ G r Hs).
    - intros d fs Hh. destruct (proj1 (proj2 (given_fill g leaf Sound (proj1 Tops))) _ _ _ _ G eq_refl (names _ _ Sound o) (proj1 Tops o) r d fs Hh)
        as (es & A & B & C & E).
      exists (OObj es). split; [constructor; exact A|]. split; [|discriminate].
      apply VaObject; [exact B|exact C|intros z Iz Nz _; exact (E z Iz Nz)|congruence].
    - exists x. split; [exact E|]. unfold valid_for. rewrite D. unfold depth_for in Dp. destruct batch.
      + destruct H as (xs & -> & F). destruct Dp as (b & ->). split; [|discriminate]. constructor.
        rewrite Forall_forall in *. intros y J. destruct (F y J). constructor; assumption.
      + rewrite Dp. destruct H as [V N]. split; [constructor; assumption|exact N].
  Qed.

  Lemma oneof_ok : forall id o field x, t_def (i_ty (g_input g id)) = DInput o -> w_lists (t_wrap (i_ty (g_input g id))) = [] ->
    o_oneof (g_object g o) = true -> In field (o_inputs (g_object g o)) -> valid_for g leaf (i_ty (g_input g field)) x -> x <> ONull ->
    valid_for g leaf (i_ty (g_input g id)) (OObj [(i_name (g_input g field), x)]).
  Proof.
    intros id o field x D W Oo J V N. unfold valid_for. rewrite D, W. constructor; [discriminate|]. apply VaObject.
    - repeat constructor. intros [].
    - intros n y [E|[]]. injection E as <- <-. exists field. auto.
    - intros z Jz Nz _. destruct (oneofs _ _ Sound _ _ Oo Jz) as [X _]. congruence.
    - intros _. eauto.
  Qed.

  Lemma given_args_ok : forall l, given_args g batch keys args l ->
    exists es, arguments ps fuel r who l = VOk es /\ valid_arguments g leaf args es.
  Proof.
    intros l G. destruct G as [ids Inc Nd Ge Req Use|id o key field i Ek Al D W Oo J G|id o field o' l Al D W Oo J D' Dp G|id o l Al D Oo Dp G].
    - (* direct *)
      assert (X : forall ids, given_each g batch args keys ids -> incl (map fst ids) args ->
        exists es, arguments ps fuel r who (map (fun p => (fst p, ArgValue (snd p))) ids) = VOk es /\ map fst es = map fst ids /\
          forall id x, In (id, x) es -> valid_for g leaf (i_ty (g_input g id)) x).
      { clear ids Inc Nd Ge Req Use. intros ids. induction ids as [|[id i] ids IH]; intros Ge Inc.
        - exists []. split; [reflexivity|]. split; [reflexivity|intros id x []].
        - inversion Ge; subst. destruct (IH H6) as (es & A & B & C); [intros y J; apply Inc; right; exact J|].
          assert (Y : exists x, argument ps fuel r who (ArgValue i) = VOk x /\ valid_for g leaf (i_ty (g_input g id)) x).
          { assert (Z : (forall x, i <> IDefault x) -> exists x, argument ps fuel r who (ArgValue i) = VOk x /\ valid_for g leaf (i_ty (g_input g id)) x).
            { intros N. destruct (value_ok args id i H4 N) as (x & E & V & _).
              - intros k o Ik Sk D. destruct (o_oneof (g_object g o)) eqn:Oo; [|reflexivity]. exfalso.
                apply Sk. exact (proj1 (proj2 Tops id o k (Inc id (or_introl eq_refl)) D Oo Ik)).
              - exists x. split; [|exact V]. destruct i; try exact E. exfalso. exact (N x0 eq_refl). }
            destruct i as [f next|l|x|]; try (apply Z; intros x X; discriminate X).
            exists x. split; [reflexivity|]. inversion H4; subst. exact (defaults _ _ Sound _ _ H5). }
          destruct Y as (x & E & V). exists ((id, x) :: es). cbn [map arguments fst snd]. rewrite E. cbn [vbind]. rewrite A. cbn [vbind].
          split; [reflexivity|]. split; [cbn; rewrite B; reflexivity|]. intros id' x' [Z|Z]; [injection Z as <- <-; exact V|exact (C _ _ Z)]. }
      destruct (X ids Ge Inc) as (es & A & B & C). exists es. split; [exact A|]. unfold valid_arguments. rewrite B.
      split; [exact Nd|]. split; [|intros id J N _; exact (Req id J N)].
      intros id x J. split; [apply Inc; rewrite <- B; exact (in_map fst _ _ J)|exact (C _ _ J)].
    - (* oneof, single key *)
      assert (N : forall x, i <> IDefault x).
      { intros x E. rewrite E in G. destruct (oneofs _ _ Sound _ _ Oo J) as [_ X].
        inversion G as [b0 is ks id0 x0 Df| |]. congruence. }
      destruct (proj2 Tops id o key (proj1 Al) D Oo) as [Sk Nk]; [rewrite Ek; left; reflexivity|].
      destruct (value_ok (o_inputs (g_object g o)) field i) as (x & E & V & Nn); [exact G|exact N| |].
      { intros k o1 Ik Sk'. rewrite Ek in Ik. destruct Ik as [<-|[]]. contradiction. }
      assert (Nx : x <> ONull).
      { inversion G as [b0 is ks id0 x0 Df E1 E2 E3 E5 E4|b0 is ks id0 k Ik Sb T En E1 E2 E3 E5 E4|b0 is ks id0 k o0 l Ik Sb T En Do Ga E1 E2 E3 E5 E4];
          [exfalso; exact (N _ (eq_sym E4))| |]; rewrite Ek in Ik; destruct Ik as [<-|[]]; exact (Nn _ _ (eq_sym E4) Nk). }
      eexists. split; [cbn; rewrite E; cbn; reflexivity|]. split; [repeat constructor; intros []|]. split.
      + intros id' x' [Z|[]]. injection Z as <- <-. split; [exact (proj1 Al)|]. eapply oneof_ok; eassumption.
      + intros id' J' N' _. left. symmetry. exact (proj2 Al id' J' N').
    - (* oneof, the key's input object *)
      destruct (object_ok _ o' l G (proj1 Tops o field o' J D') D' Dp) as (x & E & V & Nx).
      eexists. split; [cbn; rewrite E; cbn; reflexivity|]. split; [repeat constructor; intros []|]. split.
      + intros id' x' [Z|[]]. injection Z as <- <-. split; [exact (proj1 Al)|]. eapply oneof_ok; eassumption.
      + intros id' J' N' _. left. symmetry. exact (proj2 Al id' J' N').
    - (* the key's input object *)
      destruct (object_ok _ o l G Oo D Dp) as (x & E & V & _).
      eexists. split; [cbn; rewrite E; cbn; reflexivity|]. split; [repeat constructor; intros []|]. split.
      + intros id' x' [Z|[]]. injection Z as <- <-. split; [exact (proj1 Al)|exact V].
      + intros id' J' N' _. left. symmetry. exact (proj2 Al id' J' N').
  Qed.
End Render.
