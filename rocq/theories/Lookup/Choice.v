(** Which input takes which field of the key. *)

From Coq Require Import List Arith Lia ZArith String Bool Permutation.
From Verif Require Import Response.Model Response.Spec Views.Model Views.Spec Lookup.Model Lookup.Spec Lookup.Store Lookup.Detect.
Import ListNotations.
Local Open Scope nat_scope.

Definition is_leaf_ty (t : ty) : Prop := exists n, t_def t = DScalar n \/ t_def t = DEnum n.

Lemma takes_wrap_non_null : forall w f, takes_wrap w f -> non_null w = non_null f.
Proof. intros w [[|b l] i] [->|[N ->]]; reflexivity. Qed.

(** Inputs that can take the same leaf have the same type, nullable or not. *)
Lemma leaf_same : forall i j f, is_leaf_ty f -> takes false i f -> takes false j f -> ty_non_null i = ty_non_null j.
Proof.
  intros i j f (n & L) [Di Wi] [Dj Wj]. unfold ty_non_null. unfold takes_def in Di, Dj.
  rewrite (takes_wrap_non_null _ _ Wi), (takes_wrap_non_null _ _ Wj).
  destruct L as [L|L]; rewrite L in Di, Dj; congruence.
Qed.

Section Choice.
  Variable g : graph.

  Lemma each_in : forall b inputs keys ids, given_each g b inputs keys ids -> forall id i, In (id, i) ids -> given g b inputs keys id i.
  Proof. intros b inputs keys ids H. induction H; intros id' i' []; [injection H1 as <- <-; assumption|auto]. Qed.

  Lemma given_select : forall b inputs keys id f next, given g b inputs keys id (ISelect f next) ->
    exists k, In k keys /\ i_field k = f /\ takes b (i_ty (g_input g id)) (f_ty (g_field g f)) /\ entitled g inputs keys id k.
  Proof. intros b inputs keys id f next H. inversion H; subst; eauto. Qed.

  Lemma nodup_value : forall (ids : list (nat * inj)) id i j, NoDup (map fst ids) -> In (id, i) ids -> In (id, j) ids -> i = j.
  Proof.
    induction ids as [|[x y] ids IH]; intros id i j Nd [] []; cbn in Nd; inversion Nd; subst.
    - congruence.
    - injection H as -> ->. exfalso. apply H3. exact (in_map fst _ _ H0).
    - injection H0 as -> ->. exfalso. apply H3. exact (in_map fst _ _ H).
    - eauto.
  Qed.

  Lemma nodup_name : forall A (f : A -> nat) (l : list A) a b, NoDup (map f l) -> In a l -> In b l -> f a = f b -> a = b.
  Proof.
    intros A f. induction l as [|x l IH]; intros a b Nd [] [] E; cbn in Nd; inversion Nd; subst; try reflexivity; auto;
      exfalso; apply H3; rewrite ?E; [apply in_map; assumption|rewrite <- E; apply in_map; assumption].
  Qed.

  Lemma direct_ids : forall batch keys args l, given_args g batch keys args l ->
    forall id f next, In (id, ArgValue (ISelect f next)) l ->
    exists ids, l = map (fun p => (fst p, ArgValue (snd p))) ids /\ incl (map fst ids) args /\ NoDup (map fst ids) /\
      given_each g batch args keys ids /\ (forall k, In k keys -> exists id next, In (id, ISelect (i_field k) next) ids) /\
      In (id, ISelect f next) ids.
  Proof.
    intros batch keys args l G id f next J. destruct G as [ids Inc Nd Ge Req Use| | |]; try (destruct J as [J|[]]; discriminate J).
    exists ids. repeat (split; [first [reflexivity|assumption]|]). apply in_map_iff in J. destruct J as ([x y] & E & J). cbn in E.
    injection E as -> ->. exact J.
  Qed.

  Lemma one_input : forall keys args l a b f n1 n2, given_args g false keys args l ->
    NoDup (map (fun id => i_name (g_input g id)) args) -> is_leaf_ty (f_ty (g_field g f)) ->
    In (a, ArgValue (ISelect f n1)) l -> In (b, ArgValue (ISelect f n2)) l -> a = b.
  Proof.
    intros keys args l a b f n1 n2 G Nn L Ja Jb. destruct (direct_ids _ _ _ _ G _ _ _ Ja) as (ids & -> & Inc & Nd & Ge & Use & Ka).
    apply in_map_iff in Jb. destruct Jb as ([x y] & E & Kb). cbn in E. injection E as -> ->.
    destruct (given_select _ _ _ _ _ _ (each_in _ _ _ _ Ge _ _ Ka)) as (k1 & I1 & F1 & T1 & E1).
    destruct (given_select _ _ _ _ _ _ (each_in _ _ _ _ Ge _ _ Kb)) as (k2 & I2 & F2 & T2 & E2).
    assert (Ty := leaf_same _ _ _ L T1 T2).
    assert (Ia : In a args) by exact (Inc _ (in_map fst _ _ Ka)). assert (Ib : In b args) by exact (Inc _ (in_map fst _ _ Kb)).
    destruct (Nat.eq_dec a b) as [|N]; [assumption|]. exfalso.
    destruct E1 as [E1|[E1 _]]; [|exact (E1 b Ib (fun X => N (eq_sym X)) (eq_sym Ty))].
    destruct E2 as [E2|[E2 _]]; [|exact (E2 a Ia N Ty)].
    apply N. apply (nodup_name _ (fun id => i_name (g_input g id)) args); try assumption. rewrite F1 in E1. rewrite F2 in E2. congruence.
  Qed.

  Lemma by_its_name : forall keys args l a f next k, given_args g false keys args l ->
    NoDup (map (fun k => f_name (g_field g (i_field k))) keys) ->
    In (a, ArgValue (ISelect f next)) l -> In k keys -> is_leaf_ty (f_ty (g_field g (i_field k))) ->
    f_name (g_field g (i_field k)) = i_name (g_input g a) ->
    takes false (i_ty (g_input g a)) (f_ty (g_field g (i_field k))) -> f = i_field k.
  Proof.
    intros keys args l a f next k G Nn Ja Ik L Nm T. destruct (direct_ids _ _ _ _ G _ _ _ Ja) as (ids & -> & Inc & Nd & Ge & Use & Ka).
    destruct (given_select _ _ _ _ _ _ (each_in _ _ _ _ Ge _ _ Ka)) as (k1 & I1 & F1 & T1 & E1).
    destruct E1 as [E1|[E1 _]].
    - rewrite <- F1. f_equal. apply (nodup_name _ (fun k => f_name (g_field g (i_field k))) keys); try assumption. congruence.
    - destruct (Use k Ik) as (j & n' & J). destruct (given_select _ _ _ _ _ _ (each_in _ _ _ _ Ge _ _ J)) as (k2 & I2 & F2 & T2 & _).
      destruct (Nat.eq_dec j a) as [->|N].
      + assert (X := nodup_value _ _ _ _ Nd Ka J). congruence.
      + exfalso. apply (E1 j (Inc _ (in_map fst _ _ J)) N). exact (leaf_same _ _ _ L T2 T).
  Qed.

  (** ** Flat keys *)

  Section Flat.
    Variable nested : list item -> list nat -> store -> option vinj * store.
    Variables (args : list nat) (keys : list item) (batch : bool).
    Hypothesis flat : forall k, In k keys -> i_sub k = [].
    Notation at_ id := (position (suits g args keys batch id) keys 0).
    Hypothesis optional : forall id, In id args -> at_ id = None ->
      is_non_null (t_wrap (i_ty (g_input g id))) = true -> i_default (g_input g id) <> None.

    Definition flat_value (id : nat) : list (nat * inj) :=
      match at_ id with
      | Some (_, k) => [(id, ISelect (i_field k) IIdentity)]
      | None => match i_default (g_input g id) with Some x => [(id, IDefault x)] | None => [] end
      end.

    Lemma flat_inputs : forall l st, good_store st -> incl l args ->
      exists ps vs, map_inputs g nested args keys batch l st = (Some (ps, vs), st) /\
        (forall id p k, In id l -> at_ id = Some (p, k) -> In p ps) /\ each_means st vs (flat_map flat_value l).
    Proof.
      induction l as [|id l IH]; intros st G Inc.
      - exists [], []. split; [reflexivity|]. split; [intros id p k []|constructor].
      - destruct (IH st G) as (ps & vs & E & P & V); [intros x J; apply Inc; right; exact J|].
        cbn [map_inputs flat_map]. unfold map_input, flat_value at 1.
        destruct (position (suits g args keys batch id) keys 0) as [[p k]|] eqn:Po.
        + destruct (position_in _ _ _ _ _ Po) as (_ & Nk & _). rewrite (flat k (nth_error_In _ _ Nk)). cbn [push_inj]. rewrite E.
          eexists. eexists. split; [reflexivity|]. split.
          * intros id' p' k' [<-|J] Q; [rewrite Po in Q; injection Q as <- <-; left; reflexivity|]. apply in_or_app. right. exact (P _ _ _ J Q).
          * apply Forall2_app; [|exact V]. constructor; [|constructor]. split; [reflexivity|]. apply MeSelect with IdentityV; [exact G|constructor].
        + destruct (i_default (g_input g id)) as [x|] eqn:Df.
          * rewrite E. eexists. eexists. split; [reflexivity|]. split.
            -- intros id' p' k' [<-|J] Q; [congruence|exact (P _ _ _ J Q)].
            -- apply Forall2_app; [|exact V]. constructor; [split; [reflexivity|constructor]|constructor].
          * destruct (is_non_null (t_wrap (i_ty (g_input g id)))) eqn:Nn.
            -- exfalso. exact (optional id (Inc id (or_introl eq_refl)) Po Nn Df).
            -- rewrite E. eexists. eexists. split; [reflexivity|]. split; [|exact V].
               intros id' p' k' [<-|J] Q; [congruence|exact (P _ _ _ J Q)].
    Qed.

    Hypothesis no_objects : forall id o, In id args -> t_def (i_ty (g_input g id)) <> DInput o.
    Hypothesis kind : List.length keys = 1 \/ batch = false.
    Hypothesis used : forall k p, nth_error keys p = Some k -> exists id, In id args /\ at_ id = Some (p, k).

    Lemma no_candidates : forall required l st, incl l args -> nested_candidates g nested batch keys required l st = ([], st).
    Proof.
      intros required l. induction l as [|id l IH]; intros st Inc; [reflexivity|]. cbn [nested_candidates].
      assert (C : candidates_of g nested batch keys id st = ([], st)).
      { unfold candidates_of. destruct (t_def (i_ty (g_input g id))) eqn:D; try reflexivity.
        exfalso. exact (no_objects id n (Inc id (or_introl eq_refl)) D). }
      rewrite C. rewrite !IH by (intros x J; apply Inc; right; exact J). destruct (existsb _ _); reflexivity.
    Qed.

    Lemma flat_detected : forall st, good_store st ->
      exists c st', detect_step g nested batch keys args st = (Some c, st') /\
        means_args g st' (fst c) (snd c) (map (fun p => (fst p, ArgValue (snd p))) (flat_map flat_value args)).
    Proof.
      intros st G. destruct (flat_inputs args st G (incl_refl _)) as (ps & vs & E & P & V).
      assert (T : all_taken keys ps = true).
      { unfold all_taken. apply forallb_forall. intros p J. apply in_seq in J. destruct (nth_error keys p) as [k|] eqn:Nk.
        - destruct (used k p Nk) as (id & Ji & Q). apply existsb_exists. exists p. split; [exact (P _ _ _ Ji Q)|apply Nat.eqb_refl].
        - apply nth_error_None in Nk. lia. }
      destruct (push_args (map (fun p => (fst p, ValueA (snd p))) vs) st) as [c st'] eqn:Pu.
      exists c, st'. split; [|exact (push_args_means g _ _ _ _ _ Pu V)].
      unfold detect_step, all_candidates, map_arguments. rewrite E, T, Pu.
      assert (K : Nat.eqb (List.length keys) 1 || negb batch = true) by (destruct kind as [-> | ->]; [reflexivity|apply orb_true_r]).
      rewrite K. cbn [map fst snd]. destruct (Nat.ltb 1 _); [reflexivity|]. rewrite no_candidates by apply incl_refl. reflexivity.
    Qed.
  End Flat.
End Choice.
