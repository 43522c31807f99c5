(** What is injected has the type asked for. *)

From Coq Require Import List Arith Lia ZArith String Bool Permutation.
From Verif Require Import Response.Model Response.Spec Views.Model Views.Spec Views.Trees Lookup.Model Lookup.Spec Lookup.Detect.
Import ListNotations.
Local Open Scope nat_scope.

(** ** Wrapped values *)

Fixpoint wrapped_mono (P Q : out -> Prop) (H : forall x, P x -> Q x) l i x (W : wrapped P l i x) {struct W} : wrapped Q l i x.
Proof.
  destruct W as [|l i|b x N Px|b l i xs F]; [constructor|constructor|constructor; auto|].
  constructor. induction F as [|y ys Wy F IH]; constructor; [exact (wrapped_mono P Q H l i y Wy)|exact IH].
Defined.

Lemma wrapped_takes : forall P w f x, takes_wrap w f -> wrapped P (w_lists f) (w_inner f) x -> wrapped P (w_lists w) (w_inner w) x.
Proof.
  intros P w [l i] x [->|[N ->]] W; [exact W|]. cbn in *. destruct l as [|b l]; cbn in *.
  - inversion W; subst; constructor; assumption.
  - inversion W; subst; constructor; assumption.
Qed.

Lemma wrapped_not_null : forall P w x, is_non_null w = true -> wrapped P (w_lists w) (w_inner w) x -> x <> ONull.
Proof.
  intros P [l i] x N W. cbn in *. unfold is_non_null in N. cbn in N. inversion W; subst; try discriminate; assumption.
Qed.

Lemma depth_in : forall l t, In t l -> depth t <= fold_right (fun t n => Nat.max (depth t) n) 0 l.
Proof.
  induction l as [|x l IH]; intros t []; cbn [fold_right]; [subst; lia|]. specialize (IH _ H). lia.
Qed.

Section Values.
  Variable g : graph.
  Variable leaf : def -> out -> Prop.
  Hypothesis Sound : sound_schema g leaf.
  Hypothesis Tops : forall o id o', In id (o_inputs (g_object g o)) -> t_def (i_ty (g_input g id)) = DInput o' -> o_oneof (g_object g o') = false.

  Lemma conform_fill : forall n t r s d l i next (Q : out -> Prop), depth t < n -> conforms g leaf r s d l i t ->
    (forall x, leaf d x -> Q x) ->
    (forall k o fs, d = DOutput k -> s <> [] -> (forall k, In k s -> carried g leaf r fs k) ->
       exists x, fills_object r next o fs x /\ x <> ONull /\ Q x) ->
    exists x, fills r next t x /\ wrapped Q l i x.
  Proof.
    induction n as [|n IH]; intros t r s d l i next Q D C HL HO; [lia|].
    inversion C; subst.
    - exists x. split; [constructor; assumption|]. exact (wrapped_mono _ _ HL _ _ _ H0).
    - assert (X : exists xs, Forall2 (fills r next) ts xs /\ Forall (wrapped Q l0 i) xs).
      { cbn [depth] in D. assert (Dt : forall t, In t ts -> depth t < n) by (intros t J; assert (K := depth_in _ _ J); lia).
        clear D C. induction H as [|t ts Ct F IHF]; [exists []; split; constructor|].
        destruct IHF as (xs & A & B); [intros t' J; apply Dt; right; exact J|].
        destruct (IH t r s d l0 i next Q (Dt t (or_introl eq_refl)) Ct HL HO) as (x & Fx & Wx).
        exists (x :: xs). split; constructor; assumption. }
      destruct X as (xs & A & B). exists (OList xs). split; constructor; assumption.
    - cbn [depth] in D. destruct (IH t0 r s d l i next Q) as (x & A & B); try assumption; [lia|].
      exists x. split; [constructor; exact A|exact B].
    - destruct (HO n0 o fs eq_refl H H0) as (x & A & N & B). exists x. split; [constructor; exact A|constructor; assumption].
  Qed.

  Definition elem (b : bool) (w : wrap) : list bool := if b then tl (w_lists w) else w_lists w.

  Lemma takes_elem : forall P b i f x, takes b i f -> wrapped P (w_lists (t_wrap f)) (w_inner (t_wrap f)) x ->
    wrapped P (elem b (t_wrap i)) (w_inner (t_wrap i)) x.
  Proof.
    intros P b i f x [_ T] W. destruct b; cbn.
    - destruct T as (b & w & E & F & T). rewrite E, F. cbn. exact (wrapped_takes _ _ _ _ T W).
    - exact (wrapped_takes _ _ _ _ T W).
  Qed.

  Scheme given_ind2 := Induction for given Sort Prop
    with given_all_ind2 := Induction for given_all Sort Prop
    with given_each_ind2 := Induction for given_each Sort Prop.
  Combined Scheme given_both from given_ind2, given_all_ind2, given_each_ind2.

  Definition safe_for (keys : list item) (id : nat) : Prop :=
    forall k o, In k keys -> i_sub k <> [] -> t_def (i_ty (g_input g id)) = DInput o -> o_oneof (g_object g o) = false.
  Definition holds (r : list req) (keys : list item) (fs : list (rkey * tree)) : Prop :=
    forall k, In k keys -> carried g leaf r fs k.

  Definition P_given (b : bool) (keys : list item) (id : nat) (i : inj) : Prop :=
    (b = true -> forall x, i <> IDefault x) -> safe_for keys id ->
    forall r d fs, holds r keys fs -> exists x, fills_object r i d fs x /\
      wrapped (valid g leaf (t_def (i_ty (g_input g id)))) (elem b (t_wrap (i_ty (g_input g id)))) (w_inner (t_wrap (i_ty (g_input g id)))) x /\
      (forall f next, i = ISelect f next -> is_non_null (t_wrap (f_ty (g_field g f))) = true -> x <> ONull).
  Definition P_all (b : bool) (keys : list item) (inputs : list nat) (l : list (nat * inj)) : Prop :=
    b = false -> NoDup (map (fun id => i_name (g_input g id)) inputs) ->
    (forall id o', In id inputs -> t_def (i_ty (g_input g id)) = DInput o' -> o_oneof (g_object g o') = false) ->
    forall r d fs, holds r keys fs -> exists es, fills_entries r l d fs es /\ NoDup (map fst es) /\
      (forall n x, In (n, x) es -> exists id, In id inputs /\ i_name (g_input g id) = n /\ valid_for g leaf (i_ty (g_input g id)) x) /\
      (forall id, In id inputs -> is_non_null (t_wrap (i_ty (g_input g id))) = true -> In (i_name (g_input g id)) (map fst es)).
  Definition P_each (b : bool) (keys : list item) (ids : list (nat * inj)) : Prop :=
    b = false -> (forall id, In id (map fst ids) -> safe_for keys id) ->
    forall r d fs, holds r keys fs -> forall id i, In (id, i) ids ->
      exists x, fills_object r i d fs x /\ valid_for g leaf (i_ty (g_input g id)) x.

  Lemma entries_from : forall r d fs inputs l,
    (forall n i, In (n, i) l -> exists id x, In id inputs /\ i_name (g_input g id) = n /\
       fills_object r i d fs x /\ valid_for g leaf (i_ty (g_input g id)) x) ->
    exists es, fills_entries r l d fs es /\ map fst es = map fst l /\
      (forall n x, In (n, x) es -> exists id, In id inputs /\ i_name (g_input g id) = n /\ valid_for g leaf (i_ty (g_input g id)) x).
  Proof.
    intros r d fs inputs l. induction l as [|[n i] l IH]; intros H.
    - exists []. split; [constructor|]. split; [reflexivity|intros n x []].
    - destruct IH as (es & A & B & C); [intros m j J; apply H; right; exact J|].
      destruct (H n i (or_introl eq_refl)) as (id & x & Ji & Nm & Fx & Vx).
      exists ((n, x) :: es). split; [constructor; assumption|]. split; [cbn; rewrite B; reflexivity|].
      intros m y [E|J]; [injection E as <- <-; eauto|exact (C _ _ J)].
  Qed.

  Lemma given_fill :
    (forall b inputs keys id i, given g b inputs keys id i -> P_given b keys id i) /\
    (forall b keys inputs l, given_all g b keys inputs l -> P_all b keys inputs l) /\
    (forall b inputs keys ids, given_each g b inputs keys ids -> P_each b keys ids).
  Proof.
    apply given_both with (P := fun b inputs keys id i _ => P_given b keys id i) (P0 := fun b keys inputs l _ => P_all b keys inputs l)
      (P1 := fun b inputs keys ids _ => P_each b keys ids).
    - (* default *) intros b inputs keys id x Df Nd Sf r d fs Hh. destruct b; [exfalso; exact (Nd eq_refl x eq_refl)|].
      exists x. split; [constructor|]. split; [exact (defaults _ _ Sound _ _ Df)|intros f next X; discriminate X].
    - (* leaf *) intros b inputs keys id k Ik Sk T _ Nd Sf r d fs Hh. destruct (Hh k Ik) as [r fs k q t Iq Fq Cq Co].
      destruct (conform_fill (S (depth t)) t _ _ _ _ _ IIdentity (leaf (t_def (f_ty (g_field g (i_field k))))) (Nat.lt_succ_diag_r _) Co) as (x & Fx & Wx);
        [auto|intros n o fs' _ X; congruence|].
      exists x. split; [exact (FoSelect _ _ _ _ _ _ _ _ Iq Fq Cq Fx)|]. split.
      + apply takes_elem with (f := f_ty (g_field g (i_field k))); [exact T|].
        revert Wx. apply wrapped_mono. intros y Ly. apply VaLeaf. destruct T as [Td _]. unfold takes_def in Td.
        destruct (leaves _ _ Sound _ _ Ly) as (n & [E|E]); rewrite E in Td; rewrite Td, <- E; exact Ly.
      + intros f next X. injection X as <- _. intros N. exact (wrapped_not_null _ _ _ N Wx).
    - (* object *) intros b inputs keys id k o l Ik Sk T _ Do Ga IH Nd Sf r d fs Hh. destruct (Hh k Ik) as [r fs k q t Iq Fq Cq Co].
      destruct (conform_fill (S (depth t)) t _ _ _ _ _ (IObject l) (valid g leaf (DInput o)) (Nat.lt_succ_diag_r _) Co) as (x & Fx & Wx).
      + intros y Ly. exfalso. destruct (leaves _ _ Sound _ _ Ly) as (n & E). destruct T as [Td _]. unfold takes_def in Td.
        rewrite Do in Td. destruct E as [E|E]; rewrite E in Td; discriminate Td.
      + intros n o' fs' _ _ Hh'. destruct (IH eq_refl (names _ _ Sound o) (Tops o) (q_sub q) o' fs' Hh') as (es & A & B & C & D).
        exists (OObj es). split; [constructor; exact A|]. split; [discriminate|]. apply VaObject; [exact B|exact C|intros z Iz Nz _; exact (D z Iz Nz)|].
        rewrite (Sf k o Ik Sk Do). discriminate.
      + exists x. split; [exact (FoSelect _ _ _ _ _ _ _ _ Iq Fq Cq Fx)|]. split.
        * rewrite Do. exact (takes_elem _ _ _ _ _ T Wx).
        * intros f next X. injection X as <- _. intros N. exact (wrapped_not_null _ _ _ N Wx).
    - (* all *) intros b keys inputs ids l Inc Nd Ge IH Req Use Ord Pm Eb Nn Sf r d fs Hh.
      assert (Each := IH Eb (fun id J k o _ _ D => Sf id o (Inc id J) D) r d fs Hh).
      destruct (entries_from r d fs inputs l) as (es & A & B & C).
      { intros n i J. apply (Permutation_in _ Pm) in J. apply in_map_iff in J. destruct J as ([id j] & E & J). cbn in E. injection E as <- <-.
        destruct (Each _ _ J) as (x & Fx & Vx). exists id, x. split; [apply Inc, (in_map fst _ _ J)|]. auto. }
      assert (Pn : Permutation (map fst es) (map (fun id => i_name (g_input g id)) (map fst ids))).
      { rewrite B. rewrite (Permutation_map fst Pm). rewrite !map_map. cbn. reflexivity. }
      exists es. split; [exact A|]. split; [|split; [exact C|]].
      + apply (Permutation_NoDup (Permutation_sym Pn)). clear - Nd Inc Nn.
        induction (map fst ids) as [|x xs IHx]; cbn; [constructor|]. inversion Nd; subst. constructor.
        * intros J. apply in_map_iff in J. destruct J as (y & E & J).
          assert (Ix : In x inputs) by (apply Inc; left; reflexivity). assert (Iy : In y inputs) by (apply Inc; right; exact J).
          assert (x = y); [|congruence]. clear - Nn E Ix Iy. induction inputs as [|z zs IHz]; [destruct Ix|]. cbn in Nn. inversion Nn; subst.
          destruct Ix as [->|Ix], Iy as [->|Iy]; [reflexivity| | |apply IHz; assumption]; exfalso; apply H1; apply in_map_iff; eauto.
        * apply IHx; [intros y J; apply Inc; right; exact J|assumption].
      + intros id J N. apply (Permutation_in _ (Permutation_sym Pn)). apply (in_map (fun id => i_name (g_input g id))). exact (Req id J N).
    - intros b inputs keys Eb Sf r d fs Hh id i [].
    - intros b inputs keys id i l Gi IHi Gl IHl Eb Sf r d fs Hh id' i' [E|J].
      + injection E as <- <-. subst b. destruct (IHi (fun X => ltac:(discriminate X)) (Sf id (or_introl eq_refl)) r d fs Hh) as (x & A & B & _).
        exists x. split; [exact A|exact B].
      + apply (IHl Eb (fun z J => Sf z (or_intror J)) r d fs Hh _ _ J).
  Qed.

  (** The injections are within what is required of the objects. *)
  Lemma given_within :
    (forall b inputs keys id i, given g b inputs keys id i -> forall r, has_set r keys -> within r i) /\
    (forall b keys inputs l, given_all g b keys inputs l -> forall r, has_set r keys -> within r (IObject l)) /\
    (forall b inputs keys ids, given_each g b inputs keys ids -> forall r, has_set r keys -> forall id i, In (id, i) ids -> within r i).
  Proof.
    apply given_both with (P := fun b inputs keys id i _ => forall r, has_set r keys -> within r i)
      (P0 := fun b keys inputs l _ => forall r, has_set r keys -> within r (IObject l))
      (P1 := fun b inputs keys ids _ => forall r, has_set r keys -> forall id i, In (id, i) ids -> within r i).
    - intros. constructor.
    - intros b inputs keys id k Ik Sk T _ r Hs. inversion Hs; subst. destruct (H0 k Ik) as (q & [Iq Fq] & _).
      eapply WiSelect; [exact Iq|exact Fq|constructor].
    - intros b inputs keys id k o l Ik Sk T _ Do Ga IH r Hs. inversion Hs; subst. destruct (H0 k Ik) as (q & [Iq Fq] & Hq).
      eapply WiSelect; [exact Iq|exact Fq|]. exact (IH _ Hq).
    - intros b keys inputs ids l Inc Nd Ge IH Req Use Ord Pm r Hs. constructor; [exact Ord|].
      rewrite Forall_forall. intros i J. apply in_map_iff in J. destruct J as ([n j] & E & J). cbn in E. subst j.
      apply (Permutation_in _ Pm) in J. apply in_map_iff in J. destruct J as ([id j] & E & J). cbn in E. injection E as <- <-.
      exact (IH r Hs _ _ J).
    - intros b inputs keys r Hs id i [].
    - intros b inputs keys id i l Gi IHi Gl IHl r Hs id' i' [E|J]; [injection E as <- <-; exact (IHi r Hs)|exact (IHl r Hs _ _ J)].
  Qed.
End Values.
