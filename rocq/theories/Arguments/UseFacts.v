(** Facts about the variables used by accepted values and about the values that are sent. *)
From Coq Require Import ZArith QArith String List Bool Lia Arith Sorted.
From Verif.Wrapping Require Import Spec Proofs.
From Verif.Coercion Require Import Json Model Binding Properties.
From Verif.Coercion Require Spec Proofs.
From Verif.Arguments Require Import Model Spec Facts AcceptProps.
Import ListNotations.
Local Open Scope list_scope.
Local Open Scope nat_scope.

(** ** Which values named values are made of *)
Lemma consume_entries g defs : NoDup (map a_name defs) -> forall fs buf rest, NoDup (names fs) ->
  consume defs (ents g fs) = Ok (buf, rest) ->
  (forall f q, In (f, q) buf -> In f defs /\ visible f /\
     ((exists v, In (a_name f, v) fs /\ g v (a_type f) (a_wrapping f) = Ok q) \/ exists d, q = QDefault d)) /\
  (forall k v, In (k, v) fs -> In (k, (v, g v)) rest \/
     exists f q, In (f, q) buf /\ a_name f = k /\ g v (a_type f) (a_wrapping f) = Ok q).
Proof.
  induction defs as [|f defs IH]; intros Nd fs buf rest Nf; cbn [consume].
  - intros H. injection H as <- <-. split; [intros f q []|]. intros k v Hin. left. unfold ents.
    apply (in_map (fun kv => (fst kv, (snd kv, g (snd kv)))) fs (k, v)). auto.
  - cbn [map] in Nd. inversion Nd as [|? ? Nin Nd']; subst. specialize (IH Nd').
    destruct (a_inaccessible f) eqn:V.
    + intros H. destruct (IH _ _ _ Nf H) as [A B]. split; [|auto]. intros f' q' Hin. destruct (A _ _ Hin) as [? ?]. split; [right|]; auto.
    + destruct (take (a_name f) (ents g fs)) as [[c r]|] eqn:T.
      * apply take_some in T as (v & fs1 & fs2 & -> & -> & -> & Nk). intros H.
        apply Proofs.bind_ok in H as (q & Hq & H). apply Proofs.bind_ok in H as ([b r] & Hb & H). injection H as <- <-.
        apply nodup_mid in Nf as [Nf1 Nf2]. destruct (IH _ _ _ Nf2 Hb) as [A B]. split.
        -- intros f' q' [E|Hin].
           ++ injection E as <- <-. split; [left; auto|]. split; [exact V|]. left. exists v. split; [|auto].
              apply in_or_app. right; left; auto.
           ++ destruct (A _ _ Hin) as (Hf' & Vf' & [(v' & Hin' & Hq')|D]); (split; [right; auto|]; split; [auto|]); [|right; auto].
              left. exists v'. split; [|auto]. apply in_app_iff in Hin'. apply in_or_app. cbn [In]. intuition.
        -- intros k v' Hin. apply in_app_iff in Hin as [Hin|[E|Hin]].
           ++ destruct (B k v') as [|(f' & q' & ? & ?)]; [apply in_or_app; auto|auto|]. right. exists f', q'. split; [right|]; auto.
           ++ injection E as <- <-. right. exists f, q. split; [left; auto|]. auto.
           ++ destruct (B k v') as [|(f' & q' & ? & ?)]; [apply in_or_app; auto|auto|]. right. exists f', q'. split; [right|]; auto.
      * destruct (a_default f) as [d|].
        -- intros H. apply Proofs.bind_ok in H as ([b r] & Hb & H). injection H as <- <-.
           destruct (IH _ _ _ Nf Hb) as [A B]. split.
           ++ intros f' q' [E|Hin].
              ** injection E as <- <-. split; [left; auto|]. split; [exact V|]. right; eauto.
              ** destruct (A _ _ Hin) as [? ?]. split; [right|]; auto.
           ++ intros k v Hin. destruct (B k v Hin) as [|(f' & q' & ? & ?)]; [auto|]. right. exists f', q'. split; [right|]; auto.
        -- destruct (W.is_non_null (a_wrapping f)); [discriminate|]. intros H. destruct (IH _ _ _ Nf H) as [A B]. split; [|auto].
           intros f' q' Hin. destruct (A _ _ Hin) as [? ?]. split; [right|]; auto.
Qed.

(** ** Variables used by values *)
Section Uses.
Variable sch : gschema.
Variable vars : list vdef.
Variable is_default : bool.
Hypothesis Hsch : schema_ok sch.
Hypothesis Hvars : vars_ok vars.
Notation coerce := (coerce sch vars is_default).
Notation cqv := (coerce_query_value sch vars is_default).
Notation gq := (gq sch vars is_default).

Definition refers (x : string) (id : nat) : Prop := exists v, position x vars 0 = Some (id, v).
Definition uses_ok (d : tydef) (v : lit) (q : qval) : Prop :=
  forall id o, In (id, o) (uses q) <-> exists x, refers x id /\ written sch d v x o.
Definition used_ok (v : lit) : Prop :=
  (forall t q, (forall x, v <> LVar x) -> type_ok sch t -> fst (coerce v) t = Ok q -> uses_ok (types sch t) v q) /\
  (forall t w q, type_ok sch t -> snd (coerce v) t w = Ok q -> uses_ok (types sch t) v q).

Lemma uses_none d v q : uses q = [] -> (forall x o, ~ written sch d v x o) -> uses_ok d v q.
Proof. intros E H id o. rewrite E. split; [intros []|]. intros (x & _ & W). eapply H; eauto. Qed.
Lemma nest_uses n : forall q, uses (nest n q) = uses q.
Proof. induction n as [|n IH]; intros q; [reflexivity|]. cbn [nest]. rewrite IH. cbn [uses flat_map]. apply app_nil_r. Qed.
Lemma used_in v t w q : used_ok v -> type_ok sch t -> cqv t w v = Ok q -> uses_ok (types sch t) v q.
Proof.
  intros [A B] Ht. unfold coerce_query_value, input_value.
  destruct (W.is_list w && negb (l_is_list v) && negb (l_is_null v) && negb (l_is_var v)) eqn:E.
  - intros H. apply Proofs.bind_ok in H as (q0 & H & E'). injection E' as <-. intros id o. rewrite nest_uses. eapply A; eauto.
    intros x ->. cbn in E. rewrite andb_false_r in E. discriminate.
  - apply B; auto.
Qed.
Lemma ref_used x t w o q : variable_ref vars is_default x t w o = Ok q -> forall id o', In (id, o') (uses q) <-> refers x id /\ o' = o.
Proof.
  unfold variable_ref, refers. destruct is_default; [discriminate|]. destruct (position x vars 0) as [[i v]|] eqn:P; [|discriminate].
  destruct (are_type_compatibles _ _ _ _); [|discriminate]. intros H. injection H as <-. intros id o'. cbn [uses In]. split.
  - intros [E|[]]. injection E as <- <-. eauto.
  - intros [[v' E] ->]. left. congruence.
Qed.
Lemma custom_uses v : forall q, coerce_custom v = Ok q -> uses q = [].
Proof.
  induction v as [|z|m e|s|b|s|l IH|fs IH|x] using lit_ind'; cbn [coerce_custom]; intros q H; try (injection H as <-; reflexivity); try discriminate.
  - apply Proofs.bind_ok in H as (l' & H & E). injection E as <-. cbn [uses]. apply Proofs.sequence_ok in H.
    induction H as [|v q l l' Hv H IHl]; [reflexivity|]. inversion IH as [|? ? Hx IH']; subst. cbn [flat_map].
    rewrite (Hx _ Hv), IHl by auto. reflexivity.
  - apply Proofs.bind_ok in H as (l' & H & E). injection E as <-. cbn [uses]. apply Proofs.sequence_ok in H.
    induction H as [|v q l l' Hv H IHl]; [reflexivity|]. inversion IH as [|? ? Hx IH']; subst. cbn [flat_map].
    apply Proofs.bind_ok in Hv as (q0 & Hv & E). injection E as <-. cbn [snd]. rewrite (Hx _ Hv), IHl by auto. reflexivity.
Qed.
Lemma custom_written v : plain v -> forall s x o, ~ written sch (DScalar s) v x o.
Proof.
  induction v as [|z|m e|s|b|s|l IH|fs IH|y] using lit_ind'; intros P sc x o W; inversion W; subst; inversion P; subst.
  eapply (proj1 (Forall_forall _ _) IH); eauto. eapply (proj1 (Forall_forall _ _) H1); eauto.
Qed.

Lemma object_uses id o ifs fs q : objects sch id = Some (o, ifs) -> Forall (fun kv => used_ok (snd kv)) fs ->
  coerce_object vars is_default o ifs (ents gq fs) = Ok q -> uses_ok (DObj id) (LObj fs) q.
Proof.
  intros Eo Us. destruct (Hsch id o ifs Eo) as [[Dok Nd] One].
  pose proof (proj1 (Forall_forall _ _) Dok) as Din. pose proof (proj1 (Forall_forall _ _) Us) as Uin. cbn beta in Uin.
  unfold coerce_object. destruct o.
  - destruct fs as [|[k v] [|kv2 fs]]; cbn [ents map fst snd]; try discriminate.
    destruct (find_field k ifs) as [f|] eqn:Ff; [|discriminate]. apply find_field_spec in Ff as (Hf & Vf & <-).
    intros H. apply Proofs.bind_ok in H as (q0 & H & E). injection E as <-. intros i b. cbn [uses flat_map snd]. rewrite app_nil_r.
    assert (Hq : (forall x, v <> LVar x) \/ exists x, v = LVar x).
    { destruct v; try (left; intros; discriminate). right; eauto. }
    destruct Hq as [Nv|[x ->]].
    + assert (H' : cqv (a_type f) (a_wrapping f) v = Ok q0) by (destruct v; auto; exfalso; eapply Nv; eauto).
      destruct (Din f Hf) as (Ht & _). rewrite (used_in v _ _ _ (Uin (_, v) (or_introl eq_refl)) Ht H' i b). split.
      * intros (x & R & W). exists x. split; [auto|]. eapply wr_field; eauto. left; auto.
      * intros (x & R & W). exists x. split; [auto|]. inversion W as [| |id' defs' f' fs' x' Eo' Hf' Vf' Hin|id' one' defs' f' fs' v' x' o' Eo' Hf' Vf' Hin Nv' W']; subst.
        -- destruct Hin as [E|[]]. injection E as _ ->. exfalso. eapply Nv; eauto.
        -- assert (one' = true /\ defs' = ifs) as [-> ->] by (split; congruence). destruct Hin as [E|[]]. injection E as En ->.
           assert (f' = f) by (eapply nodup_def; eauto). subst f'. auto.
    + rewrite (ref_used _ _ _ _ _ H). split.
      * intros [R ->]. exists x. split; [auto|]. eapply wr_one_of; eauto. left; auto.
      * intros (y & R & W). inversion W as [| |id' defs' f' fs' x' Eo' Hf' Vf' Hin|id' one' defs' f' fs' v' x' o' Eo' Hf' Vf' Hin Nv' W']; subst.
        -- destruct Hin as [E|[]]. injection E as _ ->. auto.
        -- assert (one' = true) as -> by congruence. destruct Hin as [E|[]]. injection E as _ <-. exfalso. eapply Nv'; eauto.
  - intros H. apply Proofs.bind_ok in H as ([buf rest] & H & E). destruct rest; [|discriminate]. injection E as <-.
    assert (Nf : NoDup (names fs)).
    { destruct (proj1 (consume_fit gq ifs Nd ltac:(eapply Forall_impl; [|exact Dok]; intros f (_ & X & _); exact X) fs)) as (N1 & _); eauto. }
    destruct (consume_entries gq ifs Nd fs buf [] Nf H) as [A B]. intros i b. cbn [uses]. rewrite in_flat_map. split.
    + intros ([f q] & Hin & Hu). cbn [snd] in Hu. destruct (A _ _ Hin) as (Hf & Vf & [(v & Hv & Hq)|[d ->]]); [|destruct Hu].
      destruct (Din f Hf) as (Ht & _). apply (used_in v _ _ _ (Uin (_, v) Hv) Ht Hq) in Hu as (x & R & W). exists x. split; [auto|].
      eapply wr_field; eauto. discriminate.
    + intros (x & R & W). inversion W as [| |id' defs' f' fs' x' Eo' Hf' Vf' Hin|id' one' defs' f' fs' v' x' o' Eo' Hf' Vf' Hin Nv' W']; subst; [congruence|].
      assert (one' = false /\ defs' = ifs) as [-> ->] by (split; congruence).
      destruct (B _ _ Hin) as [[]|(f & q & Hb & En & Hq)]. destruct (A _ _ Hb) as (Hf & Vf & _).
      assert (f = f') by (eapply nodup_def; eauto). subst f'. exists (f, q). split; [auto|]. cbn [snd].
      destruct (Din f Hf) as (Ht & _). apply (used_in v' _ _ _ (Uin (_, v') Hin) Ht Hq). eauto.
Qed.
Lemma used_step v : (match v with LList l => Forall used_ok l | LObj fs => Forall (fun kv => used_ok (snd kv)) fs | _ => True end) -> used_ok v.
Proof.
  intros Sub.
  assert (A : forall t q, (forall x, v <> LVar x) -> type_ok sch t -> fst (coerce v) t = Ok q -> uses_ok (types sch t) v q).
  { intros t q Nv Ht. rewrite fst_coerce. unfold type_ok in Ht. destruct (types sch t) as [s|vs|id] eqn:Ty.
    - assert (P : forall w, plain v -> coerce_custom v = Ok w -> uses_ok (DScalar s) v w).
      { intros w P H. apply uses_none; [eapply custom_uses; eauto|]. apply custom_written; auto. }
      destruct s.
      5:{ cbn [coerce_scalar]. intros H. apply P; [apply custom_plain; eauto|auto]. }
      all: (destruct v; cbn [coerce_scalar]; intros H; try discriminate; try (exfalso; eapply Nv; reflexivity)).
      all: try (injection H as <-; apply uses_none; [reflexivity|intros ? ? W; inversion W]).
      + destruct (f64_of_Z z). injection H as <-. apply uses_none; [reflexivity|intros ? ? W; inversion W].
      + destruct (i32_try_from z); [|discriminate]. injection H as <-. apply uses_none; [reflexivity|intros ? ? W; inversion W].
      + destruct (can_coerce_to_int m e); [|discriminate]. injection H as <-. apply uses_none; [reflexivity|intros ? ? W; inversion W].
    - destruct v; cbn [coerce_enum]; intros H; try discriminate.
      destruct (find_value_by_name s vs 0) as [[j []]|]; try discriminate. injection H as <-.
      apply uses_none; [reflexivity|intros ? ? W; inversion W].
    - destruct Ht as [[o ifs] Eo]. rewrite Eo. destruct v; try discriminate. apply object_uses with (o := o) (ifs := ifs); auto. }
  split; [exact A|]. intros t w q Ht H.
  assert (Dv : (forall x, v <> LVar x) \/ exists x, v = LVar x).
  { destruct v; try (left; intros; discriminate). right; eauto. }
  destruct Dv as [Nv|[x ->]].
  - rewrite snd_coerce in H by auto. destruct (W.pop_outermost_list_wrapping w) as [[w' [lw|]]|]; [| |discriminate].
    + destruct v as [|z|m e0|s|b|s|l|fs|x]; try discriminate.
      * destruct lw; [discriminate|]. injection H as <-. apply uses_none; [reflexivity|intros ? ? W; inversion W].
      * apply Proofs.bind_ok in H as (l' & H & E). injection E as <-. apply Proofs.sequence_ok in H. intros i b. cbn [uses].
        assert (L : (exists q, In q l' /\ In (i, b) (uses q)) <-> exists v, In v l /\ exists x, refers x i /\ written sch (types sch t) v x b).
        { clear A Nv. induction H as [|v q l l' Hv H IHl].
          - split; [intros (? & [] & _)|intros (? & [] & _)].
          - inversion Sub as [|? ? Hx Sub']; subst. specialize (IHl Sub'). pose proof (proj2 Hx _ _ _ Ht Hv i b) as U. split.
            + intros (q0 & [<-|Hin] & Hu).
              * exists v. split; [left; auto|]. apply U; auto.
              * destruct (proj1 IHl) as (v0 & ? & ?); [eauto|]. exists v0. split; [right|]; auto.
            + intros (v0 & [<-|Hin] & Hu).
              * exists q. split; [left; auto|]. apply U; auto.
              * destruct (proj2 IHl) as (q0 & ? & ?); [eauto|]. exists q0. split; [right|]; auto. }
        rewrite in_flat_map, L. split.
        -- intros (v & Hin & x & R & W). exists x. split; [auto|]. eapply wr_item; eauto.
        -- intros (x & R & W). inversion W as [|d' l0 v x' o' Hin W'| |]; subst. eauto.
    + destruct (l_is_null v) eqn:En; [|apply A in H; auto]. destruct v; try discriminate. destruct (W.is_non_null w'); [discriminate|].
      injection H as <-. apply uses_none; [reflexivity|intros ? ? W; inversion W].
  - rewrite snd_coerce_var in H. intros i b. rewrite (ref_used _ _ _ _ _ H). split.
    + intros [R ->]. exists x. split; [auto|constructor].
    + intros (y & R & W). inversion W; subst. auto.
Qed.
Lemma used_all v : used_ok v.
Proof. induction v as [|z|m e|s|b|s|l IH|fs IH|x] using lit_ind'; apply used_step; auto. Qed.

Lemma arguments_used defs args out : defs_ok sch defs -> bind_arguments sch vars is_default defs args = Ok (out, false) ->
  forall id o, In (id, o) (flat_map (fun fq => uses (snd fq)) out) <->
    exists f v x, In f defs /\ visible f /\ In (a_name f, v) args /\ refers x id /\ written sch (types sch (a_type f)) v x o.
Proof.
  intros [Dok Nd] H id o. assert (F : fields_fit (fits_in sch (usable_var vars is_default)) defs args).
  { apply arguments_accepted; [auto|auto|split; auto|eauto]. }
  pose proof (proj1 (Forall_forall _ _) Dok) as Din.
  apply bind_arguments_consume in H. destruct (consume_entries gq defs Nd args out [] (proj1 F) H) as [A B].
  rewrite in_flat_map. split.
  - intros ([f q] & Hin & Hu). cbn [snd] in Hu. destruct (A _ _ Hin) as (Hf & Vf & [(v & Hv & Hq)|[d ->]]); [|destruct Hu].
    destruct (Din f Hf) as (Ht & _). apply (used_in v _ _ _ (used_all v) Ht Hq) in Hu as (x & R & W).
    exists f, v, x. auto.
  - intros (f & v & x & Hf & Vf & Hin & R & W). destruct (B _ _ Hin) as [[]|(f' & q & Hb & En & Hq)].
    destruct (A _ _ Hb) as (Hf' & _). assert (f' = f) by (eapply nodup_def; eauto). subst f'.
    exists (f, q). split; [auto|]. cbn [snd]. destruct (Din f Hf) as (Ht & _). apply (used_in v _ _ _ (used_all v) Ht Hq). eauto.
Qed.
End Uses.
