(** Facts about the values that are sent: they are accepted by the types they are sent for. *)
From Coq Require Import ZArith QArith String List Bool Lia Arith Sorted.
From Verif.Wrapping Require Import Spec Proofs.
From Verif.Coercion Require Import Json Model Binding Properties.
From Verif.Coercion Require Spec Proofs.
From Verif.Arguments Require Import Model Spec Facts AcceptProps UseFacts.
Import ListNotations.
Local Open Scope list_scope.
Local Open Scope nat_scope.
Module CS := Verif.Coercion.Spec.

Lemma jint_int32 z : int32 z -> forall sch, accepted_named sch (DScalar SInt) (jint z).
Proof.
  intros H sch. unfold jint. apply (an_int _ _ z); [|auto]. destruct (0 <=? z)%Z; reflexivity.
Qed.
Lemma accepted_lenient sch t : forall u d j, lenient u d -> accepted sch t d j -> accepted sch t u j.
Proof.
  induction u as [ru|eu IH ru]; intros d j L A; destruct d as [rd|ed rd]; cbn [lenient] in L; try contradiction.
  - inversion A; subst.
    + apply ac_null. cbn in *. destruct ru; [|auto]. rewrite L in H; auto.
    + apply ac_named; auto.
  - destruct L as [L1 L2]. inversion A as [t0 u0 R|t0 e r l F|t0 e r j0 N1 N2 A1|]; subst.
    + apply ac_null. cbn in *. destruct ru; [|auto]. rewrite L1 in R; auto.
    + apply ac_list. eapply Forall_impl; [|exact F]. intros j Hj. eapply IH; eauto.
    + apply ac_single; auto. eapply IH; eauto.
Qed.
Lemma accepted_any sch t j : j <> JNull -> (forall l, j <> JArr l) -> accepted_named sch (types sch t) j -> forall u, accepted sch t u j.
Proof. intros N1 N2 A. induction u as [r|e IH r]; [apply ac_named; auto|]. apply ac_single; auto. Qed.
Lemma named_not_array sch d j : accepted_named sch d j -> d <> DScalar SUnknown -> forall l, j <> JArr l.
Proof. intros A Nd l ->. inversion A; subst; congruence. Qed.
Lemma accepted_usable sch t d u j : usable_as d u -> accepted sch t d j ->
  (listp d = false -> types sch t = DScalar SUnknown -> forall l, j <> JArr l) -> accepted sch t u j.
Proof.
  intros [L|[L R]] A C; [eapply accepted_lenient; eauto|]. destruct d as [r|e r]; [|discriminate].
  inversion A as [t0 u0 R0| | |t0 r0 j0 N0 A0]; subst.
  - apply ac_null. destruct (required u); [|auto]. rewrite R in R0; auto.
  - apply accepted_any; auto. intros l. intros ->. inversion A0; subst; try congruence. eapply C; eauto.
Qed.
Lemma usable_null d u : usable_as d u -> required d = false -> required u = false.
Proof.
  intros [L|[_ R]] Rd; [|destruct (required u); [rewrite R in Rd; auto|auto]].
  destruct u as [ru|eu ru], d as [rd|ed rd]; cbn in *; try contradiction; destruct ru; auto; [rewrite L in Rd; auto|].
  destruct L as [L _]. rewrite L in Rd; auto.
Qed.

(** ** From literals that fit *)
Lemma custom_null v : stands_custom v JNull -> v = LNull.
Proof. intros H. inversion H; auto; unfold jint in *; discriminate. Qed.
Lemma named_null sch value d v : stands_named sch value d v JNull -> v = LNull.
Proof. intros H. inversion H; subst; try (unfold jint in *; discriminate). apply custom_null; auto. Qed.

Lemma sent_part value R fs f part : sent_for value R fs f part -> part = [] \/ exists j, part = [(a_name f, j)].
Proof.
  intros [(v & j & _ & _ & _ & ->)|[(x & _ & _ & ->)|(_ & ->)]]; [eauto| |]; unfold default_of; destruct (a_default f); eauto.
Qed.
Lemma sent_names value R fs defs parts : Forall2 (sent_for value R fs) defs parts -> NoDup (map a_name defs) ->
  NoDup (names (concat parts)) /\ (forall k, In k (names (concat parts)) -> In k (map a_name defs)).
Proof.
  intros F. induction F as [|f p defs ps Hf F IH]; intros Nd; [split; [constructor|intros k []]|].
  cbn [map] in Nd. inversion Nd as [|? ? Nin Nd']; subst. destruct (IH Nd') as [A B]. cbn [concat]. unfold names in *.
  rewrite map_app. destruct (sent_part _ _ _ _ _ Hf) as [->|[j ->]]; cbn [map app fst].
  - split; [auto|]. intros k Hk. right; auto.
  - split; [constructor; auto|]. intros k [<-|Hk]; [left|right]; auto.
Qed.
Lemma nodup_filter {A B} (g : A -> B) p l : NoDup (map g l) -> NoDup (map g (filter p l)).
Proof.
  induction l as [|x l IH]; intros N1; [constructor|]. cbn [map] in N1. inversion N1 as [|? ? Nin N2]; subst. cbn [filter].
  destruct (p x); [|auto]. cbn [map]. constructor; [|auto]. intros H. apply Nin. apply in_map_iff in H as (y & E & Hy).
  apply filter_In in Hy as [Hy _]. rewrite <- E. apply in_map. auto.
Qed.
Lemma forall2_in_r {A B} (R : A -> B -> Prop) l l' y : Forall2 R l l' -> In y l' -> exists x, In x l /\ R x y.
Proof.
  induction 1 as [|x y' l l' H F IH]; intros Hin; [destruct Hin|]. destruct Hin as [<-|Hin].
  - exists x. split; [left|]; auto.
  - destruct (IH Hin) as (x' & ? & ?). exists x'. split; [right|]; auto.
Qed.
Lemma forall2_in_l {A B} (R : A -> B -> Prop) l l' x : Forall2 R l l' -> In x l -> exists y, In y l' /\ R x y.
Proof.
  induction 1 as [|x' y l l' H F IH]; intros Hin; [destruct Hin|]. destruct Hin as [<-|Hin].
  - exists y. split; [left|]; auto.
  - destruct (IH Hin) as (y' & ? & ?). exists y'. split; [right|]; auto.
Qed.

Section Fit.
Variable sch : gschema.
Variable usable : string -> nat -> ty -> Prop.
Variable value : string -> option json.
Hypothesis Hsch : schema_ok sch.
Hypothesis Hval : forall x t u, usable x t u ->
  (forall j, value x = Some j -> accepted sch t u j) /\ (value x = None -> required u = false).
Notation fits := (fits sch usable).
Notation fits_named := (fits_named sch usable).
Notation fits_in := (fits_in sch usable).
Notation stands := (stands sch value).
Notation stands_named := (stands_named sch value).
Notation stands_in := (stands_in sch value).

Definition defined (d : tydef) (v : lit) : Prop := forall x, written sch d v x true -> value x <> None.
Definition fine (v : lit) : Prop := forall f j, fits_in f v -> stands_in f v j -> defined (types sch (a_type f)) v -> accepted_in sch f j.

Lemma fields_fine defs fs js : defs_ok sch defs -> (forall k v, In (k, v) fs -> fine v) ->
  (forall f k v, In f defs -> visible f -> In (k, v) fs -> a_name f = k -> (forall x, v <> LVar x) -> defined (types sch (a_type f)) v) ->
  fields_fit fits_in defs fs -> fields_stand value stands_in defs fs js -> fields_accepted (accepted_in sch) defs js.
Proof.
  intros [Dok Nd] Fine Def (Nf & Fit & Req) (_ & parts & St & ->).
  pose proof (proj1 (Forall_forall _ _) Dok) as Din.
  assert (Own : forall f v, In f defs -> visible f -> In (a_name f, v) fs -> fits_in f v).
  { intros f v Hf Vf Hin. destruct (Fit _ _ Hin) as (f' & Hf' & _ & En & F). assert (f' = f) by (eapply nodup_def; eauto). congruence. }
  split; [|split].
  - apply (sent_names _ _ _ _ _ St). apply nodup_filter. auto.
  - intros k j Hin. apply in_concat in Hin as (part & Hp & Hin). destruct (forall2_in_r _ _ _ _ St Hp) as (f & Hf & S1).
    apply filter_In in Hf as [Hf Vf]. apply negb_true_iff in Vf. exists f.
    assert (Dflt : In (k, j) (default_of f) -> In f defs /\ a_name f = k /\ accepted_in sch f j).
    { unfold default_of. destruct (a_default f) as [s|] eqn:Ed; intros H; [destruct H as [H|[]]|destruct H]. injection H as <- <-. split; [auto|]. split; [auto|].
      apply (Din f Hf). auto. }
    destruct S1 as [(v & j' & Hv & Nu & Sj & ->)|[(x & Hv & Vx & ->)|(Nin & ->)]]; auto.
    destruct Hin as [E|[]]. injection E as <- <-. split; [auto|]. split; [auto|].
    assert (Dv : (forall x, v <> LVar x) \/ exists x, v = LVar x).
    { destruct v; try (left; intros; discriminate). right; eauto. }
    eapply Fine; eauto. destruct Dv as [Nv|[x ->]]; [eapply Def; eauto|]. intros y W. inversion W.
  - intros f u Hf Vf Tf Rq.
    destruct (forall2_in_l _ _ _ f St) as (part & Hp & S1); [apply filter_In; split; [auto|]; rewrite Vf; reflexivity|].
    assert (K : In (a_name f) (names part) -> In (a_name f) (names (concat parts))).
    { intros H. apply in_names in H as [j H]. apply in_names. exists j. apply in_concat. eauto. }
    apply K. destruct S1 as [(v & j' & Hv & Nu & Sj & ->)|[(x & Hv & Vx & ->)|(Nin & ->)]].
    + left; auto.
    + unfold default_of. destruct (a_default f) as [s|] eqn:Ed; [left; auto|]. exfalso.
      specialize (Own f _ Hf Vf Hv). inversion Own as [f0 u0 v0 T0 F0|f0 u0 v0 T0 L0 N0 N1 N2 F0]; subst; [|eapply N1; eauto].
      assert (u0 = u) by (eapply denotes_fun; eauto). subst u0.
      inversion F0 as [t1 u1 x1 U1| | |t1 r1 v1 N1 N2 F1]; subst; [|eapply N2; eauto].
      destruct (Hval _ _ _ U1) as [_ R]. rewrite R in Rq; [discriminate|auto].
    + unfold default_of. destruct (a_default f) as [s|] eqn:Ed; [left; auto|]. exfalso. apply Nin. eapply Req; eauto.
Qed.

Lemma iter_accepted t j : j <> JNull -> accepted_named sch (types sch t) j -> forall u,
  accepted sch t u (Nat.iter (depth u) (fun x => JArr [x]) j).
Proof.
  intros Nn A. induction u as [r|e IH r]; [apply ac_named; auto|]. cbn [depth]. cbn [Nat.iter nat_rect]. apply ac_list.
  constructor; [exact IH|constructor].
Qed.

Lemma fine_step v :
  (match v with
   | LList l => Forall (fun v => forall t u j, fits t u v -> stands t u v j -> defined (types sch t) v -> accepted sch t u j) l
   | LObj fs => forall k v, In (k, v) fs -> fine v
   | _ => True end) ->
  (forall t u j, fits t u v -> stands t u v j -> defined (types sch t) v -> accepted sch t u j) /\ fine v.
Proof.
  intros Sub.
  assert (A : forall d j, fits_named d v -> stands_named d v j -> defined d v -> accepted_named sch d j).
  { intros d j F S1 Df. inversion F as [z I32|m e k Ik Lk|z|m e|s|b|v0 P|vs n Hn|id defs f v0 Eo Hf Vf Fv|id defs fs Eo Ff]; subst.
    - inversion S1; subst. apply jint_int32. auto.
    - inversion S1 as [|m' e' k' Ik'| | | | | | | |]; subst. assert (k' = k) by (eapply integral_fun; eauto). subst. apply jint_int32. unfold int32. lia.
    - inversion S1; subst. constructor.
    - inversion S1; subst. constructor.
    - inversion S1; subst. constructor.
    - inversion S1; subst. constructor.
    - constructor.
    - inversion S1; subst. econstructor; eauto.
    - inversion S1 as [| | | | | | | |id' defs' f' v' part Eo' Hf' Vf' Sf|]; subst; [|congruence].
      assert (defs' = defs) by congruence. subst defs'. destruct (Hsch _ _ _ Eo) as [[Dok Nd] _].
      assert (f' = f) by (eapply nodup_def; eauto). subst f'.
      destruct Sf as [(v & j' & Hv & Nu & Sj & ->)|[(x & Hv & Vx & ->)|(Nin & ->)]].
      + destruct Hv as [E|[]]. injection E as ->. eapply an_one_of; eauto. eapply Sub; [left; reflexivity|auto|auto|].
        intros x W. apply Df. eapply wr_field; eauto; [left; auto|]. intros _ y ->. inversion W.
      + destruct Hv as [E|[]]. injection E as ->. exfalso. eapply Df; [|exact Vx]. eapply wr_one_of; eauto. left; auto.
      + exfalso. apply Nin. left; auto.
    - inversion S1 as [| | | | | | | | |id' defs' fs' js Eo' Sf]; subst; [congruence|].
      assert (defs' = defs) by congruence. subst defs'. destruct (Hsch _ _ _ Eo) as [Dok _]. eapply an_object; eauto.
      eapply fields_fine; eauto. intros f k v Hf Vf Hin En Nv x W. apply Df. subst k. eapply wr_field; eauto. }
  assert (B : forall t u j, fits t u v -> stands t u v j -> defined (types sch t) v -> accepted sch t u j).
  { intros t u j F S1 Df. inversion F as [t0 u0 x U|t0 u0 R|t0 e r l Fl|t0 r v0 Nn Nv Fn]; subst.
    - destruct (Hval _ _ _ U) as [V1 V2]. inversion S1; subst; auto.
      + apply ac_null; auto.
      + exfalso. eapply H0; eauto.
    - inversion S1; subst; [apply ac_null; auto|congruence].
    - inversion S1 as [| | |t1 e1 r1 l1 js Fj|]; subst. apply ac_list. clear A F S1.
      assert (Df' : forall v, In v l -> defined (types sch t) v).
      { intros v Hin x W. apply Df. eapply wr_item; eauto. }
      clear Df. induction Fj as [|v j l js Hvj Fj IH]; [constructor|]. inversion Sub as [|? ? Hv Sub']; subst.
      inversion Fl as [|? ? Fv Fl']; subst. constructor; [apply Hv; auto; apply Df'; left; auto|].
      apply IH; auto. intros v' Hin. apply Df'. right; auto.
    - inversion S1 as [| | | |t1 r1 v1 j1 Nn1 Nv1 Sn]; subst; try congruence; try (exfalso; eapply Nv; reflexivity).
      apply ac_named; [|apply A; auto]. intros ->. apply Nn. eapply named_null; eauto. }
  split; [exact B|]. intros f j F S1 Df.
  inversion F as [f0 u v0 Tf Ff|f0 u v0 Tf L Nn Nv Nl Fn]; subst; inversion S1 as [f1 u1 v1 j1 Tf1 Sf|f1 u1 v1 j1 Tf1 L1 Nn1 Nv1 Nl1 Sn]; subst;
    (assert (u1 = u) by (eapply denotes_fun; eauto); subst u1).
  - econstructor; eauto.
  - exfalso. destruct u; [discriminate|]. inversion Ff; subst; congruence.
  - exfalso. destruct u; [discriminate|]. inversion Sf; subst; congruence.
  - econstructor; eauto. apply iter_accepted; [intros ->; apply Nn; eapply named_null; eauto|]. apply A; auto.
Qed.
Lemma fine_all v :
  (forall t u j, fits t u v -> stands t u v j -> defined (types sch t) v -> accepted sch t u j) /\ fine v.
Proof.
  induction v as [|z|m e|s|b|s|l IH|fs IH|x] using lit_ind'; apply fine_step; auto.
  - eapply Forall_impl; [|exact IH]. intros v Hv. apply Hv.
  - intros k v Hin. apply (proj1 (Forall_forall _ _) IH (k, v) Hin).
Qed.
End Fit.

(** ** From the request's variables *)
Section cval_ind.
Variable P : cval -> Prop.
Hypothesis Hleaf : forall c, (forall l, c <> CList l) -> (forall fs, c <> CObj fs) -> (forall fs, c <> CMap fs) -> P c.
Hypothesis HList : forall l, Forall P l -> P (CList l).
Hypothesis HObj : forall fs, Forall (fun ic => P (snd ic)) fs -> P (CObj fs).
Hypothesis HMap : forall fs, Forall (fun kc => P (snd kc)) fs -> P (CMap fs).
Fixpoint cval_ind' (c : cval) : P c.
Proof.
  destruct c as [|z|m e|z|z|s|b|i|l|fs|fs|i]; try (apply Hleaf; intros; discriminate).
  - apply HList. induction l as [|c l IH]; constructor; [apply cval_ind'|exact IH].
  - apply HObj. induction fs as [|[i c] l IH]; constructor; [apply cval_ind'|exact IH].
  - apply HMap. induction fs as [|[i c] l IH]; constructor; [apply cval_ind'|exact IH].
Defined.
End cval_ind.

Section Vars.
Variable sch : gschema.
Hypothesis Hsch : schema_ok sch.
Notation esch := (erase sch).

Lemma erase_some id o : esch id = Some o -> exists b defs, objects sch id = Some (b, defs) /\
  o = {| is_one_of := b; input_fields := map (erase_field sch) defs |}.
Proof.
  unfold erase. destruct (objects sch id) as [[b defs]|] eqn:E; [|discriminate]. cbn [option_map fst snd]. intros H. injection H as <-. eauto.
Qed.
Lemma erase_ok_def t : type_ok sch t -> CS.def_ok esch (types sch t).
Proof.
  unfold type_ok, CS.def_ok. destruct (types sch t) as [s|vs|id]; auto. intros [o E]. unfold erase. rewrite E. cbn. eauto.
Qed.
Lemma erase_ok : CS.schema_ok esch.
Proof.
  intros id o H. apply erase_some in H as (b & defs & E & ->). destruct (Hsch _ _ _ E) as [[Dok Nd] _]. cbn [input_fields]. split.
  - apply Forall_forall. intros f H. apply in_map_iff in H as (f0 & <- & H).
    destruct (proj1 (Forall_forall _ _) Dok f0 H) as (Ht & [u Tu] & _). split; [apply erase_ok_def; auto|].
    exists u. exact Tu.
  - rewrite map_map. exact Nd.
Qed.
Lemma like_ser d c : CS.json_like c -> ser_cval sch d c = JNull -> c = CNull.
Proof. intros L. inversion L; subst; cbn; auto; discriminate. Qed.
Lemma conforms_no_default d t i : ~ CS.conforms esch d t (CDefault i).
Proof.
  intros H. inversion H as [| |d0 r c Hn]; subst. inversion Hn as [| | | |c0 L N1| | |]; subst. inversion L.
Qed.
Lemma nodup_nth {A B} (g : A -> B) (l : list A) i j x y : NoDup (map g l) -> nth_error l i = Some x -> nth_error l j = Some y -> g x = g y -> i = j.
Proof.
  intros Nd Hi Hj E. apply (proj1 (NoDup_nth_error (map g l)) Nd).
  - rewrite map_length. apply nth_error_Some. congruence.
  - rewrite !nth_error_map, Hi, Hj. cbn. congruence.
Qed.
Lemma conforms_accepted c :
  (forall t u, CS.conforms esch (types sch t) u c -> accepted sch t u (ser_cval sch (types sch t) c)) /\
  (forall d, CS.conforms_named esch d c -> accepted_named sch d (ser_cval sch d c) /\ ser_cval sch d c <> JNull).
Proof.
  induction c as [c N1 N2 N3|l IH|fs IH|fs IH] using cval_ind'.
  - assert (B : forall d, CS.conforms_named esch d c -> accepted_named sch d (ser_cval sch d c) /\ ser_cval sch d c <> JNull).
    { intros d H. inversion H as [z R|m e|s|b|c0 L Nn|vs i n En|id o i f c0|id o buf]; subst; try congruence.
      - split; [apply jint_int32; exact R|unfold ser_cval, jint; discriminate].
      - split; [constructor|discriminate].
      - split; [constructor|discriminate].
      - split; [constructor|discriminate].
      - split; [constructor|]. intros E. apply Nn. eapply like_ser; eauto.
      - cbn [ser_cval]. rewrite En. split; [|discriminate]. eapply an_enum. eapply nth_error_In; eauto. }
    split; [|exact B]. intros t u H. inversion H as [d t0 R|d e r l F|d r c0 Hn]; subst.
    + apply ac_null. auto.
    + exfalso. eapply N1; reflexivity.
    + destruct (B _ Hn). apply ac_named; auto.
  - assert (B : forall d, CS.conforms_named esch d (CList l) -> accepted_named sch d (ser_cval sch d (CList l)) /\ ser_cval sch d (CList l) <> JNull).
    { intros d H. inversion H; subst. split; [constructor|discriminate]. }
    split; [|exact B]. intros t u H. inversion H as [d t0 R|d e r l0 F|d r c0 Hn]; subst.
    + cbn [ser_cval]. apply ac_list. apply Forall_forall. intros j Hj. apply in_map_iff in Hj as (c & <- & Hc).
      apply (proj1 (Forall_forall _ _) IH c Hc). apply (proj1 (Forall_forall _ _) F c Hc).
    + destruct (B _ Hn). apply ac_named; auto.
  - assert (F0 : forall id b defs i f c, objects sch id = Some (b, defs) -> nth_error defs i = Some f -> In (i, c) fs ->
        CS.conforms_field esch (erase_field sch f) c ->
        accepted_in sch f (match c with CDefault _ => match a_default f with Some s => ser_sval s | None => JNull end
                                      | _ => ser_cval sch (types sch (a_type f)) c end)).
    { intros id b defs i f c Eo En Hin H. inversion H as [f0 u c0 Tf C0]; subst. cbn [erase_field f_def f_wrapping] in *.
      replace (match c with CDefault _ => _ | _ => _ end) with (ser_cval sch (types sch (a_type f)) c).
      - econstructor; [exact Tf|]. apply (proj1 (Forall_forall _ _) IH (i, c) Hin). exact C0.
      - destruct c; try reflexivity. exfalso. eapply conforms_no_default; eauto. }
    assert (B : forall d, CS.conforms_named esch d (CObj fs) -> accepted_named sch d (ser_cval sch d (CObj fs)) /\ ser_cval sch d (CObj fs) <> JNull).
    { intros d H. inversion H as [| | | |c0 L| |id o i f c Eo O1 En Vf Cf|id o buf Eo O1 Ob]; subst; [inversion L| |].
      - apply erase_some in Eo as (b & defs & Eo & ->). cbn [is_one_of input_fields] in *. subst b.
        rewrite nth_error_map in En. destruct (nth_error defs i) as [f0|] eqn:En0; [|discriminate]. injection En as <-.
        cbn [ser_cval]. rewrite Eo. cbn [flat_map fst snd]. rewrite En0. cbn [app]. split; [|discriminate].
        eapply an_one_of; eauto; [eapply nth_error_In; eauto|]. eapply F0; eauto. left; auto.
      - apply erase_some in Eo as (b & defs & Eo & ->). cbn [is_one_of input_fields] in *. subst b.
        cbn [ser_cval]. rewrite Eo. split; [|discriminate]. eapply an_object; eauto.
        destruct (Hsch _ _ _ Eo) as [[Dok Nd] _]. pose proof (proj1 (Forall_forall _ _) Dok) as Din.
        destruct Ob as (Srt & Mem & Reqd).
        set (ser1 := fun ic : nat * cval => match nth_error defs (fst ic) with
            | Some f => [(a_name f, match snd ic with
                | CDefault _ => match a_default f with Some s => ser_sval s | None => JNull end
                | _ => ser_cval sch (types sch (a_type f)) (snd ic) end)]
            | None => [] end).
        assert (Ms : forall i c, In (i, c) fs -> exists f, nth_error defs i = Some f /\ exists j, ser1 (i, c) = [(a_name f, j)] /\ accepted_in sch f j).
        { intros i c Hin. destruct (Mem i c Hin) as (f & En & Vf & K). rewrite nth_error_map in En.
          destruct (nth_error defs i) as [f0|] eqn:En0; [|discriminate]. injection En as <-. exists f0. split; [auto|].
          unfold ser1. cbn [fst snd]. rewrite En0. eexists. split; [reflexivity|]. destruct K as [K|[K1 K2]].
          - eapply F0; eauto.
          - subst c. cbn [erase_field f_has_default] in K1. destruct (a_default f0) as [s|] eqn:Ed; [|discriminate].
            apply (Din f0); auto. eapply nth_error_In; eauto. }
        change (fields_accepted (accepted_in sch) defs (flat_map ser1 fs)). split; [|split].
        + clear - Srt Ms Nd. induction fs as [|[i c] fs IHf]; [constructor|]. cbn [flat_map].
          destruct (Ms i c (or_introl eq_refl)) as (f & Ef & j & -> & _). cbn [app names map fst].
          cbn [map fst] in Srt. inversion Srt as [|? ? Srt' Hlt]; subst. constructor.
          * intros Hin. apply in_names in Hin as [j' Hin]. apply in_flat_map in Hin as ([i' c'] & Hin & Hs).
            destruct (Ms i' c' (or_intror Hin)) as (f' & Ef' & j'' & E & _). rewrite E in Hs. destruct Hs as [Hs|[]]. injection Hs as En _.
            assert (i' = i) by (eapply (nodup_nth a_name defs); eauto). subst i'.
            assert (L : i < i); [|lia]. apply (proj1 (Forall_forall _ _) Hlt). apply in_map_iff. exists (i, c'). auto.
          * apply IHf; auto. intros i' c' Hin. apply Ms. right; auto.
        + intros k j Hin. apply in_flat_map in Hin as ([i c] & Hin & Hs). destruct (Ms i c Hin) as (f & Ef & j' & E & Acc).
          rewrite E in Hs. destruct Hs as [Hs|[]]. injection Hs as <- <-. exists f. split; [eapply nth_error_In; eauto|]. auto.
        + intros f u Hf Vf Tf Rq. apply In_nth_error in Hf as [i Ei].
          assert (Hin : In i (map fst fs)).
          { apply (Reqd i (erase_field sch f) u); auto. rewrite nth_error_map, Ei. reflexivity. }
          apply in_map_iff in Hin as ([i' c] & Ei' & Hin). cbn [fst] in Ei'. subst i'.
          destruct (Ms i c Hin) as (f' & Ef' & j & E & _). assert (f' = f) by congruence. subst f'.
          apply in_names. exists j. apply in_flat_map. exists (i, c). split; [auto|]. rewrite E. left; auto. }
    split; [|exact B]. intros t u H. inversion H as [d t0 R|d e r l0 F|d r c0 Hn]; subst. destruct (B _ Hn). apply ac_named; auto.
  - assert (B : forall d, CS.conforms_named esch d (CMap fs) -> accepted_named sch d (ser_cval sch d (CMap fs)) /\ ser_cval sch d (CMap fs) <> JNull).
    { intros d H. inversion H; subst. split; [constructor|discriminate]. }
    split; [|exact B]. intros t u H. inversion H as [d t0 R|d e r l0 F|d r c0 Hn]; subst. destruct (B _ Hn). apply ac_named; auto.
Qed.
Lemma variable_accepted t w u j c : type_ok sch t -> denotes w u -> CS.json_ok j ->
  coerce_variable esch (types sch t) w j = Ok c -> accepted sch t u (ser_cval sch (types sch t) c).
Proof.
  intros Ht Dw Jo H.
  pose (f := {| f_name := ""; f_inaccessible := false; f_def := types sch t; f_wrapping := w; f_has_default := false |}).
  assert (F : CS.field_ok esch f) by (split; [apply erase_ok_def; auto|exists u; exact Dw]).
  pose proof (C05_coerced_values_conform esch f j c erase_ok F Jo H) as C. inversion C as [f0 u0 c0 T0 C0]; subst.
  assert (u0 = u) by (eapply denotes_fun; eauto). subst u0. apply conforms_accepted. exact C0.
Qed.
End Vars.
