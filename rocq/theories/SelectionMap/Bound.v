(** Binding: names, the targets used. *)
From Coq Require Import List NArith Bool Arith Permutation Lia.
From Verif Require Import Response.Model Response.Spec Wrapping.Spec Views.Model Views.Spec.
From Verif Require Import SelectionMap.Model SelectionMap.Binding SelectionMap.BindSpec SelectionMap.TextProperties.
Import ListNotations.
Local Open Scope nat_scope.
Local Open Scope list_scope.

Lemma name_eqb_eq a b : name_eqb a b = true <-> a = b.
Proof.
  revert b. induction a as [|x a IH]; intros [|y b]; cbn [name_eqb]; try (split; [discriminate|intros; congruence]); [split; reflexivity|].
  rewrite andb_true_iff, N.eqb_eq, IH. split; [intros [-> ->]|intros [= -> ->]; split]; reflexivity.
Qed.
Lemma disjoint_false l : forall r, disjoint l r = false -> exists o, In o l /\ In o r.
Proof.
  induction l as [|a l IH]; [discriminate|]. induction r as [|b r IHr]; [discriminate|].
  cbn [disjoint]. destruct (Nat.compare_spec a b) as [->|L|L].
  - intros _. exists b. split; left; reflexivity.
  - intros D. destruct (IH _ D) as (o & A & B). exists o. split; [right; exact A|exact B].
  - intros D. destruct (IHr D) as (o & A & B). exists o. split; [exact A|right; exact B].
Qed.
Lemma disjoint_true l : forall r, increasing l -> increasing r -> disjoint l r = true -> forall o, In o l -> ~ In o r.
Proof.
  induction l as [|a l IH]; [intros r _ _ _ o []|]. induction r as [|b r IHr]; [intros _ _ _ o _ []|].
  intros Sl Sr. inversion Sl as [|? ? La Sl']. inversion Sr as [|? ? Lb Sr']. subst.
  rewrite Forall_forall in La, Lb. cbn [disjoint]. destruct (Nat.compare_spec a b) as [->|L|L]; [discriminate| |].
  - intros D o [<-|A] B.
    + destruct B as [<-|B]; [lia|]. specialize (Lb _ B). lia.
    + exact (IH _ Sl' Sr D o A B).
  - intros D o A [<-|B].
    + destruct A as [<-|A]; [lia|]. specialize (La _ A). lia.
    + exact (IHr Sl Sr' D o A B).
Qed.

Lemma skipn_nth : forall ix (l : list nat), ix < List.length l -> skipn ix l = nth ix l 0 :: skipn (S ix) l.
Proof.
  induction ix as [|ix IH]; intros [|x l] L; cbn in L; try lia; [reflexivity|].
  change (skipn ix l = nth ix l 0 :: skipn (S ix) l). apply IH. lia.
Qed.
Lemma last_skipn : forall ix (l : list nat), ix < List.length l -> last (skipn ix l) 0 = last l 0.
Proof.
  induction ix as [|ix IH]; intros [|x l] L; cbn in L; try lia; [reflexivity|]. cbn [skipn].
  destruct l as [|y l]; [cbn in L; lia|]. rewrite (IH (y :: l)); [reflexivity|cbn in *; lia].
Qed.
Lemma swap_remove_perm ix l : ix < List.length l -> Permutation l (nth ix l 0 :: swap_remove ix l).
Proof.
  intros L. assert (E : l = firstn ix l ++ nth ix l 0 :: skipn (S ix) l).
  { rewrite <- (skipn_nth ix l L). symmetry. apply firstn_skipn. }
  unfold swap_remove. destruct (Nat.eqb_spec (S ix) (List.length l)) as [F|F].
  - rewrite E at 1. rewrite (skipn_all2 l (n := S ix)) by lia. rewrite <- Permutation_middle, app_nil_r. reflexivity.
  - rewrite E at 1. rewrite <- Permutation_middle. apply perm_skip, Permutation_app_head.
    assert (Q : skipn (S ix) l = removelast (skipn (S ix) l) ++ [last (skipn (S ix) l) 0]).
    { apply app_removelast_last. intros Z. apply (f_equal (@List.length nat)) in Z. rewrite skipn_length in Z. cbn in Z. lia. }
    rewrite (last_skipn (S ix) l) in Q by lia.
    assert (R : firstn (List.length l - ix - 2) (skipn (S ix) l) = removelast (skipn (S ix) l)).
    { rewrite removelast_firstn_len. f_equal. rewrite skipn_length. lia. }
    rewrite R. rewrite Q at 1. rewrite Permutation_app_comm. reflexivity.
Qed.
Lemma position_some p l ix : position p l = Some ix -> ix < List.length l /\ p (nth ix l 0) = true.
Proof.
  revert ix. induction l as [|x l IH]; intros ix; cbn [position]; [discriminate|]. destruct (p x) eqn:E.
  - intros [= <-]. cbn. split; [lia|exact E].
  - destruct (position p l) as [j|]; [|discriminate]. cbn [option_map]. intros [= <-]. destruct (IH j eq_refl). cbn. split; [lia|assumption].
Qed.

Lemma bind_some {A B} (o : option A) (k : A -> option B) b : bind o k = Some b <-> exists a, o = Some a /\ k a = Some b.
Proof.
  destruct o as [a|]; cbn [bind]; split; try discriminate.
  - intros E. exists a. split; [reflexivity|exact E].
  - intros (a' & [= <-] & E). exact E.
  - intros (a' & E & _). discriminate.
Qed.

Section Bind.
  Variable g : graph.
  Variable strings : nat -> name.
  Variable T : targets.

  Lemma bind_condition_ok parent n d : bind_condition g parent n = Some d -> gr_type g n = Some d /\ has_fields d /\ overlap g parent d.
  Proof.
    unfold bind_condition. destruct (gr_type g n) as [[]|]; try discriminate.
    all: destruct (disjoint _ _) eqn:D; [discriminate|]; intros [= <-]; split; [reflexivity|]; split; [exact Logic.I|]; apply disjoint_false, D.
  Qed.
  Lemma field_named_ok d n f : field_named g d n = Some f -> has_fields d /\ In f (gr_fields g d) /\ f_name (gr_field g f) = n.
  Proof.
    unfold field_named. destruct d; try discriminate; intros F; apply find_some in F; destruct F as [I F]; apply name_eqb_eq in F;
      (split; [exact Logic.I|split; [exact I|exact F]]).
  Qed.
  Lemma composite_spec d : composite d = true <-> is_composite d.
  Proof. destruct d; cbn; split; try discriminate; auto; intros []. Qed.

  Lemma segments_leads l : forall d w p s, bind_segments g l d w = Some (p, s) -> leads g d l p (t_def s).
  Proof.
    induction l as [|x l IH]; intros d w p s; cbn [bind_segments]; [intros [= <- <-]; constructor|].
    destruct (field_named g d (SelectionMap.Model.g_field x)) as [f|] eqn:F; [|discriminate].
    apply field_named_ok in F. destruct F as (Hd & I & F). rewrite bind_some. intros (d' & N & B). apply bind_some in B.
    destruct B as ([p' s'] & B & [= <- <-]). apply (LdCons g d x l f p' d' (t_def s')); [exact Hd|exact I|exact F| |exact (IH _ _ _ _ B)].
    destruct (SelectionMap.Model.g_ty x) as [n|]; [|injection N as <-; constructor].
    destruct (composite (t_def (f_type (gr_field g f)))) eqn:C; [|discriminate]. apply bind_condition_ok in N. destruct N as (A & H & O).
    constructor; [apply composite_spec, C|exact A|exact H|exact O].
  Qed.
  Lemma path_leads src p l s : bind_path g src p = Some (l, s) -> leads_path g (t_def src) p l (t_def s).
  Proof.
    unfold bind_path. destruct (listp (t_wrap src)); [discriminate|]. destruct (composite (t_def src)) eqn:C; [|discriminate].
    apply composite_spec in C. rewrite bind_some. intros (d & N & B). exists d. split; [exact C|]. split; [|exact (segments_leads _ _ _ _ _ B)].
    destruct (p_ty p) as [n|]; [|injection N as <-; constructor]. apply bind_condition_ok in N. destruct N as (A & H & O).
    constructor; assumption.
  Qed.
  Definition bind_opt (src : tyref) (p : option path) : option (option (list nat) * tyref) :=
    match p with
    | None => Some (None, src)
    | Some p => bind (bind_path g src p) (fun '(p, s) => Some (Some p, s))
    end.
  Lemma opt_leads src p l s : bind_opt src p = Some (l, s) -> leads_opt g (t_def src) p l (t_def s).
  Proof.
    destruct p as [p|]; cbn [bind_opt]; [|intros [= <- <-]; constructor]. rewrite bind_some. intros ([l' s'] & B & [= <- <-]).
    constructor. apply path_leads, B.
  Qed.
  Lemma place_ok ts k ix : place strings T ts k = Some ix -> ix < List.length ts /\ strings (a_key T (nth ix ts 0)) = k.
  Proof. unfold place. intros P. apply position_some in P. destruct P as [L E]. apply name_eqb_eq in E. split; assumption. Qed.

  (** ** The targets left *)
  Lemma fill_ok {A} (id : A -> nat) mk : (forall t x, id (mk t x) = t) -> forall ts bs bs', fill T id mk ts bs = Some bs' ->
    exists ds, bs' = bs ++ ds /\
      Forall (fun d => exists t x, d = mk t x /\ a_missing T t = MDefault x /\ In t ts) ds /\
      (NoDup (map id bs) -> NoDup (map id bs')) /\
      (forall t, In t ts -> In t (map id bs') \/ a_missing T t = MProvidable \/ (a_missing T t = MNone /\ required (t_wrap (a_type T t)) = false)).
  Proof.
    intros Hid. induction ts as [|t ts IH]; intros bs bs'.
    - cbn. intros [= <-]. exists []. rewrite app_nil_r. split; [reflexivity|]. split; [constructor|]. split; [auto|intros t []].
    - cbn [fill].
      assert (K : forall bs1, fill T id mk ts bs1 = Some bs' -> (exists es, bs1 = bs ++ es /\
                  Forall (fun d => exists t x, d = mk t x /\ a_missing T t = MDefault x /\ In t (t :: ts)) es /\
                  Forall (fun d => exists x, d = mk t x /\ a_missing T t = MDefault x) es) -> (NoDup (map id bs) -> NoDup (map id bs1)) ->
                  (In t (map id bs1) \/ a_missing T t = MProvidable \/ (a_missing T t = MNone /\ required (t_wrap (a_type T t)) = false)) ->
                  exists ds, bs' = bs ++ ds /\
      Forall (fun d => exists t0 x, d = mk t0 x /\ a_missing T t0 = MDefault x /\ In t0 (t :: ts)) ds /\
      (NoDup (map id bs) -> NoDup (map id bs')) /\
      (forall t0, In t0 (t :: ts) -> In t0 (map id bs') \/ a_missing T t0 = MProvidable \/ (a_missing T t0 = MNone /\ required (t_wrap (a_type T t0)) = false))).
      { intros bs1 F (es & -> & _ & Es) ND In1. destruct (IH _ _ F) as (ds & -> & Ds & N & C). exists (es ++ ds).
        rewrite app_assoc. split; [reflexivity|]. split; [|split].
        - apply Forall_app. split.
          + eapply Forall_impl; [|exact Es]. intros d (x & E & M). exists t, x. split; [exact E|]. split; [exact M|left; reflexivity].
          + eapply Forall_impl; [|exact Ds]. intros d (t0 & x & E & M & I). exists t0, x. split; [exact E|]. split; [exact M|right; exact I].
        - intros H. apply N, ND, H.
        - intros t0 [<-|I]; [|exact (C _ I)]. destruct In1 as [I|R]; [left|right; exact R].
          rewrite map_app. apply in_or_app. left. exact I. }
      destruct (existsb (fun b => Nat.eqb (id b) t) bs) eqn:X.
      { intros F. apply (K bs F); [exists []; rewrite app_nil_r; split; [reflexivity|split; constructor]|auto|].
        left. apply existsb_exists in X. destruct X as (b & I & E). apply Nat.eqb_eq in E. subst t. apply in_map, I. }
      destruct (a_missing T t) as [|x|] eqn:M.
      + destruct (required (t_wrap (a_type T t))) eqn:R; [discriminate|]. intros F.
        apply (K bs F); [exists []; rewrite app_nil_r; split; [reflexivity|split; constructor]|auto|]. right. right. split; reflexivity.
      + intros F. apply (K _ F).
        * exists [mk t x]. split; [reflexivity|]. split; (constructor; [|constructor]).
          -- exists t, x. split; [reflexivity|]. split; [exact M|left; reflexivity].
          -- exists x. split; reflexivity.
        * intros H. rewrite map_app. cbn [map]. rewrite Hid. apply Permutation_NoDup with (l := t :: map id bs); [apply Permutation_cons_append|].
          constructor; [|exact H]. intros I. apply in_map_iff in I. destruct I as (b & E & I).
          assert (Y : existsb (fun b => Nat.eqb (id b) t) bs = true) by (apply existsb_exists; exists b; split; [exact I|apply Nat.eqb_eq, E]).
          congruence.
        * left. rewrite map_app. apply in_or_app. right. left. apply Hid.
      + intros F. apply (K bs F); [exists []; rewrite app_nil_r; split; [reflexivity|split; constructor]|auto|]. right. left. reflexivity.
  Qed.

  (** ** The functions without their inner loops *)
  Definition bind_entries (src : tyref) (t : nat) (w : ty) : list entry -> option (list bentry) :=
    fix go l := match l with
                | [] => Some []
                | e :: l => bind (bind_entry g strings T src t w e) (fun b => bind (go l) (fun l => Some (b :: l)))
                end.
  Definition bind_fields (s : tyref) : list ofield -> list nat -> option (list bofield * list nat) :=
    fix go fields ts :=
      match fields with
      | [] => Some ([], ts)
      | f :: fields => bind (bind_ofield g strings T s ts f) (fun '(b, ts) => bind (go fields ts) (fun '(l, ts) => Some (b :: l, ts)))
      end.
  Definition bind_afields (s : tyref) : list ofield -> list nat -> option (list aofield * list nat) :=
    fix go fields ts :=
      match fields with
      | [] => Some ([], ts)
      | f :: fields => bind (bind_afield g strings T s ts f) (fun '(b, ts) => bind (go fields ts) (fun '(l, ts) => Some (b :: l, ts)))
      end.
  Lemma bind_selected_eq src t w l : bind_selected g strings T src t w (Value l) = bind (bind_entries src t w l) (fun l => Some (BValue l)).
  Proof. reflexivity. Qed.
  Lemma bind_object_eq src t w p fields : bind_entry g strings T src t w (EObject p fields) =
    bind (bind_opt src p) (fun '(p, s) =>
        if listp w then None
        else if required w && negb (required (t_wrap s)) then None
        else match a_object T t with
             | None => None
             | Some (one_of, ts) =>
                 bind (bind_fields s fields ts) (fun '(bs, ts) =>
                 if one_of && Nat.ltb 1 (List.length bs) then None
                 else bind (fill T bo_id (fun t x => BOField t (BFDefault x)) ts bs) (fun bs => Some (BObject p bs)))
             end).
  Proof. reflexivity. Qed.
  Lemma bind_list_eq src t w p v : bind_entry g strings T src t w (EList p v) =
    bind (bind_opt src p) (fun '(p, s) =>
        if required w && negb (required (t_wrap s)) then None
        else match element w, element (t_wrap s) with
             | Some w', Some s' => bind (bind_selected g strings T (TyRef (t_def s) s') t w' v) (fun v => Some (BList p v))
             | _, _ => None
             end).
  Proof. reflexivity. Qed.
  Lemma bind_one_eq src t fields : bind_one g strings T src t (EObject None fields) =
    match a_object T t with
    | None => None
    | Some (one_of, ts) =>
        bind (bind_afields src fields ts) (fun '(bs, ts) =>
        if one_of && Nat.ltb 1 (List.length bs) then None
        else bind (fill T ao_id (fun t x => AOField t (AFValue (BFDefault x))) ts bs) (fun bs => Some (AObject bs)))
    end.
  Proof. reflexivity. Qed.

  Lemma bind_entries_spec src t w l l' : bind_entries src t w l = Some l' ->
    Forall2 (fun e b => bind_entry g strings T src t w e = Some b) l l'.
  Proof.
    revert l'. induction l as [|e l IH]; intros l'; [intros [= <-]; constructor|].
    change (bind_entries src t w (e :: l)) with (bind (bind_entry g strings T src t w e) (fun b => bind (bind_entries src t w l) (fun l => Some (b :: l)))).
    rewrite bind_some. intros (b & E & R). apply bind_some in R. destruct R as (l1 & L & [= <-]). constructor; [exact E|apply IH, L].
  Qed.
  (** Each field with targets of the object it takes one of. *)
  Lemma bind_ofield_takes s ts f b ts' : bind_ofield g strings T s ts f = Some (b, ts') -> Permutation ts (bo_id b :: ts').
  Proof.
    destruct f as [k v]. cbn [bind_ofield]. destruct (place strings T ts k) as [ix|] eqn:P; [|discriminate].
    apply place_ok in P. destruct P as [L _]. rewrite bind_some. intros (x & _ & [= <- <-]). cbn [bo_id]. apply swap_remove_perm, L.
  Qed.
  Lemma Forall2_with {A B} (P : A -> Prop) (R S : A -> B -> Prop) l l' :
    Forall P l -> Forall2 R l l' -> (forall a b, P a -> R a b -> S a b) -> Forall2 S l l'.
  Proof.
    intros F H K. revert F. induction H as [|a b l l' Hab _ IH]; intros F; [constructor|]. inversion F. subst. constructor; auto.
  Qed.
  Lemma Forall2_weaken {A B} (R S : A -> B -> Prop) l l' : (forall a b, R a b -> S a b) -> Forall2 R l l' -> Forall2 S l l'.
  Proof. intros K. induction 1; constructor; auto. Qed.

  Lemma bind_fields_spec s fields : forall ts bs ts', bind_fields s fields ts = Some (bs, ts') ->
    Permutation ts (map bo_id bs ++ ts') /\
    Forall2 (fun f b => exists ts1 ts2, bind_ofield g strings T s ts1 f = Some (b, ts2)) fields bs.
  Proof.
    induction fields as [|f fields IH]; intros ts bs ts'; [intros [= <- <-]; split; [reflexivity|constructor]|].
    change (bind_fields s (f :: fields) ts) with (bind (bind_ofield g strings T s ts f) (fun '(b, ts) => bind (bind_fields s fields ts) (fun '(l, ts) => Some (b :: l, ts)))).
    rewrite bind_some. intros ([b ts1] & B & R). apply bind_some in R. destruct R as ([l ts2] & L & [= <- <-]).
    pose proof (bind_ofield_takes _ _ _ _ _ B) as P. destruct (IH _ _ _ L) as [P' F]. split.
    - cbn [map app]. rewrite P. apply perm_skip, P'.
    - constructor; [exists ts, ts1; exact B|exact F].
  Qed.

  Lemma bind_object_inv src t w p fields b : bind_entry g strings T src t w (EObject p fields) = Some b ->
    exists l s one_of ts bs ts' ds, bind_opt src p = Some (l, s) /\ listp w = false /\ (required w = true -> required (t_wrap s) = true) /\
      a_object T t = Some (one_of, ts) /\ bind_fields s fields ts = Some (bs, ts') /\
      (one_of = true -> List.length bs <= 1) /\
      fill T bo_id (fun t x => BOField t (BFDefault x)) ts' bs = Some (bs ++ ds) /\ b = BObject l (bs ++ ds).
  Proof.
    rewrite bind_object_eq, bind_some. intros ([l s] & O & R). destruct (listp w) eqn:Lw; [discriminate|].
    destruct (required w && negb (required (t_wrap s))) eqn:Rq; [discriminate|].
    destruct (a_object T t) as [[one_of ts]|] eqn:A; [|discriminate]. apply bind_some in R. destruct R as ([bs ts'] & B & R).
    destruct (one_of && Nat.ltb 1 (List.length bs)) eqn:OO; [discriminate|]. apply bind_some in R. destruct R as (bs' & F & [= <-]).
    destruct (fill_ok bo_id (fun t x => BOField t (BFDefault x)) (fun _ _ => eq_refl) ts' bs bs' F) as (ds & -> & _).
    exists l, s, one_of, ts, bs, ts', ds. split; [exact O|]. split; [reflexivity|]. split.
    { intros W. rewrite W in Rq. cbn in Rq. destruct (required (t_wrap s)); [reflexivity|discriminate]. }
    split; [reflexivity|]. split; [exact B|]. split; [|split; [exact F|reflexivity]].
    intros ->. apply Nat.ltb_ge. exact OO.
  Qed.
  Lemma bind_list_inv src t w p v b : bind_entry g strings T src t w (EList p v) = Some b ->
    exists l s ew rw es rs bv, bind_opt src p = Some (l, s) /\ w = ListOf ew rw /\ t_wrap s = ListOf es rs /\
      (rw = true -> rs = true) /\ bind_selected g strings T (TyRef (t_def s) es) t ew v = Some bv /\ b = BList l bv.
  Proof.
    rewrite bind_list_eq, bind_some. intros ([l s] & O & R).
    destruct (required w && negb (required (t_wrap s))) eqn:Rq; [discriminate|].
    destruct w as [rw|ew rw]; [discriminate|]. cbn [element] in R. destruct (t_wrap s) as [rs|es rs] eqn:W; [discriminate|]. cbn [element] in R.
    apply bind_some in R. destruct R as (bv & B & [= <-]). exists l, s, ew, rw, es, rs, bv.
    split; [exact O|]. split; [reflexivity|]. split; [exact W|]. split; [|split; [exact B|reflexivity]].
    intros ->. cbn in Rq. destruct rs; [reflexivity|discriminate].
  Qed.
  Lemma bind_path_inv src t w p b : bind_entry g strings T src t w (EPath p) = Some b ->
    exists l f s, bind_path g src p = Some (l ++ [f], s) /\ compatible T (f_type (gr_field g f)) t w = true /\ b = BPath (l ++ [f]).
  Proof.
    cbn [bind_entry]. rewrite bind_some. intros ([l s] & P & R). destruct (rev l) as [|f l'] eqn:E; [discriminate|].
    assert (L : l = rev l' ++ [f]) by (rewrite <- (rev_involutive l), E; reflexivity).
    destruct (compatible T (f_type (gr_field g f)) t w) eqn:C; [|discriminate]. injection R as <-.
    exists (rev l'), f, s. rewrite <- L. split; [exact P|]. split; [exact C|reflexivity].
  Qed.
  Lemma bind_ofield_inv src ts k v b ts' : bind_ofield g strings T src ts (OField k v) = Some (b, ts') ->
    exists t, strings (a_key T t) = k /\
      match v with
      | Some v => exists bv, bind_selected g strings T src t (t_wrap (a_type T t)) v = Some bv /\ b = BOField t (BFValue bv)
      | None => exists f, listp (t_wrap src) = false /\ field_named g (t_def src) k = Some f /\
                  compatible T (f_type (gr_field g f)) t (t_wrap (a_type T t)) = true /\ b = BOField t (BFField f)
      end.
  Proof.
    cbn [bind_ofield]. destruct (place strings T ts k) as [ix|] eqn:P; [|discriminate]. apply place_ok in P. destruct P as [L E].
    rewrite bind_some. intros (x & R & [= <- <-]). exists (nth ix ts 0). split; [exact E|]. destruct v as [v|].
    - apply bind_some in R. destruct R as (bv & B & [= <-]). exists bv. split; [exact B|reflexivity].
    - destruct (listp (t_wrap src)); [discriminate|]. destruct (field_named g (t_def src) k) as [f|]; [|discriminate].
      destruct (compatible T _ _ _) eqn:C; [|discriminate]. injection R as <-.
      exists f. split; [reflexivity|]. split; [reflexivity|]. split; [exact C|reflexivity].
  Qed.

  (** ** Names *)
  Lemma resolves_all :
    (forall v src t w b, bind_selected g strings T src t w v = Some b -> resolves g strings T (t_def src) v b) /\
    (forall e src t w b, bind_entry g strings T src t w e = Some b -> resolves_entry g strings T (t_def src) e b) /\
    (forall f src ts b ts', bind_ofield g strings T src ts f = Some (b, ts') -> resolves_field g strings T (t_def src) f b).
  Proof.
    set (P := fun v => forall src t w b, bind_selected g strings T src t w v = Some b -> resolves g strings T (t_def src) v b).
    set (Q := fun e => forall src t w b, bind_entry g strings T src t w e = Some b -> resolves_entry g strings T (t_def src) e b).
    set (R := fun f => forall src ts b ts', bind_ofield g strings T src ts f = Some (b, ts') -> resolves_field g strings T (t_def src) f b).
    assert (HV : forall l, Forall Q l -> P (Value l)).
    { intros l F src t w b. rewrite bind_selected_eq, bind_some. intros (l' & B & [= <-]). constructor.
      apply bind_entries_spec in B. eapply Forall2_with; [exact F|exact B|]. intros e x Qe H. exact (Qe _ _ _ _ H). }
    assert (HI : Q Identity).
    { intros src t w b. cbn [bind_entry]. destruct (compatible T src t w); [|discriminate]. intros [= <-]. constructor. }
    assert (HP : forall p, Q (EPath p)).
    { intros p src t w b B. apply bind_path_inv in B. destruct B as (l & f & s & B & _ & ->). econstructor. apply path_leads, B. }
    assert (HO : forall p l, Forall R l -> Q (EObject p l)).
    { intros p l F src t w b B. apply bind_object_inv in B. destruct B as (l' & s & o & ts & bs & ts' & ds & O & _ & _ & _ & B & _ & Fl & ->).
      destruct (bind_fields_spec _ _ _ _ _ B) as [_ B'].
      destruct (fill_ok bo_id (fun t x => BOField t (BFDefault x)) (fun _ _ => eq_refl) _ _ _ Fl) as (ds' & E & D & _).
      apply app_inv_head in E. subst ds'.
      apply ReObject with (e := t_def s); [apply opt_leads, O| |].
      - eapply Forall2_with; [exact F|exact B'|]. intros f x Rf (ts1 & ts2 & H). exact (Rf _ _ _ _ H).
      - eapply Forall_impl; [|exact D]. intros d (t0 & x & E & M & _). exists t0, x. split; [exact E|exact M]. }
    assert (HL : forall p v, P v -> Q (EList p v)).
    { intros p v Pv src t w b B. apply bind_list_inv in B. destruct B as (l & s & ew & rw & es & rs & bv & O & _ & _ & _ & B & ->).
      apply ReList with (e := t_def s); [apply opt_leads, O|]. exact (Pv _ _ _ _ B). }
    assert (HN : forall k, R (OField k None)).
    { intros k src ts b ts' B. apply bind_ofield_inv in B. destruct B as (t & E & f & _ & F & _ & ->).
      apply field_named_ok in F. destruct F as (H & I & N). constructor; assumption. }
    assert (HS : forall k v, P v -> R (OField k (Some v))).
    { intros k v Pv src ts b ts' B. apply bind_ofield_inv in B. destruct B as (t & E & bv & B & ->).
      constructor; [exact E|]. exact (Pv _ _ _ _ B). }
    split; [exact (value_rec_ P Q R HV HI HP HO HL HN HS)|].
    split; [exact (entry_rec_ P Q R HV HI HP HO HL HN HS)|exact (field_rec_ P Q R HV HI HP HO HL HN HS)].
  Qed.

  (** ** Arguments *)
  Lemma bind_afield_takes src ts f b ts' : bind_afield g strings T src ts f = Some (b, ts') -> Permutation ts (ao_id b :: ts').
  Proof.
    destruct f as [k [v|]]; cbn [bind_afield].
    - destruct (place strings T ts k) as [ix|] eqn:P; [|discriminate]. apply place_ok in P. destruct P as [L _].
      rewrite bind_some. intros (x & _ & [= <- <-]). apply swap_remove_perm, L.
    - rewrite bind_some. intros ([[i x] ts1] & B & [= <- <-]). exact (bind_ofield_takes _ _ _ _ _ B).
  Qed.
  Lemma bind_afields_spec s fields : forall ts bs ts', bind_afields s fields ts = Some (bs, ts') ->
    Permutation ts (map ao_id bs ++ ts') /\
    Forall2 (fun f b => exists ts1 ts2, bind_afield g strings T s ts1 f = Some (b, ts2)) fields bs.
  Proof.
    induction fields as [|f fields IH]; intros ts bs ts'; [intros [= <- <-]; split; [reflexivity|constructor]|].
    change (bind_afields s (f :: fields) ts) with (bind (bind_afield g strings T s ts f) (fun '(b, ts) => bind (bind_afields s fields ts) (fun '(l, ts) => Some (b :: l, ts)))).
    rewrite bind_some. intros ([b ts1] & B & R). apply bind_some in R. destruct R as ([l ts2] & L & [= <- <-]).
    pose proof (bind_afield_takes _ _ _ _ _ B) as P. destruct (IH _ _ _ L) as [P' F]. split.
    - cbn [map app]. rewrite P. apply perm_skip, P'.
    - constructor; [exists ts, ts1; exact B|exact F].
  Qed.
  Definition as_afield (b : avalue) : afield := match b with AObject l => AFObject l | AValue v => AFValue (BFValue v) end.
  Lemma bind_afield_inv src ts k v b ts' : bind_afield g strings T src ts (OField k v) = Some (b, ts') ->
    match v with
    | Some v => exists t bv, strings (a_key T t) = k /\ bind_value g strings T src t v = Some bv /\ b = AOField t (as_afield bv)
    | None => exists t x, bind_ofield g strings T src ts (OField k None) = Some (BOField t x, ts') /\ b = AOField t (AFValue x)
    end.
  Proof.
    destruct v as [v|]; cbn [bind_afield].
    - destruct (place strings T ts k) as [ix|] eqn:P; [|discriminate]. apply place_ok in P. destruct P as [L E].
      rewrite bind_some. intros (x & B & [= <- <-]). exists (nth ix ts 0), x. split; [exact E|]. split; [exact B|reflexivity].
    - rewrite bind_some. intros ([[i x] ts1] & B & [= <- <-]). exists i, x. split; [exact B|reflexivity].
  Qed.
  Lemma bind_one_inv src t fields b : bind_one g strings T src t (EObject None fields) = Some b ->
    exists one_of ts bs ts' ds, a_object T t = Some (one_of, ts) /\ bind_afields src fields ts = Some (bs, ts') /\
      (one_of = true -> List.length bs <= 1) /\
      fill T ao_id (fun t x => AOField t (AFValue (BFDefault x))) ts' bs = Some (bs ++ ds) /\ b = AObject (bs ++ ds).
  Proof.
    rewrite bind_one_eq. destruct (a_object T t) as [[one_of ts]|] eqn:A; [|discriminate]. rewrite bind_some. intros ([bs ts'] & B & R).
    destruct (one_of && Nat.ltb 1 (List.length bs)) eqn:OO; [discriminate|]. apply bind_some in R. destruct R as (bs' & F & [= <-]).
    destruct (fill_ok ao_id (fun t x => AOField t (AFValue (BFDefault x))) (fun _ _ => eq_refl) ts' bs bs' F) as (ds & -> & _).
    exists one_of, ts, bs, ts', ds. split; [reflexivity|]. split; [exact B|]. split; [|split; [exact F|reflexivity]].
    intros ->. apply Nat.ltb_ge. exact OO.
  Qed.
  (** A value is an input object, or bound as any value. *)
  Lemma bind_value_cases src t v b : bind_value g strings T src t v = Some b ->
    (exists fields, v = Value [EObject None fields] /\ bind_one g strings T src t (EObject None fields) = Some b) \/
    (exists bv, bind_selected g strings T src t (t_wrap (a_type T t)) v = Some bv /\ b = AValue bv).
  Proof.
    assert (One : forall e, (forall fields, e <> EObject None fields) ->
      bind_one g strings T src t e = bind (bind_entry g strings T src t (t_wrap (a_type T t)) e) (fun b => Some (AValue (BValue [b])))).
    { intros e NE. destruct e as [|p|[p|] l|p v']; try reflexivity. destruct (NE l eq_refl). }
    destruct v as [[|e [|e' l]]].
    - intros B. right. cbn [bind_value] in B. apply bind_some in B. destruct B as (bv & B & [= <-]). exists bv. split; [exact B|reflexivity].
    - intros B. change (bind_one g strings T src t e = Some b) in B.
      assert (D : (exists fields, e = EObject None fields) \/ forall fields, e <> EObject None fields).
      { destruct e as [|p|[p|] l|p v']; try (right; discriminate). left. eexists. reflexivity. }
      destruct D as [(fields & ->)|NE]; [left; exists fields; split; [reflexivity|exact B]|]. right.
      rewrite (One e NE) in B. apply bind_some in B. destruct B as (be & B & [= <-]). exists (BValue [be]). split; [|reflexivity].
      rewrite bind_selected_eq. cbn [bind_entries]. rewrite B. reflexivity.
    - intros B. right. change (bind (bind_selected g strings T src t (t_wrap (a_type T t)) (Value (e :: e' :: l))) (fun b => Some (AValue b)) = Some b) in B.
      apply bind_some in B. destruct B as (bv & B & [= <-]). exists bv. split; [exact B|reflexivity].
  Qed.

  Lemma resolves_argument_all src :
    (forall v t b, bind_value g strings T src t v = Some b -> resolves_argument g strings T (t_def src) v b).
  Proof.
    destruct resolves_all as (RV & _ & RF).
    set (P := fun v => forall t b, bind_value g strings T src t v = Some b -> resolves_argument g strings T (t_def src) v b).
    set (Q := fun e => forall fields, e = EObject None fields -> P (Value [e])).
    set (R := fun f => forall ts b ts', bind_afield g strings T src ts f = Some (b, ts') -> resolves_afield g strings T (t_def src) f b).
    refine (value_rec_ P Q R _ _ _ _ _ _ _).
    - intros l F t b B. destruct (bind_value_cases _ _ _ _ B) as [(fields & [= ->] & _)|(bv & B' & ->)].
      + inversion F as [|? ? H _]. subst. exact (H fields eq_refl t b B).
      + constructor. exact (RV _ _ _ _ _ B').
    - intros ? E. discriminate.
    - intros ? ? E. discriminate.
    - intros p l F fields [= -> ->] t b B. destruct (bind_value_cases _ _ _ _ B) as [(fields' & [= <-] & B')|(bv & B' & ->)].
      + apply bind_one_inv in B'. destruct B' as (o & ts & bs & ts' & ds & _ & B' & _ & Fl & ->).
        destruct (bind_afields_spec _ _ _ _ _ B') as [_ S].
        destruct (fill_ok ao_id (fun t x => AOField t (AFValue (BFDefault x))) (fun _ _ => eq_refl) _ _ _ Fl) as (ds' & E & D & _).
        apply app_inv_head in E. subst ds'. constructor.
        * eapply Forall2_with; [exact F|exact S|]. intros f x Rf (ts1 & ts2 & H). exact (Rf _ _ _ H).
        * eapply Forall_impl; [|exact D]. intros d (t0 & x & E & M & _). exists t0, x. split; [exact E|exact M].
      + constructor. exact (RV _ _ _ _ _ B').
    - intros ? ? ? ? E. discriminate.
    - intros k ts b ts' B. apply bind_afield_inv in B. destruct B as (t & x & B & ->). constructor. exact (RF _ _ _ _ _ B).
    - intros k v Pv ts b ts' B. apply bind_afield_inv in B. destruct B as (t & bv & E & B & ->).
      specialize (Pv _ _ B). destruct bv as [l|bv]; cbn [as_afield].
      + constructor; [exact E|exact Pv].
      + constructor. constructor; [exact E|]. destruct (bind_value_cases _ _ _ _ B) as [(fields & -> & B')|(bv' & B' & [= <-])].
        * apply bind_one_inv in B'. destruct B' as (o & ts1 & bs & ts1' & ds & _ & _ & _ & _ & [=]).
        * exact (RV _ _ _ _ _ B').
  Qed.
End Bind.
