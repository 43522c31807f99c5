(** The query built: what it reads back to. *)
From Coq Require Import String Ascii List Arith Bool Lia.
From Verif.Outgoing Require Import Model Spec Text Vars.
Import ListNotations.
Local Open Scope string_scope.
Local Open Scope nat_scope.
Local Open Scope list_scope.

Section Build.
  Variable w : view.
  Variable client : list (string * ty).
  Variable eq_qq eq_qs : nat -> nat -> bool.
  Variable J : Type.
  Variable sem : value -> option J.
  Hypothesis view_fine : view_ok w.
  Hypothesis client_fine : client_ok client.
  Hypothesis sem_fine : forall a b, same_value eq_qq eq_qs a b = true -> sem a = sem b.

  Notation inv := (inv client).
  Notation wfield := (write_field w client eq_qq eq_qs).

  (** A writer writes the tokens of some [a], uses the variables [us a], adds only variables
      it uses. *)
  Definition yields {A : Type} (tk : A -> list tok) (us : A -> list string) (P : list qvar -> A -> Prop) (x : writer) : Prop :=
    forall vs, inv vs ->
      exists a ext s, x vs = (s, vs ++ ext) /\ lexes s (tk a) /\ inv (vs ++ ext)
        /\ (s = "" <-> tk a = [])
        /\ (forall vars, incl (vs ++ ext) vars -> P vars a)
        /\ incl (us a) (map qname (vs ++ ext)) /\ incl (map qname ext) (us a).

  Definition starts (x : writer) : Prop := forall vs, dstart (fst (x vs)).

  Lemma yields_conv {A B} tk us (P : list qvar -> A -> Prop) tk' us' (Q : list qvar -> B -> Prop) x :
    yields tk us P x ->
    (forall a, (exists vars, P vars a) ->
       exists b, tk' b = tk a /\ (forall s, In s (us' b) <-> In s (us a)) /\ forall vars, P vars a -> Q vars b) ->
    yields tk' us' Q x.
  Proof.
    intros H C vs I. destruct (H vs I) as (a & ext & s & E & L & I' & N & Pa & U1 & U2).
    destruct (C a) as (b & T & U & PQ).
    { exists (vs ++ ext). apply Pa. apply incl_refl. }
    exists b, ext, s. rewrite T. split; [exact E|]. split; [exact L|]. split; [exact I'|]. split; [exact N|].
    split; [intros vars Hv; apply PQ; now apply Pa|]. split.
    - intros z Hz. apply U1. now apply U.
    - intros z Hz. apply U. now apply U2.
  Qed.

  Lemma sapp_empty a b : (a ++ b)%string = "" <-> a = "" /\ b = "".
  Proof. destruct a; cbn; split; try easy; now intros [? ?]. Qed.

  Lemma yields_then {A B} tk us (P : list qvar -> A -> Prop) tk' us' (Q : list qvar -> B -> Prop) x y :
    yields tk us P x -> yields tk' us' Q y -> starts y ->
    yields (fun p => tk (fst p) ++ tk' (snd p)) (fun p => us (fst p) ++ us' (snd p))
           (fun vars p => P vars (fst p) /\ Q vars (snd p)) (then_ x y).
  Proof.
    intros H K D vs I. unfold then_.
    destruct (H vs I) as (a & ext & s & E & L & I' & N & Pa & U1 & U2).
    destruct (K (vs ++ ext) I') as (b & ext' & s' & E' & L' & I'' & N' & Qb & U1' & U2').
    rewrite E, E'. exists (a, b), (ext ++ ext'), (s ++ s')%string. cbn [fst snd].
    rewrite <- app_assoc in *.
    split; [reflexivity|]. split.
    { apply lexes_app; trivial. specialize (D (vs ++ ext)). now rewrite E' in D. }
    split; [exact I''|]. split.
    { rewrite sapp_empty, N, N'. split.
      - intros [-> ->]. reflexivity.
      - intros Z. apply app_eq_nil in Z. exact Z. }
    split.
    { intros vars Hv. split; [apply Pa|now apply Qb].
      intros z Hz. apply Hv. rewrite app_assoc. apply in_or_app. now left. }
    split.
    - intros z Hz. apply in_app_or in Hz as [Hz|Hz].
      + apply U1 in Hz. rewrite app_assoc, map_app. apply in_or_app. now left.
      + now apply U1'.
    - intros z Hz. rewrite map_app in Hz. apply in_app_or in Hz as [Hz|Hz]; apply in_or_app; [left; now apply U2|right; now apply U2'].
  Qed.

  Lemma yields_text s ts : lexes s ts -> (s = "" <-> ts = []) -> yields (fun _ : unit => ts) (fun _ => []) (fun _ _ => True) (text s).
  Proof.
    intros L N vs I. exists tt, [], s. rewrite app_nil_r. unfold text.
    split; [reflexivity|]. split; [exact L|]. split; [exact I|]. split; [exact N|]. split; [trivial|].
    split; intros z [].
  Qed.

  (** A closed piece before. *)
  Lemma yields_closed {A} s ts tk us (P : list qvar -> A -> Prop) x :
    closed s ts -> (s = "" <-> ts = []) -> yields tk us P x -> yields (fun a => ts ++ tk a) us P (then_ (text s) x).
  Proof.
    intros C N H vs I. unfold then_, text.
    destruct (H vs I) as (a & ext & s' & E & L & I' & N' & Pa & U1 & U2).
    rewrite E. exists a, ext, (s ++ s')%string. split; [reflexivity|]. split; [now apply closed_app|].
    split; [exact I'|]. split.
    { rewrite sapp_empty, N, N'. split; [now intros [-> ->]|]. intros Z. now apply app_eq_nil in Z. }
    split; [exact Pa|]. now split.
  Qed.

  (** Ignored characters before. *)
  Lemma yields_blank {A} s tk us (P : list qvar -> A -> Prop) x :
    closed s [] -> (forall a, tk a <> []) -> yields tk us P x -> yields tk us P (then_ (text s) x).
  Proof.
    intros C N H vs I. unfold then_, text.
    destruct (H vs I) as (a & ext & s' & E & L & I' & N' & Pa & U1 & U2).
    rewrite E. exists a, ext, (s ++ s')%string. split; [reflexivity|]. split; [now apply (closed_app s s' [])|].
    split; [exact I'|]. split.
    { rewrite sapp_empty. split; [now intros [_ Z]; apply N'|]. intros Z. now apply N in Z. }
    split; [exact Pa|]. now split.
  Qed.

  (** A piece of text after. *)
  Lemma yields_after {A} s ts tk us (P : list qvar -> A -> Prop) x :
    lexes s ts -> dstart s -> (s = "" <-> ts = []) -> yields tk us P x -> yields (fun a => tk a ++ ts) us P (then_ x (text s)).
  Proof.
    intros C D N H vs I. unfold then_, text.
    destruct (H vs I) as (a & ext & s' & E & L & I' & N' & Pa & U1 & U2).
    rewrite E. exists a, ext, (s' ++ s)%string. split; [reflexivity|]. split; [now apply lexes_app|].
    split; [exact I'|]. split.
    { rewrite sapp_empty, N, N'. split; [now intros [-> ->]|]. intros Z. now apply app_eq_nil in Z. }
    split; [exact Pa|]. now split.
  Qed.

  Lemma starts_then x y : starts x -> starts y -> starts (then_ x y).
  Proof.
    intros H K vs. unfold then_. specialize (H vs). destruct (x vs) as [s vs1].
    specialize (K vs1). destruct (y vs1) as [t vs2]. cbn [fst] in *.
    now destruct s.
  Qed.
  Lemma starts_text s : dstart s -> starts (text s).
  Proof. intros H vs. exact H. Qed.
  Lemma starts_all l : Forall starts l -> starts (all l).
  Proof. induction 1; cbn [all]; [now apply starts_text|now apply starts_then]. Qed.

  (** ** Lists of selections *)
  Definition sels_us (l : list asel) : list string := flat_map sel_vars l.
  Definition sel_yields (P : list qvar -> list asel -> Prop) (x : writer) : Prop :=
    yields (flat_map tsel) sels_us (fun vars l => Forall wfsel l /\ P vars l) x /\ starts x.

  Lemma sel_weaken (P Q : list qvar -> list asel -> Prop) x :
    sel_yields P x -> (forall vars l, P vars l -> Q vars l) -> sel_yields Q x.
  Proof.
    intros [H D] C. split; [|exact D]. apply (yields_conv _ _ _ _ _ _ _ H).
    intros a _. exists a. split; [reflexivity|]. split; [reflexivity|]. intros vars [A B]. split; [exact A|now apply C].
  Qed.

  Lemma sel_nothing : sel_yields (fun _ l => l = []) (text "").
  Proof.
    split; [|now apply starts_text].
    apply (yields_conv _ _ _ _ _ _ _ (yields_text "" [] (closed_lexes _ _ closed_nil) ltac:(easy))).
    intros [] _. exists []. split; [reflexivity|]. split; [reflexivity|]. intros _ _. split; [constructor|reflexivity].
  Qed.

  Lemma sel_then P Q x y : sel_yields P x -> sel_yields Q y ->
    sel_yields (fun vars l => exists l1 l2, l = l1 ++ l2 /\ P vars l1 /\ Q vars l2) (then_ x y).
  Proof.
    intros [H D] [K E]. split; [|now apply starts_then].
    apply (yields_conv _ _ _ _ _ _ _ (yields_then _ _ _ _ _ _ _ _ H K E)).
    intros [l1 l2] _. exists (l1 ++ l2). cbn [fst snd]. split; [apply flat_map_app|]. split.
    - intros s. unfold sels_us. now rewrite flat_map_app.
    - intros vars [[A1 A2] [B1 B2]]. split; [now apply Forall_app|]. now exists l1, l2.
  Qed.

  (** One after the other, with a predicate on each. *)
  Lemma sel_all {X} (P : X -> list qvar -> list asel -> Prop) (g : X -> writer) xs :
    (forall x, In x xs -> sel_yields (P x) (g x)) ->
    sel_yields (fun vars l => exists ls, l = concat ls /\ Forall2 (fun x s => P x vars s) xs ls) (all (map g xs)).
  Proof.
    induction xs as [|x xs IH]; intros H; cbn [map all].
    - apply (sel_weaken _ _ _ sel_nothing). intros vars l ->. exists []. split; [reflexivity|constructor].
    - eapply sel_weaken.
      + apply sel_then; [apply H; now left|apply IH; intros y Hy; apply H; now right].
      + cbn beta. intros vars l (l1 & l2 & -> & A & ls & -> & B). exists (l1 :: ls). split; [reflexivity|now constructor].
  Qed.

  Lemma sel_condition P e xs :
    sel_yields P (all xs) -> (forall vars l, P vars l -> l <> []) ->
    sel_yields (fun vars l => exists sub, l = [AInline (entity_name w e) sub] /\ P vars sub) (write_condition w e xs).
  Proof.
    intros [H D] NE. unfold write_condition. split.
    2:{ apply starts_then; [now apply starts_text|]. apply starts_then; [exact D|now apply starts_text]. }
    assert (N : is_name (entity_name w e) = true).
    { destruct e; [apply (names_o w view_fine)|apply (names_i w view_fine)]. }
    eapply yields_conv.
    - eapply (yields_closed _ (TkSpread :: TkName "on" :: TkName (entity_name w e) :: [TkP LBrace])).
      + change (" ... on " ++ entity_name w e ++ " {")%string with (" ... on " ++ (entity_name w e ++ " {"))%string.
        apply (closed_closed _ _ [TkSpread; TkName "on"] [TkName (entity_name w e); TkP LBrace] c_on).
        apply (lexes_closed _ _ [TkName (entity_name w e)] [TkP LBrace]); [now apply lexes_name|apply c_open|reflexivity|discriminate].
      + easy.
      + eapply (yields_after " }" [TkP RBrace]); [apply closed_lexes, c_close|reflexivity|easy|exact H].
    - cbn beta. intros sub (vars0 & W0 & P0). exists [AInline (entity_name w e) sub]. split.
      + cbn [flat_map tsel app]. now rewrite app_nil_r.
      + split.
        * intros s. unfold sels_us. cbn [flat_map sel_vars]. rewrite app_nil_r. reflexivity.
        * intros vars [A B]. split; [|now exists sub]. constructor; [|constructor]. constructor; [now apply (NE vars0)|exact A].
  Qed.

  (** ** Collected fields *)
  Lemma collects_app o l1 r1 l2 r2 : collects w o l1 r1 -> collects w o l2 r2 -> collects w o (l1 ++ l2) (r1 ++ r2).
  Proof.
    intros H K. induction H; cbn [app]; trivial.
    - now apply collects_skip.
    - now apply collects_field.
    - rewrite <- app_assoc. now apply collects_in.
    - now apply collects_out.
  Qed.

  Definition plain (a : asel) : Prop := exists al n args sub, a = AField al n args [] sub.

  Lemma collects_plain o l : Forall plain l -> collects w o l l.
  Proof. induction 1 as [|a l (al & n & args & sub & ->) _ IH]; [constructor|now apply collects_field]. Qed.

  Notation af vars := (asks_field w client J sem vars).
  Notation as_ vars := (asks w client J sem vars).

  Lemma asks_plain vars fs l : Forall2 (af vars) fs l -> Forall plain l.
  Proof. induction 1 as [|f a fs l H _ IH]; constructor; trivial. inversion H; subst; repeat eexists. Qed.

  (** What a planned field yields. *)
  Definition fieldP (f : pfield) (vars : list qvar) (l : list asel) : Prop :=
    exists a, l = [a] /\ af vars f a
      /\ forall p fs, In f fs -> (forall c, field_type f = Some c -> clean w (PComp c) (pdata f ++ plookup f)) -> spread w p fs a.

  Definition fieldsP (fs : list pfield) (vars : list qvar) (l : list asel) : Prop :=
    Forall2 (af vars) fs l
    /\ forall p all, incl fs all -> (forall f c, In f fs -> field_type f = Some c -> clean w (PComp c) (pdata f ++ plookup f)) ->
         Forall (spread w p all) l.

  Lemma sel_fields fs : (forall f, In f fs -> sel_yields (fieldP f) (wfield f)) ->
    sel_yields (fieldsP fs) (all (map wfield fs)).
  Proof.
    intros H. apply (sel_weaken _ _ _ (sel_all fieldP wfield fs H)).
    intros vars l (ls & -> & F). unfold fieldsP. clear H.
    induction F as [|f l fs ls (a & -> & A & S) _ [IH1 IH2]]; cbn [concat app].
    - split; constructor.
    - split; [now constructor|]. intros p al Inc C. constructor.
      + apply S; [apply Inc; now left|]. intros c Hc. apply (C f c); [now left|exact Hc].
      + apply IH2; [intros z Hz; apply Inc; now right|]. intros g c Hg. apply C. now right.
  Qed.

  Lemma fieldsP_ne f fs vars l : fieldsP (f :: fs) vars l -> l <> [].
  Proof. intros [H _]. inversion H. discriminate. Qed.

  Lemma satisfies_entity o e : satisfies w o (entity_name w e) <->
    match e with EObj o' => o = o' | EItf i => impl w o i = true end.
  Proof.
    destruct e as [o'|i]; cbn [entity_name]; split.
    - intros [H|(i & H & _)]; [now apply (inj_o w view_fine) in H|]. exfalso. symmetry in H. now apply (disj w view_fine) in H.
    - intros ->. now left.
    - intros [H|(j & H & K)]; [exfalso; now apply (disj w view_fine) in H|]. apply (inj_i w view_fine) in H. now subst j.
    - intros H. right. now exists i.
  Qed.

  (** ** One entity *)

  (** The fields of one entity, for the objects at a position. *)
  Definition entityP (p : ptype) (e : entity) (gs : list pfield) (vars : list qvar) (l : list asel) : Prop :=
    (forall o, possible w p o -> exists r, collects w o l r
       /\ (applies w e o -> Forall2 (af vars) gs r) /\ (~ applies w e o -> r = []))
    /\ forall fs, incl gs fs -> (forall g, In g gs -> pparent g = e) -> clean w p fs -> Forall (spread w p fs) l.

  Lemma clean_sub p fs g c : clean w p fs -> In g fs -> field_type g = Some c -> clean w (PComp c) (pdata g ++ plookup g).
  Proof. intros [? ? _ _ H]. apply H. Qed.

  Lemma fieldsP_plainfields gs vars l : fieldsP gs vars l ->
    forall a, In a l -> exists al n args dirs sub', a = AField al n args dirs sub'.
  Proof.
    intros [H _] a Ha. apply asks_plain in H. rewrite Forall_forall in H.
    destruct (H a Ha) as (al & n & args & sub & ->). repeat eexists.
  Qed.

  Lemma fieldsP_spread gs vars l p fs : fieldsP gs vars l -> incl gs fs -> clean w p fs -> Forall (spread w p fs) l.
  Proof.
    intros [_ H] Inc C. apply H; [exact Inc|]. intros f c Hf Hc. apply (clean_sub _ _ _ _ C); [now apply Inc|exact Hc].
  Qed.

  Definition comp_parent (c : ctype) : Prop := match c with CObj _ => False | _ => True end.

  Lemma fully_i_spec i : iexists w i = true -> (fully_i w i = true <-> forall o, In o (ipossible w i) -> impl w o i = true).
  Proof.
    intros E. unfold fully_i. rewrite negb_true_iff. rewrite E. split.
    - intros H o Ho. destruct (impl w o i) eqn:K; trivial. exfalso.
      assert (existsb (fun o => true && negb (impl w o i)) (ipossible w i) = true) as X; [|congruence].
      apply existsb_exists. exists o. split; trivial. now rewrite K.
    - intros H. destruct (existsb _ _) eqn:X; trivial. apply existsb_exists in X as (o & Ho & X).
      rewrite (H o Ho) in X. discriminate X.
  Qed.

  (** A single fragment on [e], where [e] holds of exactly the objects it should. *)
  Lemma condition_entity p e gs vars sub :
    (forall o, possible w p o -> (satisfies w o (entity_name w e) <-> applies w e o)) ->
    gs <> [] ->
    fieldsP gs vars sub -> entityP p e gs vars [AInline (entity_name w e) sub].
  Proof.
    intros H NE F. split.
    - intros o Po. specialize (H o Po).
      assert (D : applies w e o \/ ~ applies w e o).
      { destruct e as [o'|i]; cbn [applies]; [destruct (Nat.eq_dec o o'); auto|destruct (in_dec Nat.eq_dec o (ipossible w i)); auto]. }
      destruct D as [D|D].
      + exists (sub ++ []). split; [|split; [intros _; rewrite app_nil_r; apply F|easy]].
        apply collects_in; [now apply H| |constructor]. apply collects_plain. apply (asks_plain vars gs). apply F.
      + exists []. split; [|split; [easy|trivial]]. apply collects_out; [|constructor]. intros K. apply D. now apply H.
    - intros fs Inc Pa C. constructor; [|constructor]. apply Spread_fragment.
      + destruct gs as [|g gs]; [easy|].
        destruct C as [? ? Ov _ _]. destruct (Ov g) as (o & Po & Ao); [apply Inc; now left|].
        rewrite (Pa g) in Ao by now left. exists o. split; [exact Po|]. now apply H.
      + now apply (fieldsP_plainfields gs vars).
      + now apply (fieldsP_spread gs vars).
  Qed.

  Lemma entity_object p o gs vars sub : gs <> [] -> fieldsP gs vars sub ->
    entityP p (EObj o) gs vars [AInline (oname w o) sub].
  Proof. apply condition_entity. intros o' _. apply (satisfies_entity o' (EObj o)). Qed.

  (** The fragments on the objects an interface is not implemented by. *)
  Lemma object_fragments i c gs vars (ls : list (list asel)) os : gs <> [] ->
    Forall2 (fun o s => if impl w o i then s = [] else if fully w c || includes w c o then exists sub, s = [AInline (oname w o) sub] /\ fieldsP gs vars sub else s = []) os ls ->
    NoDup os ->
    forall o, possible w (PComp c) o -> comp_parent c ->
      exists r, collects w o (concat ls) r
        /\ (In o os -> impl w o i = false -> Forall2 (af vars) gs r)
        /\ (~ In o os \/ impl w o i = true -> r = []).
  Proof.
    intros NE F ND o Po Cp.
    assert (Inc : includes w c o = true).
    { destruct c; cbn in *; [easy|apply Po|apply Po]. }
    induction F as [|o' s os ls H F IH].
    - exists []. split; [constructor|]. now split.
    - inversion ND as [|? ? Ni ND']; subst. destruct (IH ND') as (r & C & A & B). clear IH.
      cbn [concat].
      assert (S : exists r1, collects w o s r1 /\ (o = o' -> impl w o i = false -> Forall2 (af vars) gs r1)
                  /\ (o <> o' \/ impl w o i = true -> r1 = [])).
      { destruct (impl w o' i) eqn:I.
        - subst s. exists []. split; [constructor|]. split; [|trivial]. intros -> K. congruence.
        - destruct (fully w c || includes w c o') eqn:O.
          + destruct H as (sub & -> & Fs).
            destruct (Nat.eq_dec o o') as [->|Ne].
            * exists (sub ++ []). split; [|split].
              -- apply collects_in; [now left| |constructor]. apply collects_plain. apply (asks_plain vars gs), Fs.
              -- intros _ _. rewrite app_nil_r. apply Fs.
              -- intros [K|K]; [easy|congruence].
            * exists []. split; [|split; [easy|trivial]].
              apply collects_out; [|constructor]. intros K. apply (satisfies_entity o (EObj o')) in K. easy.
          + subst s. exists []. split; [constructor|]. split; [|trivial].
            intros -> _. rewrite Inc in O. now rewrite orb_true_r in O. }
      destruct S as (r1 & C1 & A1 & B1). exists (r1 ++ r). split; [now apply collects_app|]. split.
      + intros [E|E] K.
        * subst o'. rewrite B by (left; exact Ni). rewrite app_nil_r. now apply A1.
        * rewrite B1; [now apply A|]. left. intros ->. easy.
      + intros K. rewrite B1, B; [reflexivity| |].
        * destruct K as [K|K]; [left|now right]. intros X. apply K. now right.
        * destruct K as [K|K]; [left|now right]. intros ->. apply K. now left.
  Qed.

  Lemma sel_entity c e gs :
    comp_parent c -> gs <> [] ->
    (match e with EItf i => iexists w i = true | EObj _ => True end) ->
    (forall g, In g gs -> sel_yields (fieldP g) (wfield g)) ->
    sel_yields (entityP (PComp c) e gs) (write_entity w c (e, map wfield gs)).
  Proof.
    intros Cp NE Pl H. pose proof (sel_fields gs H) as SF.
    assert (SC : forall e', sel_yields (fun vars l => exists sub, l = [AInline (entity_name w e') sub] /\ fieldsP gs vars sub) (write_condition w e' (map wfield gs))).
    { intros e'. apply sel_condition; [exact SF|]. intros vars l. destruct gs; [easy|]. apply fieldsP_ne. }
    destruct e as [o|i]; cbn [write_entity].
    - (* an object *)
      assert (No : forall vars, (forall o', possible w (PComp c) o' -> o' <> o) ->
                 forall l, l = [] -> entityP (PComp c) (EObj o) gs vars l).
      { intros vars No l ->. split; [|constructor]. intros o' Po. exists []. split; [constructor|]. split; [|trivial].
        intros A. cbn in A. exfalso. now apply (No o'). }
      destruct c as [oc|ic|u]; [easy| |].
      + destruct (impl w o ic) eqn:I.
        * apply (sel_weaken _ _ _ (SC (EObj o))). intros vars l (sub & -> & Fs). now apply entity_object.
        * apply (sel_weaken _ _ _ sel_nothing). intros vars l E. apply No; trivial. intros o' [K _] ->. congruence.
      + destruct (member w u o) eqn:I.
        * apply (sel_weaken _ _ _ (SC (EObj o))). intros vars l (sub & -> & Fs). now apply entity_object.
        * apply (sel_weaken _ _ _ sel_nothing). intros vars l E. apply No; trivial. intros o' [K _] ->. congruence.
    - (* an interface *)
      destruct (match c with CItf j => Nat.eqb i j | _ => false end) eqn:Same.
      { destruct c as [| j |]; try discriminate. apply Nat.eqb_eq in Same. subst j.
        apply (sel_weaken _ _ _ SF). intros vars l Fs. split.
        - intros o [Po _]. exists l. split; [apply collects_plain, (asks_plain vars gs), Fs|]. split; [intros _; apply Fs|].
          intros K. exfalso. apply K. now apply (impl_super w view_fine).
        - intros fs Inc _ C. now apply (fieldsP_spread gs vars). }
      destruct (fully_i w i) eqn:Fu.
      { apply (sel_weaken _ _ _ (SC (EItf i))). intros vars l (sub & -> & Fs). apply condition_entity; trivial.
        intros o Po. rewrite (satisfies_entity o (EItf i)). cbn [applies]. split.
        - apply (impl_super w view_fine).
        - apply fully_i_spec; trivial. }
      set (os := filter (oexists w) (ipossible w i)).
      assert (Nd : NoDup os) by (apply NoDup_filter, (possible_nodup w view_fine)).
      assert (A1 : sel_yields (fun vars l => exists ls, l = concat ls /\
        Forall2 (fun o s => if impl w o i then s = [] else if fully w c || includes w c o then exists sub, s = [AInline (oname w o) sub] /\ fieldsP gs vars sub else s = []) os ls)
        (all (map (fun o => if impl w o i then text "" else if fully w c || includes w c o then write_condition w (EObj o) (map wfield gs) else text "") os))).
      { apply (sel_all (fun o vars s => if impl w o i then s = [] else if fully w c || includes w c o then exists sub, s = [AInline (oname w o) sub] /\ fieldsP gs vars sub else s = [])).
        intros o _. destruct (impl w o i); [apply sel_nothing|].
        destruct (fully w c || includes w c o); [apply (SC (EObj o))|apply sel_nothing]. }
      assert (A2 : sel_yields (fun vars l => if existsb (fun o => impl w o i) os then exists sub, l = [AInline (iname w i) sub] /\ fieldsP gs vars sub else l = [])
        (if existsb (fun o => impl w o i) os then write_condition w (EItf i) (map wfield gs) else text "")).
      { destruct (existsb _ os); [apply (SC (EItf i))|apply sel_nothing]. }
      apply (sel_weaken _ _ _ (sel_then _ _ _ _ A1 A2)).
      intros vars l (l1 & l2 & -> & (ls & -> & F) & L2). split.
      + intros o Po.
        destruct (object_fragments i c gs vars ls os NE F Nd o Po Cp) as (r1 & C1 & R1 & Z1).
        assert (Eo : oexists w o = true) by (destruct c; [easy|apply Po|apply Po]).
        assert (Io : In o os <-> In o (ipossible w i)).
        { unfold os. rewrite filter_In. now rewrite Eo. }
        assert (S2 : exists r2, collects w o l2 r2 /\ (impl w o i = true -> Forall2 (af vars) gs r2) /\ (impl w o i = false -> r2 = [])).
        { destruct (existsb (fun o => impl w o i) os) eqn:Ex.
          - destruct L2 as (sub & -> & Fs). destruct (impl w o i) eqn:Im.
            + exists (sub ++ []). split; [|split; [intros _; rewrite app_nil_r; apply Fs|easy]].
              apply collects_in; [now apply (satisfies_entity o (EItf i))| |constructor].
              apply collects_plain, (asks_plain vars gs), Fs.
            + exists []. split; [|now split]. apply collects_out; [|constructor].
              intros K. apply (satisfies_entity o (EItf i)) in K. congruence.
          - subst l2. exists []. split; [constructor|]. split; [|trivial]. intros Im. exfalso.
            assert (existsb (fun o => impl w o i) os = true); [|congruence].
            apply existsb_exists. exists o. split; [|exact Im]. apply Io. now apply (impl_super w view_fine). }
        destruct S2 as (r2 & C2 & R2 & Z2). exists (r1 ++ r2). split; [now apply collects_app|]. cbn [applies].
        destruct (impl w o i) eqn:Im.
        * rewrite Z1 by now right. cbn [app]. split; [intros _; now apply R2|].
          intros K. exfalso. apply K. now apply (impl_super w view_fine).
        * rewrite (Z2 eq_refl), app_nil_r. split.
          -- intros K. apply R1; [now apply Io|reflexivity].
          -- intros K. apply Z1. left. now rewrite Io.
      + intros fs Inc Pa C. exfalso.
        destruct gs as [|g gs]; [easy|].
        inversion C as [? ? _ Fl _]; subst.
        assert (X : fully_i w i = true); [|congruence].
        apply fully_i_spec; trivial. apply (Fl g i); [apply Inc; now left|apply Pa; now left|].
        intros E. injection E as ->. now rewrite Nat.eqb_refl in Same.
  Qed.

  (** ** Groups of fields by entity *)
  Definition tagged (data : list pfield) : list (entity * pfield) := map (fun g => (pparent g, g)) data.

  Lemma chunk_map {A B} (g : A -> B) l : chunk (map (fun x => (fst x, g (snd x))) l) = map (fun c => (fst c, map g (snd c))) (chunk l).
  Proof.
    induction l as [|[e x] l IH]; [reflexivity|].
    cbn [map fst snd chunk]. rewrite IH. destruct (chunk l) as [|[e' xs] c]; [reflexivity|].
    cbn [map fst snd]. destruct (entity_eqb e e'); reflexivity.
  Qed.

  Lemma entity_eqb_eq a b : entity_eqb a b = true <-> a = b.
  Proof.
    destruct a, b; cbn; split; intros H; try easy; try (apply Nat.eqb_eq in H; congruence); injection H as ->; apply Nat.eqb_refl.
  Qed.

  Lemma chunk_groups data : concat (map snd (chunk (tagged data))) = data
    /\ Forall (fun c => snd c <> [] /\ forall g, In g (snd c) -> pparent g = fst c) (chunk (tagged data)).
  Proof.
    induction data as [|g data [IH1 IH2]]; [split; constructor|].
    unfold tagged in *. cbn [map chunk].
    destruct (chunk (map (fun g0 => (pparent g0, g0)) data)) as [|[e xs] c] eqn:E.
    - cbn in IH1. subst data. cbn. split; [reflexivity|]. constructor; [|constructor]. split; [discriminate|]. now intros ? [<-|[]].
    - destruct (entity_eqb (pparent g) e) eqn:Q.
      + apply entity_eqb_eq in Q. subst e. apply Forall_cons_iff in IH2 as [[N1 N2] N3].
        cbn in *. split; [now rewrite IH1|]. constructor; [|exact N3]. split; [discriminate|].
        intros h [<-|Hh]; [reflexivity|now apply N2].
      + cbn in *. split; [now rewrite IH1|]. constructor; [|exact IH2]. cbn. split; [discriminate|]. now intros ? [<-|[]].
  Qed.

  Lemma chunk_data data : chunk (map (fun g => (pparent g, wfield g)) data)
    = map (fun c => (fst c, map wfield (snd c))) (chunk (tagged data)).
  Proof. rewrite <- chunk_map. unfold tagged. rewrite map_map. reflexivity. Qed.

  (** ** A whole selection set *)
  Definition setP (p : ptype) (data lookup : list pfield) (vars : list qvar) (l : list asel) : Prop :=
    (forall o, possible w p o -> exists fs r, wanted w o (data ++ lookup) fs /\ collects w o l r /\ Forall2 (af vars) fs r)
    /\ (clean w p (data ++ lookup) -> Forall (spread w p (data ++ lookup)) l).

  Lemma applies_dec e o : {applies w e o} + {~ applies w e o}.
  Proof. destruct e as [o'|i]; cbn [applies]; [apply Nat.eq_dec|apply in_dec, Nat.eq_dec]. Qed.

  Lemma wanted_app o l1 r1 l2 r2 : wanted w o l1 r1 -> wanted w o l2 r2 -> wanted w o (l1 ++ l2) (r1 ++ r2).
  Proof. intros H K. induction H; cbn [app]; [exact K| |]; [now apply wanted_in|now apply wanted_out]. Qed.

  Lemma wanted_group o e gs : (forall g, In g gs -> pparent g = e) ->
    (applies w e o -> wanted w o gs gs) /\ (~ applies w e o -> wanted w o gs []).
  Proof.
    induction gs as [|g gs IH]; intros H; [split; constructor|].
    destruct IH as [A B]; [intros h Hh; apply H; now right|].
    specialize (H g (or_introl eq_refl)). split; intros K.
    - apply wanted_in; [now rewrite H|now apply A].
    - apply wanted_out; [now rewrite H|now apply B].
  Qed.

  Lemma groups_set p vars (cs : list (entity * list pfield)) ls :
    Forall (fun c => snd c <> [] /\ forall g, In g (snd c) -> pparent g = fst c) cs ->
    Forall2 (fun c s => entityP p (fst c) (snd c) vars s) cs ls ->
    (forall o, possible w p o -> exists fs r, wanted w o (concat (map snd cs)) fs /\ collects w o (concat ls) r /\ Forall2 (af vars) fs r)
    /\ (forall all, incl (concat (map snd cs)) all -> clean w p all -> Forall (spread w p all) (concat ls)).
  Proof.
    intros G F. induction F as [|[e gs] s cs ls [H1 H2] F IH].
    - split; [|constructor]. intros o _. exists [], []. split; [constructor|]. split; constructor.
    - inversion G as [|? ? [_ G1] G2]; subst. destruct (IH G2) as [I1 I2]. cbn [fst snd] in *.
      cbn [map concat snd]. split.
      + intros o Po. destruct (I1 o Po) as (fs & r & A & B & C).
        destruct (H1 o Po) as (r1 & D & E1 & E2).
        destruct (wanted_group o e gs G1) as [W1 W2].
        destruct (applies_dec e o) as [K|K].
        * exists (gs ++ fs), (r1 ++ r). split; [apply wanted_app; [now apply W1|exact A]|].
          split; [now apply collects_app|]. apply Forall2_app; [now apply E1|exact C].
        * exists ([] ++ fs), (r1 ++ r). split; [apply wanted_app; [now apply W2|exact A]|].
          split; [now apply collects_app|]. rewrite (E2 K). exact C.
      + intros al Inc Cl. apply Forall_app. split.
        * apply H2; trivial. intros z Hz. apply Inc. apply in_or_app. now left.
        * apply I2; trivial. intros z Hz. apply Inc. apply in_or_app. now right.
  Qed.

  Lemma wanted_all o l : (forall f, In f l -> applies w (pparent f) o) -> wanted w o l l.
  Proof. induction l as [|f l IH]; intros H; constructor; [apply H; now left|apply IH; intros g Hg; apply H; now right]. Qed.

  Lemma any_entity e gs vars sub : gs <> [] ->
    (match e with EItf i => iexists w i = true /\ forall o, In o (ipossible w i) -> oexists w o = true -> impl w o i = true | EObj _ => True end) ->
    fieldsP gs vars sub -> entityP PAny e gs vars [AInline (entity_name w e) sub].
  Proof.
    intros NE H Fs. apply condition_entity; trivial. intros o Po. rewrite satisfies_entity.
    destruct e as [o'|i]; cbn [applies]; [reflexivity|]. split; [apply (impl_super w view_fine)|].
    intros K. apply H; [exact K|exact Po].
  Qed.

  Lemma sel_set_fields p data lookup :
    (forall f, In f (data ++ lookup) -> sel_yields (fieldP f) (wfield f)) ->
    (forall f, In f data -> placed w p f) -> (forall f, In f lookup -> placed w p f) ->
    (lookup = [] \/ exists o, p = PComp (CObj o)) ->
    sel_yields (setP p data lookup)
      (write_set_fields w p (map (fun g => (pparent g, wfield g)) data) (map wfield lookup)).
  Proof.
    intros H Pd Pk Lk.
    assert (Groups : forall (g : entity * list writer -> writer), lookup = [] ->
      (forall c, In c (chunk (tagged data)) -> sel_yields (entityP p (fst c) (snd c)) (g (fst c, map wfield (snd c)))) ->
      sel_yields (setP p data lookup) (all (map g (chunk (map (fun g => (pparent g, wfield g)) data))))).
    { intros g -> Hg. rewrite chunk_data, map_map.
      apply (sel_weaken _ _ _ (sel_all (fun c => entityP p (fst c) (snd c)) (fun c => g (fst c, map wfield (snd c))) (chunk (tagged data)) Hg)).
      intros vars l (ls & -> & F). destruct (chunk_groups data) as [Cd Cg].
      destruct (groups_set p vars _ _ Cg F) as [A B]. rewrite Cd in A, B.
      unfold setP. rewrite !app_nil_r. split; [exact A|]. intros Cl. apply B; [apply incl_refl|exact Cl]. }
    assert (Gin : forall c, In c (chunk (tagged data)) -> snd c <> [] /\ (forall g, In g (snd c) -> pparent g = fst c) /\ incl (snd c) data).
    { intros c Hc. destruct (chunk_groups data) as [Cd Cg]. rewrite Forall_forall in Cg. destruct (Cg c Hc) as [A B].
      split; [exact A|]. split; [exact B|]. intros g Hg. rewrite <- Cd. apply in_concat. exists (snd c). split; [|exact Hg].
      now apply in_map. }
    destruct p as [|[oc|ic|u]]; cbn [write_set_fields].
    - (* entities *)
      assert (E : lookup = []) by (destruct Lk as [->|(o & Ho)]; [reflexivity|discriminate]).
      apply (Groups (fun c => write_condition w (fst c) (snd c)) E). intros c Hc. cbn [fst snd].
      destruct (Gin c Hc) as (NE & Gp & Gd).
      assert (SF : sel_yields (fieldsP (snd c)) (all (map wfield (snd c)))).
      { apply sel_fields. intros f Hf. apply H. apply in_or_app. left. now apply Gd. }
      eapply sel_weaken.
      + apply sel_condition; [exact SF|]. intros vars l. destruct (snd c); [easy|]. apply fieldsP_ne.
      + cbn beta. intros vars l (sub & -> & Fs). apply any_entity; trivial.
        destruct (snd c) as [|g gs] eqn:Ec; [easy|].
        specialize (Pd g (Gd g (or_introl eq_refl))). unfold placed in Pd. rewrite (Gp g (or_introl eq_refl)) in Pd.
        destruct (fst c); trivial.
    - (* an object *)
      rewrite map_map. cbn [snd].
      replace (map (fun x => wfield x) data ++ map wfield lookup) with (map wfield (data ++ lookup)) by now rewrite map_app.
      apply (sel_weaken _ _ _ (sel_fields _ H)). intros vars l Fs. split.
      + intros o Po. cbn in Po. subst o. exists (data ++ lookup), l. split.
        * apply wanted_all. intros f Hf. apply in_app_or in Hf as [Hf|Hf]; [apply (Pd f Hf)|apply (Pk f Hf)].
        * split; [apply collects_plain, (asks_plain vars _ _ (proj1 Fs))|apply Fs].
      + intros Cl. now apply (fieldsP_spread (data ++ lookup) vars); [|apply incl_refl|].
    - assert (E : lookup = []) by (destruct Lk as [->|(o & Ho)]; [reflexivity|discriminate]).
      apply (Groups (write_entity w (CItf ic)) E). intros c Hc. destruct (Gin c Hc) as (NE & Gp & Gd).
      apply sel_entity; trivial; [exact Logic.I| |intros f Hf; apply H, in_or_app; left; now apply Gd].
      destruct (snd c) as [|g gs] eqn:Ec; [easy|].
      specialize (Pd g (Gd g (or_introl eq_refl))). unfold placed in Pd. rewrite (Gp g (or_introl eq_refl)) in Pd.
      destruct (fst c); trivial.
    - assert (E : lookup = []) by (destruct Lk as [->|(o & Ho)]; [reflexivity|discriminate]).
      apply (Groups (write_entity w (CUni u)) E). intros c Hc. destruct (Gin c Hc) as (NE & Gp & Gd).
      apply sel_entity; trivial; [exact Logic.I| |intros f Hf; apply H, in_or_app; left; now apply Gd].
      destruct (snd c) as [|g gs] eqn:Ec; [easy|].
      specialize (Pd g (Gd g (or_introl eq_refl))). unfold placed in Pd. rewrite (Gp g (or_introl eq_refl)) in Pd.
      destruct (fst c); trivial.
  Qed.

  (** The tokens of a selection set with its braces. *)
  Definition braces (l : list asel) : list tok := TkP LBrace :: flat_map tsel l ++ [TkP RBrace].

  Definition subP (p : ptype) (typename : bool) (data lookup : list pfield) (vars : list qvar) (l : list asel) : Prop :=
    l <> [] /\ Forall wfsel l /\ as_ vars p typename data lookup l
    /\ (clean w p (data ++ lookup) -> Forall (spread w p (data ++ lookup)) l).

  Definition set_yields (P : list qvar -> list asel -> Prop) (x : writer) : Prop :=
    yields braces sels_us P x /\ starts x.

  Definition skip_field : asel := AField None "__typename" [] [("skip", [("if", AName "true")])] [].
  Definition typename_field : asel := AField None "__typename" [] [] [].

  Lemma sel_typename (b : bool) : sel_yields (fun _ l => l = if b then [typename_field] else []) (text (if b then " __typename" else "")).
  Proof.
    destruct b; [|apply sel_nothing]. split; [|now apply starts_text].
    apply (yields_conv _ _ _ _ _ _ _ (yields_text " __typename" [TkName "__typename"] l_typename ltac:(easy))).
    intros [] _. exists [typename_field]. split; [reflexivity|]. split; [reflexivity|].
    intros _ _. split; [|reflexivity]. constructor; [|constructor]. constructor. constructor.
  Qed.

  Lemma set_of_fields p typename data lookup wd wl :
    sel_yields (setP p data lookup) (write_set_fields w p wd wl) ->
    set_yields (subP p typename data lookup) (write_set w p typename wd wl).
  Proof.
    intros H. pose proof (sel_then _ _ _ _ (sel_typename typename) H) as [T _]. split.
    2:{ intros vs. unfold write_set. destruct (then_ _ _ vs). reflexivity. }
    intros vs I. unfold write_set.
    destruct (T vs I) as (l & ext & s & E & L & I' & N & P & U1 & U2). rewrite E. clear T H.
    assert (N' : Nat.eqb (String.length s) 0 = true <-> l = []).
    { rewrite Nat.eqb_eq, <- flat_tsel_nil, <- N. destruct s; cbn; easy. }
    destruct (Nat.eqb (String.length s) 0) eqn:Z.
    - (* nothing was written *)
      assert (l = []) by now apply N'. subst l. clear N'.
      exists [skip_field], ext. eexists. split; [reflexivity|]. split.
      { change (braces [skip_field]) with ([TkP LBrace] ++ ([TkName "__typename"; TkP At; TkName "skip"; TkP LParen; TkName "if"; TkP Colon; TkName "true"; TkP RParen] ++ [TkP RBrace])).
        apply closed_app; [apply c_open|]. apply closed_app; [apply c_skip|]. apply closed_lexes, c_close. }
      split; [exact I'|]. split; [easy|]. split.
      { intros vars Hv. destruct (P vars Hv) as [_ (l1 & l2 & El & El1 & S1 & S2)].
        symmetry in El. apply app_eq_nil in El as [-> ->].
        destruct typename; [discriminate El1|].
        split; [discriminate|]. split; [constructor; [constructor; constructor|constructor]|]. split.
        - constructor. intros o Po. destruct (S1 o Po) as (fs & r & A & B & C).
          exists fs, r. split; [exact A|]. split; [|exact C]. cbn [app]. apply collects_skip; [now left|exact B].
        - intros _. constructor; [constructor|constructor]. }
      split.
      + intros z [].
      + cbn. exact U2.
    - assert (l <> []). { intros K. apply N' in K. discriminate. }
      exists l, ext. eexists. split; [reflexivity|]. split.
      { change (braces l) with ([TkP LBrace] ++ (flat_map tsel l ++ [TkP RBrace])).
        apply closed_app; [apply c_open|]. apply lexes_app; [exact L|apply closed_lexes, c_close|reflexivity]. }
      split; [exact I'|]. split; [easy|]. split; [|now split].
      intros vars Hv. destruct (P vars Hv) as [Wf (l1 & l2 & -> & -> & S1 & S2)].
      split; [trivial|]. split; [exact Wf|]. split.
      + constructor. intros o Po. destruct (S1 o Po) as (fs & r & A & B & C).
        exists fs, r. split; [exact A|]. split; [|exact C].
        destruct typename; cbn [app]; [apply collects_field|]; exact B.
      + intros Cl. apply Forall_app. split; [|now apply S2].
        destruct typename; constructor; [constructor|constructor].
  Qed.

  (** ** Arguments *)
  Definition argP (a : string * ty * value) (vars : list qvar) (b : string * aval) : Prop :=
    asks_arg client J sem vars a b.

  Lemma yields_argument a : arg_ok client a ->
    yields targ (fun b => arg_vars [b]) (argP a) (write_argument client eq_qq eq_qs a).
  Proof.
    destruct a as [[n t] v]. intros (Hn & Ht & Hv). cbn [fst snd] in *.
    destruct v as [s|x|x|x|x]; cbn [write_argument].
    1:{ intros vs I. exists (n, AName s), [], (n ++ ": " ++ s)%string. rewrite app_nil_r. split; [reflexivity|]. split.
        { change (targ (n, AName s)) with ([TkName n] ++ ([TkP Colon] ++ [TkName s])).
          apply lexes_app; [now apply lexes_name| |reflexivity]. apply closed_app; [apply c_colon|now apply lexes_name]. }
        split; [exact I|]. split; [split; [intros E; apply sapp_empty in E as [E _]; subst n; discriminate|easy]|].
        split; [intros vars _; now split|]. split; intros z []. }
    all: intros vs I.
    all: match goal with |- context [get_or_insert _ _ _ _ ?v _] =>
      destruct (get_or_insert_spec client eq_qq eq_qs J sem t v vs sem_fine I Ht) as (q & ext & E & I' & Hq & Hs & Hty & Hx);
        [discriminate|intros y Ey; try discriminate Ey; try (injection Ey as <-; exact Hv)|] end.
    all: rewrite E; exists (n, AVar (qname q)), ext, (n ++ ": $" ++ qname q)%string.
    all: assert (Nq : is_name (qname q) = true)
      by (pose proof (inv_names client client_fine _ I') as F; rewrite Forall_forall in F; now apply F).
    all: split; [reflexivity|].
    all: split; [ change (targ (n, AVar (qname q))) with ([TkName n] ++ ([TkP Colon; TkP Dollar] ++ [TkName (qname q)]));
          apply lexes_app; [now apply lexes_name| |reflexivity]; apply closed_app; [apply c_colon_dollar|now apply lexes_name] |].
    all: split; [exact I'|].
    all: split; [split; [intros Z; apply sapp_empty in Z as [Z _]; subst n; discriminate|easy]|].
    all: split; [intros vars Hvars; split; [reflexivity|]; exists q; split; [reflexivity|]; split; [now apply Hvars|now split]|].
    all: cbn [arg_vars flat_map snd app]; split; [intros z [<-|[]]; now apply in_map|].
    all: destruct Hx as [->| ->]; cbn; [intros z []|apply incl_refl].
  Qed.

  Lemma yields_arguments l : Forall (arg_ok client) l ->
    yields targs arg_vars (fun vars b => Forall2 (asks_arg client J sem vars) l b) (write_arguments client eq_qq eq_qs l)
    /\ starts (write_arguments client eq_qq eq_qs l).
  Proof.
    intros H. destruct l as [|a l]; cbn [write_arguments].
    { split; [|now apply starts_text].
      apply (yields_conv _ _ _ _ _ _ _ (yields_text "" [] (closed_lexes _ _ closed_nil) ltac:(easy))).
      intros [] _. exists []. split; [reflexivity|]. split; [reflexivity|]. constructor. }
    apply Forall_cons_iff in H as [Ha Hl].
    assert (Rest : yields (flat_map targ) arg_vars (fun vars b => Forall2 (asks_arg client J sem vars) l b)
              (all (map (fun b => then_ (text ", ") (write_argument client eq_qq eq_qs b)) l))
            /\ starts (all (map (fun b => then_ (text ", ") (write_argument client eq_qq eq_qs b)) l))).
    { clear a Ha. induction Hl as [|x l Hx Hl [IH1 IH2]]; cbn [map all].
      - split; [|now apply starts_text].
        apply (yields_conv _ _ _ _ _ _ _ (yields_text "" [] (closed_lexes _ _ closed_nil) ltac:(easy))).
        intros [] _. exists []. split; [reflexivity|]. split; [reflexivity|]. constructor.
      - assert (S : starts (then_ (text ", ") (write_argument client eq_qq eq_qs x))).
        { intros vs. unfold then_, text. destruct (write_argument _ _ _ x vs). reflexivity. }
        split; [|now apply starts_then].
        apply (yields_conv _ _ _ _ _ _ _ (yields_then _ _ _ _ _ _ _ _ (yields_blank _ _ _ _ _ c_comma (fun a => ltac:(destruct a; discriminate) : targ a <> []) (yields_argument x Hx)) IH1 IH2)).
        intros [b bs] _. exists (b :: bs). cbn [fst snd]. split; [reflexivity|]. split.
        + intros z. cbn [arg_vars flat_map]. rewrite app_nil_r. reflexivity.
        + intros vars [A B]. now constructor. }
    destruct Rest as [R1 R2].
    assert (S1 : starts (then_ (all (map (fun b => then_ (text ", ") (write_argument client eq_qq eq_qs b)) l)) (text ")"))).
    { apply starts_then; [exact R2|now apply starts_text]. }
    split.
    2:{ intros vs. unfold then_ at 1, text at 1. destruct (then_ _ _ vs). reflexivity. }
    eapply yields_conv.
    - eapply (yields_closed "(" [TkP LParen]); [apply c_lparen|easy|].
      eapply yields_then; [apply (yields_argument a Ha)| |exact S1].
      eapply (yields_after ")" [TkP RParen]); [apply closed_lexes, c_rparen|reflexivity|easy|exact R1].
    - cbn beta. intros [b bs] _. exists (b :: bs). cbn [fst snd]. split.
      + cbn [targs flat_map]. rewrite <- app_assoc. reflexivity.
      + split.
        * intros z. cbn [arg_vars flat_map]. rewrite app_nil_r. reflexivity.
        * intros vars [A B]. now constructor.
  Qed.

  (** ** Fields *)
  Lemma pfield_ind' (P : pfield -> Prop) :
    (forall f, (forall g, In g (pdata f ++ plookup f) -> P g) -> P f) -> forall f, P f.
  Proof.
    intros H. fix IH 1. intros [e k n a t1 t2 b data lookup]. apply H. cbn [pdata plookup].
    intros g Hg. apply in_app_or in Hg as [Hg|Hg].
    - revert g Hg. induction data as [|d data IHd]; intros g [].
      + subst g. apply IH.
      + now apply IHd.
    - revert g Hg. induction lookup as [|d lookup IHd]; intros g [].
      + subst g. apply IH.
      + now apply IHd.
  Qed.

  Definition field_fine (f : pfield) : Prop :=
    is_name (pkey f) = true /\ is_name (pname f) = true /\ Forall (arg_ok client) (pargs f)
    /\ forall c, field_type f = Some c -> planned w client (PComp c) (pdata f) (plookup f).

  Lemma set_yields_planned p typename data lookup :
    planned w client p data lookup ->
    (forall f, In f (data ++ lookup) -> field_fine f -> sel_yields (fieldP f) (wfield f)) ->
    set_yields (subP p typename data lookup) (selection w client eq_qq eq_qs p typename data lookup).
  Proof.
    intros Pl H. inversion Pl as [? ? ? P1 P2 P3 P4 P5]; subst. unfold selection.
    apply set_of_fields. apply sel_set_fields; trivial.
    intros f Hf. apply H; trivial. destruct (P4 f Hf) as (A & B & C). split; [exact A|]. split; [exact B|]. split; [exact C|].
    intros c Hc. now apply P5.
  Qed.

  Lemma wfield_eq f : wfield f =
    then_ (text (" " ++ (if String.eqb (pkey f) (pname f) then pname f else pkey f ++ ": " ++ pname f)))
      (then_ (write_arguments client eq_qq eq_qs (pargs f))
        (match field_type f with
         | Some c => selection w client eq_qq eq_qs (PComp c) (ptypename f) (pdata f) (plookup f)
         | None => text ""
         end)).
  Proof. now destruct f as [e k n a [t1|] [t2|] b data lookup]. Qed.

  Lemma field_yields f : field_fine f -> sel_yields (fieldP f) (wfield f).
  Proof.
    induction f as [f IH] using pfield_ind'. intros (Nk & Nn & Ar & Pl).
    rewrite wfield_eq.
    destruct (yields_arguments (pargs f) Ar) as [A1 A2].
    set (alias := if String.eqb (pkey f) (pname f) then None else Some (pkey f)).
    set (th := (match alias with Some a => [TkName a; TkP Colon] | None => [] end) ++ [TkName (pname f)]).
    assert (Ka : answer_key alias (pname f) = pkey f).
    { unfold alias. destruct (String.eqb_spec (pkey f) (pname f)); [now symmetry|reflexivity]. }
    assert (Hd : yields (fun _ : unit => th) (fun _ => []) (fun _ _ => True)
              (text (" " ++ (if String.eqb (pkey f) (pname f) then pname f else pkey f ++ ": " ++ pname f)))).
    { apply yields_text.
      - apply (closed_app " " _ []); [apply c_space|]. unfold th, alias.
        destruct (String.eqb (pkey f) (pname f)).
        + now apply lexes_name.
        + apply (lexes_app (pkey f) _ [TkName (pkey f)] ([TkP Colon] ++ [TkName (pname f)])); [now apply lexes_name| |reflexivity].
          apply closed_app; [apply c_colon|now apply lexes_name].
      - unfold th. split; [discriminate|]. now destruct alias. }
    assert (Hs : starts (text (" " ++ (if String.eqb (pkey f) (pname f) then pname f else pkey f ++ ": " ++ pname f)))).
    { apply starts_text. reflexivity. }
    destruct (field_type f) as [c|] eqn:Tf.
    - assert (SY : set_yields (subP (PComp c) (ptypename f) (pdata f) (plookup f))
               (selection w client eq_qq eq_qs (PComp c) (ptypename f) (pdata f) (plookup f))).
      { apply set_yields_planned; [now apply Pl|]. intros g Hg. now apply IH. }
      destruct SY as [S1 S2]. split; [|now repeat apply starts_then].
      eapply yields_conv.
      + eapply yields_then; [exact Hd| |now apply starts_then]. eapply yields_then; [exact A1|exact S1|exact S2].
      + cbn beta. intros [[] [args sub]] (vars0 & _ & F0 & N0 & W0 & _). cbn [fst snd] in *.
        exists [AField alias (pname f) args [] sub]. split.
        { cbn [flat_map tsel app]. rewrite app_nil_r. unfold th, braces. rewrite <- app_assoc. destruct sub; [easy|reflexivity]. }
        split.
        { intros z. unfold sels_us. cbn [flat_map sel_vars app]. rewrite app_nil_r. reflexivity. }
        intros vars (_ & F & N & W & As & Sp). split; [constructor; [now constructor|constructor]|].
        eexists. split; [reflexivity|]. split.
        * apply (Asks_set w client J sem vars f alias args c); trivial.
        * intros p fs Hf Cl. apply (Spread_set w p fs f alias args c); trivial. apply Sp. now apply Cl.
    - split.
      2:{ apply starts_then; [exact Hs|]. apply starts_then; [exact A2|now apply starts_text]. }
      eapply yields_conv.
      + eapply yields_then; [exact Hd| |apply starts_then; [exact A2|now apply starts_text]].
        eapply yields_then; [exact A1|apply (yields_text "" [] (closed_lexes _ _ closed_nil) ltac:(easy))|now apply starts_text].
      + cbn beta. intros [[] [args []]] _. cbn [fst snd] in *.
        exists [AField alias (pname f) args [] []]. split.
        { cbn [flat_map tsel app]. rewrite !app_nil_r. unfold th. rewrite <- app_assoc. reflexivity. }
        split.
        { intros z. unfold sels_us. cbn [flat_map sel_vars app]. rewrite !app_nil_r. reflexivity. }
        intros vars (_ & F & _). split; [constructor; [constructor; constructor|constructor]|].
        eexists. split; [reflexivity|]. split.
        * now apply (Asks_leaf w client J sem vars f alias args).
        * intros p fs Hf _. now apply (Spread_leaf w p fs f).
  Qed.

  Theorem set_built p typename data lookup : planned w client p data lookup ->
    set_yields (subP p typename data lookup) (selection w client eq_qq eq_qs p typename data lookup).
  Proof. intros Pl. apply set_yields_planned; [exact Pl|]. intros f _. apply field_yields. Qed.

  (** ** Operations *)
  Definition defs (vs : list qvar) : list (string * ty) := map (fun q => (qname q, qty q)) vs.

  Lemma lexes_definitions vs : Forall (fun q => is_name (qname q) = true /\ ty_names (qty q) = true) vs ->
    lexes (definitions vs) (tvars (defs vs)).
  Proof.
    induction 1 as [|q vs [H1 H2] Hs IH]; [apply closed_lexes, closed_nil|].
    assert (One : lexes ("$" ++ qname q ++ ": " ++ ty_text (qty q)) ([TkP Dollar] ++ ([TkName (qname q)] ++ ([TkP Colon] ++ tty (qty q))))).
    { apply closed_app; [apply c_dollar|]. apply lexes_app; [now apply lexes_name| |reflexivity].
      apply closed_app; [apply c_colon|now apply lexes_ty]. }
    destruct vs as [|q' vs].
    - cbn [definitions]. cbn. rewrite app_nil_r. exact One.
    - change (definitions (q :: q' :: vs)) with ("$" ++ qname q ++ ": " ++ ty_text (qty q) ++ ", " ++ definitions (q' :: vs))%string.
      replace ("$" ++ qname q ++ ": " ++ ty_text (qty q) ++ ", " ++ definitions (q' :: vs))%string
        with (("$" ++ qname q ++ ": " ++ ty_text (qty q)) ++ (", " ++ definitions (q' :: vs)))%string by (rewrite !sapp_assoc; reflexivity).
      change (tvars (defs (q :: q' :: vs))) with (([TkP Dollar] ++ ([TkName (qname q)] ++ ([TkP Colon] ++ tty (qty q)))) ++ ([] ++ tvars (defs (q' :: vs)))).
      apply lexes_app; [exact One| |reflexivity]. apply closed_app; [apply c_comma|exact IH].
  Qed.

  Lemma lex_end s ts : lexes s ts -> lex "" s = Some ts.
  Proof. intros H. specialize (H "" Logic.I). rewrite sapp_nil in H. rewrite H. cbn. now rewrite app_nil_r. Qed.

  Lemma p_op_vars k vars sels :
    k = "query" \/ k = "mutation" \/ k = "subscription" -> sels <> [] -> Forall wfsel sels ->
    p_op (TkName k :: (match vars with [] => [] | _ => TkP LParen :: tvars vars ++ [TkP RParen] end) ++ braces sels)
    = Some (AOp k vars sels).
  Proof.
    intros Hk N W. unfold p_op.
    set (fuel := S (length _)).
    assert (K : String.eqb k "query" || String.eqb k "mutation" || String.eqb k "subscription" = true).
    { destruct Hk as [-> | [-> | ->]]; reflexivity. }
    rewrite K.
    assert (F1 : length (flat_map tsel sels) < fuel).
    { unfold fuel, braces. cbn [List.length]. rewrite app_length. cbn [List.length]. rewrite app_length. lia. }
    assert (F2 : length (tvars vars) < fuel).
    { unfold fuel. cbn [List.length]. rewrite app_length. destruct vars as [|d vars]; [cbn; lia|].
      cbn [List.length]. rewrite app_length. lia. }
    clearbody fuel.
    assert (B : p_sels fuel (flat_map tsel sels ++ [TkP RBrace]) = Some (sels, [])).
    { apply (p_sels_ok (length (flat_map tsel sels))); trivial. }
    destruct vars as [|d vars].
    - cbn [app braces]. rewrite B. destruct sels; [easy|reflexivity].
    - cbn [app]. rewrite <- app_assoc. cbn [app].
      rewrite p_vars_ok by exact F2. unfold braces. rewrite B. destruct sels; [easy|reflexivity].
  Qed.

  Lemma kind_words k : kind_text k = "query" \/ kind_text k = "mutation" \/ kind_text k = "subscription".
  Proof. destruct k; auto. Qed.

  Lemma kind_name k : is_name (kind_text k) = true.
  Proof. now destruct k. Qed.

  (** What the operation is, for a query from a root object. *)
  Theorem build_reads k o typename data lookup s vs :
    planned w client (PComp (CObj o)) data lookup ->
    build w client eq_qq eq_qs k o typename data lookup = (s, vs) ->
    exists sels, parse s = Some (AOp (kind_text k) (defs vs) sels)
      /\ inv vs /\ (forall vars, incl vs vars -> subP (PComp (CObj o)) typename data lookup vars sels)
      /\ incl (sels_us sels) (map qname vs) /\ incl (map qname vs) (sels_us sels).
  Proof.
    intros Pl. unfold build.
    destruct (set_built _ typename _ _ Pl) as [H D].
    destruct (H [] (inv_nil client)) as (sels & ext & b & E & L & I & N & P & U1 & U2).
    specialize (D []). cbn [app] in *. rewrite E in *. cbn [fst] in D.
    intros R. pose proof (f_equal fst R) as R1. pose proof (f_equal snd R) as R2. cbn [fst snd] in R1, R2. subst s vs. clear R. exists sels.
    split; [|split; [exact I|split; [exact P|now split]]].
    unfold parse.
    assert (X : lexes (kind_text k ++ (match ext with [] => "" | _ => "(" ++ definitions ext ++ ")" end) ++ b)
              ([TkName (kind_text k)] ++ ((match defs ext with [] => [] | _ => TkP LParen :: tvars (defs ext) ++ [TkP RParen] end) ++ braces sels))).
    { apply lexes_app; [apply lexes_name, kind_name| |].
      - destruct ext as [|q ext].
        + cbn. exact L.
        + apply lexes_app; [|exact L|exact D].
          change (match defs (q :: ext) with [] => [] | _ :: _ => TkP LParen :: tvars (defs (q :: ext)) ++ [TkP RParen] end)
            with ([TkP LParen] ++ (tvars (defs (q :: ext)) ++ [TkP RParen])).
          apply closed_app; [apply c_lparen|]. apply lexes_app; [|apply closed_lexes, c_rparen|reflexivity].
          apply lexes_definitions. now apply (inv_names client client_fine).
      - destruct ext; [exact D|reflexivity]. }
    rewrite (lex_end _ _ X). cbn [app].
    destruct (P ext (incl_refl _)) as (Ns & Ws & _).
    apply p_op_vars; trivial. apply kind_words.
  Qed.

  (** And for entities. *)
  Theorem entities_reads typename data lookup s x vs :
    planned w client PAny data lookup ->
    build_entities w client eq_qq eq_qs typename data lookup = (s, x, vs) ->
    exists sub, parse s = Some (AOp "query" ((x, TList (TName "_Any" true) true) :: defs vs)
                                    [AField None "_entities" [("representations", AVar x)] [] sub])
      /\ x = gname 0 (length vs)
      /\ inv vs /\ (forall vars, incl vs vars -> subP PAny typename data lookup vars sub)
      /\ incl (sels_us sub) (map qname vs) /\ incl (map qname vs) (sels_us sub).
  Proof.
    intros Pl. unfold build_entities.
    destruct (set_built _ typename _ _ Pl) as [H D].
    destruct (H [] (inv_nil client)) as (sub & ext & b & E & L & I & N & P & U1 & U2).
    specialize (D []). cbn [app] in *. rewrite E in *. cbn [fst] in D.
    change ("var" ++ decimal (length ext))%string with (gname 0 (length ext)).
    intros R. pose proof (f_equal (fun z => fst (fst z)) R) as R1. pose proof (f_equal (fun z => snd (fst z)) R) as R2.
    pose proof (f_equal snd R) as R3. cbn [fst snd] in R1, R2, R3. subst s x vs. clear R. exists sub.
    split; [|split; [reflexivity|split; [exact I|split; [exact P|now split]]]].
    unfold parse.
    set (x := gname 0 (length ext)).
    assert (Nx : is_name x = true) by apply gname_name.
    set (vars := (x, TList (TName "_Any" true) true) :: defs ext).
    destruct (P ext (incl_refl _)) as (Ns & Ws & _).
    set (sels := [AField None "_entities" [("representations", AVar x)] [] sub]).
    assert (X : lexes ("query($" ++ x ++ ": [_Any!]!" ++ (match ext with [] => "" | _ => "," ++ definitions ext end)
      ++ ") { _entities(representations: $" ++ x ++ ")" ++ b ++ " }")
       ([TkName "query"; TkP LParen; TkP Dollar] ++ ([TkName x] ++ ((TkP Colon :: tty (TList (TName "_Any" true) true)) ++ (tvars (defs ext)
         ++ ([TkP RParen; TkP LBrace; TkName "_entities"; TkP LParen; TkName "representations"; TkP Colon; TkP Dollar] ++ ([TkName x] ++ ([TkP RParen] ++ (braces sub ++ [TkP RBrace]))))))))).
    { apply closed_app; [lexc|]. apply lexes_app; [now apply lexes_name| |reflexivity].
      apply closed_app; [lexc|]. apply lexes_app; [| |destruct ext; reflexivity].
      - destruct ext as [|q ext]; [apply closed_lexes, closed_nil|].
        apply (closed_app "," _ []); [apply c_comma1|]. apply lexes_definitions. now apply (inv_names client client_fine).
      - apply closed_app; [lexc|]. apply lexes_app; [now apply lexes_name| |reflexivity].
        apply closed_app; [apply c_rparen|]. apply lexes_app; [exact L|apply closed_lexes, c_close|reflexivity]. }
    rewrite (lex_end _ _ X).
    transitivity (p_op (TkName "query" :: (match vars with [] => [] | _ => TkP LParen :: tvars vars ++ [TkP RParen] end) ++ braces sels)).
    - f_equal. unfold vars, sels, braces. cbn [tvars flat_map fst snd app tsel targs targ tval].
      destruct sub as [|a sub]; [easy|].
      change (flat_map (fun d : string * ty => TkP Dollar :: TkName (fst d) :: TkP Colon :: tty (snd d)) (defs ext)) with (tvars (defs ext)).
      cbn [tty app]. rewrite <- !app_assoc. cbn [app]. repeat (rewrite <- ?app_assoc; cbn [app]). rewrite ?app_nil_r. reflexivity.
    - apply p_op_vars; [now left|discriminate|]. constructor; [now constructor|constructor].
  Qed.

  (** ** No injected value among the variables *)
  Definition not_injected (q : qvar) : Prop := forall i, qvalue q <> VInjection i.
  Definition keeps (x : writer) : Prop := forall vs, Forall not_injected vs -> Forall not_injected (snd (x vs)).

  Lemma keeps_text s : keeps (text s). Proof. intros vs H. exact H. Qed.
  Lemma keeps_then x y : keeps x -> keeps y -> keeps (then_ x y).
  Proof.
    intros H K vs I. unfold then_. specialize (H vs I). destruct (x vs) as [s vs1]. cbn in H.
    specialize (K vs1 H). now destruct (y vs1).
  Qed.
  Lemma keeps_all l : Forall keeps l -> keeps (all l).
  Proof. induction 1; cbn [all]; [apply keeps_text|now apply keeps_then]. Qed.

  Lemma keeps_argument a : (forall i, snd a <> VInjection i) -> keeps (write_argument client eq_qq eq_qs a).
  Proof.
    destruct a as [[n t] v]. cbn [snd]. intros H. destruct v as [s|x|x|x|x]; cbn [write_argument]; [apply keeps_text| | | |now destruct (H x)].
    all: intros vs I; unfold get_or_insert; destruct (find _ vs); cbn [snd]; trivial.
    all: apply Forall_app; split; [exact I|]; constructor; [|constructor]; intros i; discriminate.
  Qed.

  Lemma keeps_arguments l : (forall a, In a l -> forall i, snd a <> VInjection i) -> keeps (write_arguments client eq_qq eq_qs l).
  Proof.
    intros H. destruct l as [|a l]; cbn [write_arguments]; [apply keeps_text|].
    repeat apply keeps_then; try apply keeps_text; [apply keeps_argument, H; now left|].
    apply keeps_all. apply Forall_forall. intros x Hx. apply in_map_iff in Hx as (b & <- & Hb).
    apply keeps_then; [apply keeps_text|]. apply keeps_argument, H. now right.
  Qed.

  Lemma keeps_condition e l : Forall keeps l -> keeps (write_condition w e l).
  Proof. intros H. unfold write_condition. repeat apply keeps_then; try apply keeps_text. now apply keeps_all. Qed.

  Lemma keeps_entity c e l : Forall keeps l -> keeps (write_entity w c (e, l)).
  Proof.
    intros H. unfold write_entity. destruct e as [o|i].
    - destruct c as [|i|u]; [apply keeps_text|destruct (impl w o i)|destruct (member w u o)];
        (apply keeps_text || now apply keeps_condition).
    - destruct (match c with CItf j => Nat.eqb i j | _ => false end); [now apply keeps_all|].
      destruct (fully_i w i); [now apply keeps_condition|].
      apply keeps_then; [|destruct (existsb _ _); [now apply keeps_condition|apply keeps_text]].
      apply keeps_all. apply Forall_forall. intros x Hx. apply in_map_iff in Hx as (o & <- & _).
      destruct (impl w o i); [apply keeps_text|]. destruct (_ || _); [now apply keeps_condition|apply keeps_text].
  Qed.

  Lemma keeps_set p typename data lookup :
    (forall f, In f (data ++ lookup) -> keeps (wfield f)) -> keeps (selection w client eq_qq eq_qs p typename data lookup).
  Proof.
    intros H.
    assert (Fs : forall l, incl l (data ++ lookup) -> Forall keeps (map wfield l)).
    { intros l Inc. apply Forall_forall. intros x Hx. apply in_map_iff in Hx as (f & <- & Hf). now apply H, Inc. }
    assert (K : keeps (write_set_fields w p (map (fun g => (pparent g, wfield g)) data) (map wfield lookup))).
    { assert (G : forall g : entity * list writer -> writer, (forall e l, Forall keeps l -> keeps (g (e, l))) ->
              keeps (all (map g (chunk (map (fun g => (pparent g, wfield g)) data))))).
      { intros g Hg. rewrite chunk_data, map_map. apply keeps_all. apply Forall_forall. intros x Hx.
        apply in_map_iff in Hx as (c & <- & Hc). apply Hg. apply Fs. intros f Hf.
        destruct (chunk_groups data) as [Cd _]. apply in_or_app. left. rewrite <- Cd. apply in_concat.
        exists (snd c). split; [now apply in_map|exact Hf]. }
      destruct p as [|[oc|ic|u]]; cbn [write_set_fields].
      - apply (G (fun c => write_condition w (fst c) (snd c))). intros e l. apply keeps_condition.
      - rewrite map_map. cbn [snd]. apply keeps_all. apply Forall_app. split; apply Fs; [now apply incl_appl, incl_refl|now apply incl_appr, incl_refl].
      - apply G. intros e l. apply keeps_entity.
      - apply G. intros e l. apply keeps_entity. }
    unfold selection, write_set. intros vs I.
    assert (T : keeps (then_ (text (if typename then " __typename" else "")) (write_set_fields w p (map (fun g => (pparent g, wfield g)) data) (map wfield lookup)))).
    { apply keeps_then; [apply keeps_text|exact K]. }
    specialize (T vs I). now destruct (then_ _ _ vs).
  Qed.

  Lemma keeps_field f : (forall a, In a (pargs f) -> forall i, snd a <> VInjection i) ->
    no_injection (pdata f) (plookup f) -> keeps (wfield f).
  Proof.
    induction f as [f IH] using pfield_ind'. intros Ha Hn. rewrite wfield_eq.
    apply keeps_then; [apply keeps_text|]. apply keeps_then; [now apply keeps_arguments|].
    destruct (field_type f); [|apply keeps_text]. apply keeps_set.
    inversion Hn as [? ? A B]; subst. intros g Hg. apply IH; trivial; [|now apply B]. intros a Hx. now apply (A g a).
  Qed.

  Theorem kept p typename data lookup s vs : no_injection data lookup ->
    selection w client eq_qq eq_qs p typename data lookup [] = (s, vs) -> Forall not_injected vs.
  Proof.
    intros Hn E. inversion Hn as [? ? A B]; subst.
    assert (K : keeps (selection w client eq_qq eq_qs p typename data lookup)).
    { apply keeps_set. intros f Hf. apply keeps_field; [|now apply B]. intros a Hx. now apply (A f a). }
    specialize (K [] (Forall_nil _)). now rewrite E in K.
  Qed.

  Lemma sent_spec vs : Forall not_injected vs -> NoDup (map qname vs) ->
    exists l, sent_variables J sem vs = Some l
      /\ (forall x j, In (x, j) l <-> exists q, In q vs /\ qname q = x /\ sem (qvalue q) = Some j)
      /\ NoDup (map fst l).
  Proof.
    induction vs as [|q vs IH]; intros H N.
    - exists []. split; [reflexivity|]. split; [|constructor]. intros x j. split; [intros []|intros (q & [] & _)].
    - apply Forall_cons_iff in H as [Hq Hs]. inversion N as [|? ? N1 N2]; subst.
      destruct (IH Hs N2) as (l & E & S & D). cbn [sent_variables]. rewrite E.
      assert (R : exists l', (match qvalue q with VInjection _ => None | v => Some (match sem v with Some j => (qname q, j) :: l | None => l end) end) = Some l'
                /\ l' = match sem (qvalue q) with Some j => (qname q, j) :: l | None => l end).
      { destruct (qvalue q) eqn:V; try (eexists; split; reflexivity). exfalso. now apply (Hq v). }
      destruct R as (l' & R1 & R2). exists l'. split; [exact R1|]. subst l'. split.
      + intros x j. destruct (sem (qvalue q)) as [j0|] eqn:Z; cbn [In]; rewrite S; split.
        * intros [K|(q' & A & B)]; [injection K as <- <-; exists q; auto|exists q'; auto].
        * intros (q' & [<-|A] & B & C); [left; congruence|right; now exists q'].
        * intros (q' & A & B). exists q'; auto.
        * intros (q' & [<-|A] & B & C); [congruence|now exists q'].
      + assert (X : ~ In (qname q) (map fst l)).
        { intros K. apply in_map_iff in K as ([x j] & Ex & Hx). cbn in Ex. apply S in Hx as (q' & A & B & _).
          apply N1. rewrite <- Ex, <- B. now apply in_map. }
        destruct (sem (qvalue q)); [constructor|]; trivial.
  Qed.
End Build.
