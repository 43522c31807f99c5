(** C106: what a rendered template contains. *)
From Coq Require Import String Ascii List NArith Bool Lia PeanoNat.
From Verif Require Import ExtArgs.Template ExtArgs.TemplateSpec ExtArgs.TemplateText.
Import ListNotations.
Local Open Scope string_scope.
Local Open Scope list_scope.

(** *** Names *)

Lemma split_nonempty : forall s, split_dots s <> [].
Proof. intros [|c s]; cbn; [discriminate|]. destruct (code c =? 46)%N; [discriminate|]. now destruct (split_dots s). Qed.

Lemma dot_code : forall c, (code c =? 46)%N = Ascii.eqb c ".".
Proof. intro c. bytes c; reflexivity. Qed.

Lemma concat_cons : forall a l, l <> [] -> String.concat "." (a :: l) = (a ++ "." ++ String.concat "." l)%string.
Proof. intros a [|b l] N; [congruence|reflexivity]. Qed.

Lemma split_concat : forall s, String.concat "." (split_dots s) = s.
Proof.
  induction s as [|c s IH]; [reflexivity|]. cbn [split_dots]. rewrite dot_code. destruct (Ascii.eqb c ".") eqn:E.
  - apply Ascii.eqb_eq in E. subst c. rewrite concat_cons by apply split_nonempty. now rewrite IH.
  - pose proof (split_nonempty s) as N. destruct (split_dots s) as [|w ws]; [congruence|].
    rewrite <- IH. destruct ws; reflexivity.
Qed.

Lemma split_no_dot : forall s k, In k (split_dots s) -> ~ In "."%char (chars k).
Proof.
  induction s as [|c s IH]; intros k I.
  - cbn in I. destruct I as [<-|[]]. intros [].
  - cbn [split_dots] in I. rewrite dot_code in I. destruct (Ascii.eqb c ".") eqn:E.
    + destruct I as [<-|I]; [intros []|now apply IH].
    + pose proof (split_nonempty s) as N. destruct (split_dots s) as [|w ws]; [congruence|].
      destruct I as [<-|I]; [|apply IH; now right]. intros [J|J].
      * subst c. discriminate E.
      * exact (IH w (or_introl eq_refl) J).
Qed.

Lemma split_word : forall w s, ~ In "."%char (chars w) ->
  split_dots (w ++ s) = match split_dots s with [] => [w] | v :: vs => (w ++ v)%string :: vs end.
Proof.
  induction w as [|c w IH]; intros s N.
  - cbn [append]. pose proof (split_nonempty s). destruct (split_dots s); [congruence|reflexivity].
  - cbn [append split_dots]. rewrite dot_code. destruct (Ascii.eqb c ".") eqn:E.
    + apply Ascii.eqb_eq in E. subst c. exfalso. apply N. now left.
    + rewrite IH by (intro J; apply N; now right). pose proof (split_nonempty s). destruct (split_dots s); [congruence|reflexivity].
Qed.

Lemma split_of_concat : forall ks, ks <> [] -> (forall k, In k ks -> ~ In "."%char (chars k)) ->
  split_dots (String.concat "." ks) = ks.
Proof.
  induction ks as [|k ks IH]; [congruence|]. intros _ A. destruct ks as [|k2 ks].
  - cbn [String.concat]. rewrite <- (app_nil_s k) at 1. rewrite split_word by (apply A; now left). cbn. now rewrite app_nil_s.
  - rewrite concat_cons by discriminate. rewrite split_word by (apply A; now left).
    change ("." ++ ?s)%string with (String "." s). cbn [split_dots]. change (code "." =? 46)%N with true. cbn iota.
    rewrite IH; [now rewrite app_nil_s|discriminate|]. intros x I. apply A. now right.
Qed.

Lemma field_reach : forall j k v, field j k = Some v <->
  exists pre post, j = JObj (pre ++ (k, v) :: post) /\ ~ In k (map fst pre).
Proof.
  intros j k v. split.
  - destruct j as [| | | | |fs]; try discriminate. cbn [field]. intro H.
    assert (G : exists pre post, fs = pre ++ (k, v) :: post /\ ~ In k (map fst pre)).
    { induction fs as [|[a b] fs IH]; [discriminate H|]. cbn [find fst] in H. destruct (String.eqb a k) eqn:E.
      - cbn in H. injection H as ->. apply String.eqb_eq in E. subst a. exists [], fs. split; [reflexivity|intros []].
      - destruct (IH H) as (pre & post & E2 & N). exists ((a, b) :: pre), post. split; [now rewrite E2|].
        cbn. intros [J|J]; [|now apply N]. subst a. now rewrite String.eqb_refl in E. }
    destruct G as (pre & post & E & N). exists pre, post. split; [now rewrite E|exact N].
  - intros (pre & post & -> & N). cbn [field]. induction pre as [|[a b] pre IH].
    + cbn. now rewrite String.eqb_refl.
    + cbn [app find fst]. destruct (String.eqb a k) eqn:E.
      * exfalso. apply N. left. now apply String.eqb_eq in E.
      * apply IH. intro J. apply N. now right.
Qed.

Lemma walk_reach : forall ks j v, walk j ks = Some v <-> reach j ks v.
Proof.
  induction ks as [|k ks IH]; intros j v; split.
  - cbn. intro H. injection H as ->. constructor.
  - intro H. inversion H. subst. reflexivity.
  - cbn [walk]. destruct (field j k) as [w|] eqn:F; [|discriminate]. intro H. apply field_reach in F.
    destruct F as (pre & post & -> & N). apply Into; [exact N|]. now apply IH.
  - intro H. inversion H as [|pre k' w post ks' w' N R E1 E2 E3]. subst. cbn [walk].
    rewrite (proj2 (field_reach _ k w)) by (exists pre, post; split; [reflexivity|exact N]). now apply IH.
Qed.

Lemma get_refers : forall j n v, get j n = Some v <-> refers j n v.
Proof.
  intros j n v. unfold get. destruct (String.eqb n ".") eqn:E.
  - apply String.eqb_eq in E. subst n. split; intro H.
    + injection H as ->. constructor.
    + inversion H as [|? ks ? N A D R]; [reflexivity|]. subst. congruence.
  - rewrite walk_reach. split; intro H.
    + rewrite <- (split_concat n). apply Keys; [apply split_nonempty|apply split_no_dot|rewrite split_concat|exact H].
      intro X. subst n. discriminate E.
    + inversion H as [|? ks ? N A D R]; [subst; discriminate E|]. subst. now rewrite split_of_concat.
Qed.

Lemma get_none : forall j n, get j n = None <-> forall w, ~ refers j n w.
Proof.
  intros j n. split.
  - intros H w R. apply get_refers in R. congruence.
  - intro H. destruct (get j n) as [w|] eqn:G; [|reflexivity]. apply get_refers in G. contradiction (H w G).
Qed.

Lemma lookup_denotes : forall st n v, lookup st n = Some v -> denotes st n v.
Proof.
  induction st as [|j st IH]; intros n v H; [discriminate H|]. cbn [lookup] in H. destruct (get j n) as [w|] eqn:G.
  - injection H as ->. exists [], j, st. split; [reflexivity|]. split; [now apply get_refers|intros i []].
  - destruct (IH _ _ H) as (inner & i & outer & E & R & A). exists (j :: inner), i, outer. split; [now rewrite E|].
    split; [exact R|]. intros x [<-|I]; [now apply get_none|now apply A].
Qed.

Lemma denotes_lookup : forall st n v, denotes st n v -> lookup st n = Some v.
Proof.
  intros st n v (inner & j & outer & -> & R & A). induction inner as [|i inner IH].
  - cbn. apply get_refers in R. now rewrite R.
  - cbn. rewrite (proj2 (get_none i n)) by (apply A; now left). apply IH. intros x I. apply A. now right.
Qed.

Lemma lookup_unknown : forall st n, lookup st n = None <-> unknown st n.
Proof.
  induction st as [|j st IH]; intro n; split.
  - intros _ j [].
  - reflexivity.
  - cbn [lookup]. destruct (get j n) eqn:G; [discriminate|]. intros H i [<-|I]; [now apply get_none|].
    exact (proj1 (IH n) H i I).
  - intro U. cbn [lookup]. rewrite (proj2 (get_none j n)) by (apply U; now left). apply IH. intros i I. apply U. now right.
Qed.

(** *** Blocks *)

Section Ind.
  Variable P : block -> Prop.
  Hypothesis H0 : forall s, P (Text s).
  Hypothesis H1 : forall n, P (Escaped n).
  Hypothesis H2 : forall n, P (Unescaped n).
  Hypothesis H3 : forall n b, Forall P b -> P (Section n b).
  Hypothesis H4 : forall n b, Forall P b -> P (Inverse n b).
  Fixpoint block_ind' (b : block) : P b :=
    let fix go bs : Forall P bs := match bs with [] => Forall_nil _ | b :: bs => Forall_cons b (block_ind' b) (go bs) end in
    match b with
    | Text s => H0 s | Escaped n => H1 n | Unescaped n => H2 n
    | Section n b => H3 n b (go b) | Inverse n b => H4 n b (go b)
    end.
End Ind.

Lemma render_section : forall e n b st, render_block e (Section n b) st =
  match lookup st n with
  | Some (JArr l) => String.concat "" (map (fun v => render_blocks e b (v :: st)) l)
  | Some (JObj fs) => render_blocks e b (JObj fs :: st)
  | Some _ => render_blocks e b st
  | None => ""
  end.
Proof.
  intros e n b st.
  assert (B : forall st, (fix blocks (bs : list block) (stack : list json) : string :=
    match bs with [] => "" | b :: bs => (render_block e b stack ++ blocks bs stack)%string end) b st = render_blocks e b st).
  { clear. induction b as [|b bs IH]; intro st; [reflexivity|]. cbn [render_blocks]. now rewrite <- IH. }
  cbn [render_block]. destruct (lookup st n) as [[| | | |l|fs]|]; rewrite ?B; try reflexivity.
  f_equal. apply map_ext. intro v. apply B.
Qed.

(** *** How values are written *)

Lemma plain_decodes : forall s, (forall c, In c (chars s) -> In c unreserved) -> url_decode s = Some s.
Proof.
  induction s as [|c s IH]; intro A; [reflexivity|]. rewrite decode_plain.
  - rewrite IH; [reflexivity|]. intros d I. apply A. now right.
  - rewrite kept_unreserved. apply existsb_exists. exists c. split; [apply A; now left|apply Ascii.eqb_refl].
Qed.

Lemma all_unreserved : forall s, forallb (fun c => existsb (Ascii.eqb c) unreserved) (chars s) = true ->
  forall c, In c (chars s) -> In c unreserved.
Proof.
  intros s H c I. rewrite forallb_forall in H. specialize (H c I). apply existsb_exists in H. destruct H as (d & J & E).
  apply Ascii.eqb_eq in E. now subst d.
Qed.

Lemma plain_url : forall j s, (forall c, In c (chars s) -> In c unreserved) -> carried j s -> written Url (Hole j) s.
Proof.
  intros j s A C. split; [intros c I; left; now apply A|]. exists s. split; [now apply plain_decodes|exact C].
Qed.

Lemma carried_to_string : forall j, (forall s, j <> JStr s) -> json_ok j -> carried j (to_string j).
Proof.
  intros j N K. destruct j as [| | |s| |]; try (intros rest D; now apply to_string_reads). contradiction (N s eq_refl).
Qed.

Lemma encoded_url : forall j s, carried j s -> written Url (Hole j) (urlencode s).
Proof. intros j s C. split; [apply urlencode_inert|]. exists s. split; [apply decode_encode|exact C]. Qed.

Lemma escaped_written : forall e j, json_ok j -> written e (Hole j) (render_escaped e j).
Proof.
  intros e j K. destruct e.
  - assert (E : render_escaped Json j = to_string j) by (destruct j; reflexivity). rewrite E.
    intros rest D. now apply to_string_reads.
  - destruct j as [|b|t|s|l|fs].
    + apply plain_url; [apply all_unreserved; reflexivity|]. apply (carried_to_string JNull); [discriminate|exact K].
    + apply plain_url; [apply all_unreserved; destruct b; reflexivity|]. apply (carried_to_string (JBool b)); [discriminate|exact K].
    + apply plain_url; [|apply (carried_to_string (JNum t)); [discriminate|exact K]].
      inversion K as [| |? [_ A]| | |]. subst. intros c I. apply number_inert. now apply A.
    + apply encoded_url. reflexivity.
    + apply (encoded_url _ (to_string (JArr l))). apply carried_to_string; [discriminate|exact K].
    + apply (encoded_url _ (to_string (JObj fs))). apply carried_to_string; [discriminate|exact K].
Qed.

Lemma unescaped_written : forall e j, json_ok j -> written e (Raw j) (render_unescaped j).
Proof.
  intros e j K. assert (C : carried j (render_unescaped j)); [|destruct e; exact C].
  destruct j as [|b|t|s|l|fs].
  - apply (carried_to_string JNull); [discriminate|exact K].
  - apply (carried_to_string (JBool b)); [discriminate|exact K].
  - apply (carried_to_string (JNum t)); [discriminate|exact K].
  - reflexivity.
  - apply (carried_to_string (JArr l)); [discriminate|exact K].
  - apply (carried_to_string (JObj fs)); [discriminate|exact K].
Qed.

(** *** The text of a template is the text of its pieces *)

Definition text_of (e : escaping) (p : piece) : string :=
  match p with Lit s => s | Hole j => render_escaped e j | Raw j => render_unescaped j end.

Definition texts (e : escaping) (ps : list piece) : string := String.concat "" (map (text_of e) ps).

Lemma concat_empty_cons : forall a l, String.concat "" (a :: l) = (a ++ String.concat "" l)%string.
Proof. intros a [|b l]; [cbn; now rewrite app_nil_s|reflexivity]. Qed.

Lemma texts_app : forall e ps qs, texts e (ps ++ qs) = (texts e ps ++ texts e qs)%string.
Proof.
  intros e ps qs. unfold texts. induction ps as [|p ps IH]; [reflexivity|]. cbn [app map].
  rewrite !concat_empty_cons, IH. now rewrite app_assoc_s.
Qed.

Lemma texts_concat : forall e pss, texts e (List.concat pss) = String.concat "" (map (texts e) pss).
Proof.
  intros e pss. induction pss as [|ps pss IH]; [reflexivity|]. cbn [List.concat map].
  now rewrite texts_app, concat_empty_cons, IH.
Qed.

Lemma texts_one : forall e p, texts e [p] = text_of e p.
Proof. reflexivity. Qed.

Definition stands_for (e : escaping) (b : block) : Prop := forall st, exists ps, stands st b ps /\ render_block e b st = texts e ps.

Lemma stand_for : forall e bs, Forall (stands_for e) bs -> forall st, exists ps, stand st bs ps /\ render_blocks e bs st = texts e ps.
Proof.
  intros e bs F. induction F as [|b bs B _ IH]; intro st.
  - exists []. split; [constructor|reflexivity].
  - destruct (B st) as (ps & H1 & E1). destruct (IH st) as (qs & H2 & E2). exists (ps ++ qs). split; [now constructor|].
    cbn [render_blocks]. now rewrite texts_app, E1, E2.
Qed.

Theorem every_block : forall e b, stands_for e b.
Proof.
  intros e. apply block_ind'.
  - intros s st. exists [Lit s]. split; [constructor|reflexivity].
  - intros n st. cbn [render_block]. destruct (lookup st n) as [v|] eqn:L.
    + exists [Hole v]. split; [constructor; now apply lookup_denotes|reflexivity].
    + exists []. split; [constructor; now apply lookup_unknown|reflexivity].
  - intros n st. cbn [render_block]. destruct (lookup st n) as [v|] eqn:L.
    + exists [Raw v]. split; [constructor; now apply lookup_denotes|reflexivity].
    + exists []. split; [constructor; now apply lookup_unknown|reflexivity].
  - intros n b F st. rewrite render_section. pose proof (stand_for e b F) as B. clear F.
    assert (R : forall l, exists pss, repeated st b l pss /\
      String.concat "" (map (fun v => render_blocks e b (v :: st)) l) = texts e (List.concat pss)).
    { induction l as [|v l (pss & R & E)]; [exists []; split; [constructor|reflexivity]|].
      destruct (B (v :: st)) as (ps & H & E2). exists (ps :: pss). split; [now constructor|].
      cbn [map List.concat]. rewrite concat_empty_cons, texts_app. now rewrite E, E2. }
    destruct (lookup st n) as [v|] eqn:L.
    + apply lookup_denotes in L. destruct v as [|x|x|x|l|fs].
      1-4: destruct (B st) as (ps & H & E); exists ps; split; [eapply StScalar; [exact L|discriminate|discriminate|exact H]|exact E].
      * destruct (R l) as (pss & H & E). exists (List.concat pss). split; [eapply StList; [exact L|exact H]|exact E].
      * destruct (B (JObj fs :: st)) as (ps & H & E). exists ps. split; [eapply StObject; [exact L|exact H]|exact E].
    + exists []. split; [apply StNoSection; now apply lookup_unknown|reflexivity].
  - intros n b _ st. exists []. split; [constructor|reflexivity].
Qed.

Lemma every_template : forall e bs st, exists ps, stand st bs ps /\ render_blocks e bs st = texts e ps.
Proof. intros e bs st. apply stand_for. apply Forall_forall. intros b _. apply every_block. Qed.

(** *** Where the pieces come from *)

Lemma part_trans : forall a b, part_of a b -> forall c, part_of b c -> part_of a c.
Proof.
  intros a b H c H2. revert a H. induction H2 as [j|w v l I P IH|w k v fs I P IH]; intros a H.
  - exact H.
  - eapply PartElement; [exact I|now apply IH].
  - eapply PartField; [exact I|now apply IH].
Qed.

Lemma reach_part : forall j ks v, reach j ks v -> part_of v j.
Proof.
  intros j ks v H. induction H as [j|pre k v post ks w N R IH]; [constructor|].
  eapply PartField; [apply in_or_app; right; left; reflexivity|exact IH].
Qed.

Lemma denotes_part : forall c st n v, Forall (fun j => part_of j c) st -> denotes st n v -> part_of v c.
Proof.
  intros c st n v F (inner & j & outer & -> & R & _). rewrite Forall_forall in F.
  assert (P : part_of j c) by (apply F; apply in_or_app; right; now left).
  inversion R as [|? ks ? _ _ _ G]; subst; [exact P|]. eapply part_trans; [exact (reach_part _ _ _ G)|exact P].
Qed.

Scheme stands_mut := Induction for stands Sort Prop
  with stand_mut := Induction for stand Sort Prop
  with repeated_mut := Induction for repeated Sort Prop.

Lemma from_mono : forall bs bs' c p, (forall s, written_in s bs -> written_in s bs') -> from bs c p -> from bs' c p.
Proof. intros bs bs' c [s|j|j] A; cbn; auto. Qed.

Lemma written_cons : forall s b bs, written_in s bs -> written_in s (b :: bs).
Proof. intros s b bs H. inversion H as [? ? I|? n b' ? I W]; subst; [apply WText; now right|eapply WSection; [right; exact I|exact W]]. Qed.

Lemma written_head : forall s b bs, written_in s [b] -> written_in s (b :: bs).
Proof.
  intros s b bs H. inversion H as [? ? I|? n b' ? I W]; subst.
  - destruct I as [I|[]]. apply WText. now left.
  - destruct I as [I|[]]. eapply WSection; [left; exact I|exact W].
Qed.

Lemma written_section : forall s n b, written_in s b -> written_in s [Section n b].
Proof. intros s n b H. eapply WSection; [left; reflexivity|exact H]. Qed.

Lemma stand_from : forall c st bs ps, stand st bs ps -> Forall (fun j => part_of j c) st -> Forall (from bs c) ps.
Proof.
  intro c.
  apply (stand_mut
    (fun st b ps _ => Forall (fun j => part_of j c) st -> Forall (from [b] c) ps)
    (fun st bs ps _ => Forall (fun j => part_of j c) st -> Forall (from bs c) ps)
    (fun st b l pss _ => Forall (fun j => part_of j c) st -> Forall (fun j => part_of j c) l -> Forall (from b c) (List.concat pss))).
  - intros st s F. constructor; [|constructor]. apply WText. now left.
  - intros st n v D F. constructor; [|constructor]. exact (denotes_part c st n v F D).
  - constructor.
  - intros st n v D F. constructor; [|constructor]. exact (denotes_part c st n v F D).
  - constructor.
  - intros st n b l pss D _ IH F. assert (P : part_of (JArr l) c) by exact (denotes_part c st n _ F D).
    assert (G : Forall (fun j => part_of j c) l).
    { apply Forall_forall. intros x I. eapply part_trans; [|exact P]. eapply PartElement; [exact I|constructor]. }
    eapply Forall_impl; [|exact (IH F G)]. intros p. apply from_mono. intros s. apply written_section.
  - intros st n b fs ps D _ IH F. assert (P : part_of (JObj fs) c) by exact (denotes_part c st n _ F D).
    eapply Forall_impl; [|apply IH; now constructor]. intros p. apply from_mono. intros s. apply written_section.
  - intros st n b v ps D _ _ _ IH F.
    eapply Forall_impl; [|exact (IH F)]. intros p. apply from_mono. intros s. apply written_section.
  - constructor.
  - constructor.
  - constructor.
  - intros st b bs ps qs _ IH1 _ IH2 F. apply Forall_app. split.
    + eapply Forall_impl; [|exact (IH1 F)]. intros p. apply from_mono. intros s. apply written_head.
    + eapply Forall_impl; [|exact (IH2 F)]. intros p. apply from_mono. intros s. apply written_cons.
  - constructor.
  - intros st b v l ps pss _ IH1 _ IH2 F G. inversion G as [|? ? G1 G2]. subst. cbn [List.concat]. apply Forall_app. split.
    + apply IH1. now constructor.
    + now apply IH2.
Qed.

Lemma denotes_fun : forall st n v w, denotes st n v -> denotes st n w -> v = w.
Proof. intros st n v w H1 H2. apply denotes_lookup in H1. apply denotes_lookup in H2. congruence. Qed.

Lemma denotes_unknown : forall st n v, denotes st n v -> unknown st n -> False.
Proof. intros st n v H1 H2. apply denotes_lookup in H1. apply lookup_unknown in H2. congruence. Qed.

Lemma stand_fun : forall st bs ps, stand st bs ps -> forall qs, stand st bs qs -> ps = qs.
Proof.
  apply (stand_mut
    (fun st b ps _ => forall qs, stands st b qs -> ps = qs)
    (fun st bs ps _ => forall qs, stand st bs qs -> ps = qs)
    (fun st b l pss _ => forall qss, repeated st b l qss -> pss = qss)).
  - intros st s qs H. inversion H. reflexivity.
  - intros st n v D qs H. inversion H as [|? ? w D2|? ? U| | | | | | |]; subst; [now rewrite (denotes_fun _ _ _ _ D D2)|].
    destruct (denotes_unknown _ _ _ D U).
  - intros st n U qs H. inversion H as [|? ? w D2|? ? U2| | | | | | |]; subst; [|reflexivity]. destruct (denotes_unknown _ _ _ D2 U).
  - intros st n v D qs H. inversion H as [| | |? ? w D2|? ? U| | | | |]; subst; [now rewrite (denotes_fun _ _ _ _ D D2)|].
    destruct (denotes_unknown _ _ _ D U).
  - intros st n U qs H. inversion H as [| | |? ? w D2|? ? U2| | | | |]; subst; [|reflexivity]. destruct (denotes_unknown _ _ _ D2 U).
  - intros st n b l pss D _ IH qs H. inversion H as [| | | | |? ? ? l2 pss2 D2 R|? ? ? fs ? D2 R|? ? ? v ? D2 N1 N2 R|? ? ? U|]; subst.
    + pose proof (denotes_fun _ _ _ _ D D2) as E. injection E as E. subst l2. now rewrite (IH _ R).
    + pose proof (denotes_fun _ _ _ _ D D2) as E. discriminate E.
    + pose proof (denotes_fun _ _ _ _ D D2) as E. symmetry in E. contradiction (N1 _ E).
    + destruct (denotes_unknown _ _ _ D U).
  - intros st n b fs ps D _ IH qs H. inversion H as [| | | | |? ? ? l2 pss2 D2 R|? ? ? fs2 ? D2 R|? ? ? v ? D2 N1 N2 R|? ? ? U|]; subst.
    + pose proof (denotes_fun _ _ _ _ D D2) as E. discriminate E.
    + pose proof (denotes_fun _ _ _ _ D D2) as E. injection E as E. subst fs2. now apply IH.
    + pose proof (denotes_fun _ _ _ _ D D2) as E. symmetry in E. contradiction (N2 _ E).
    + destruct (denotes_unknown _ _ _ D U).
  - intros st n b v ps D N1 N2 _ IH qs H. inversion H as [| | | | |? ? ? l2 pss2 D2 R|? ? ? fs2 ? D2 R|? ? ? v2 ? D2 N3 N4 R|? ? ? U|]; subst.
    + pose proof (denotes_fun _ _ _ _ D D2) as E. contradiction (N1 _ E).
    + pose proof (denotes_fun _ _ _ _ D D2) as E. contradiction (N2 _ E).
    + now apply IH.
    + destruct (denotes_unknown _ _ _ D U).
  - intros st n b U qs H. inversion H as [| | | | |? ? ? l2 pss2 D2 R|? ? ? fs2 ? D2 R|? ? ? v2 ? D2 N3 N4 R|? ? ? U2|]; subst;
      try (destruct (denotes_unknown _ _ _ D2 U)); reflexivity.
  - intros st n b qs H. inversion H. reflexivity.
  - intros st qs H. inversion H. reflexivity.
  - intros st b bs ps qs _ IH1 _ IH2 rs H. inversion H as [|? ? ? ps2 qs2 H1 H2]. subst. now rewrite (IH1 _ H1), (IH2 _ H2).
  - intros st b qss H. inversion H. reflexivity.
  - intros st b v l ps pss _ IH1 _ IH2 qss H. inversion H as [|? ? ? ? ps2 pss2 H1 H2]. subst. now rewrite (IH1 _ H1), (IH2 _ H2).
Qed.

Lemma ok_part : forall a b, part_of a b -> json_ok b -> json_ok a.
Proof.
  intros a b H. induction H as [j|w v l I _ IH|w k v fs I _ IH]; intro K; [exact K| |].
  - apply IH. inversion K as [| | | |? F|]. subst. rewrite Forall_forall in F. now apply F.
  - apply IH. inversion K as [| | | | |? F]. subst. rewrite Forall_forall in F. exact (F _ I).
Qed.

Definition content (args : list (string * json)) : json := JObj [("args", JObj args)].

(** *** C106 *)

(** The text a template gives is, piece after piece, the text of the template and of values found in the
    arguments: copied, respectively written so that they read back as themselves. *)
Theorem C106_meaning : forall e template args,
  Forall (fun f => json_ok (snd f)) args ->
  exists pieces texts,
    stand [JObj [("args", JObj args)]] template pieces /\
    Forall2 (written e) pieces texts /\
    render e template args = String.concat "" texts /\
    Forall (from template (JObj [("args", JObj args)])) pieces.
Proof.
  intros e template args K. destruct (every_template e template [content args]) as (ps & H & E).
  assert (F : Forall (from template (content args)) ps).
  { eapply stand_from; [exact H|]. constructor; [constructor|constructor]. }
  assert (C : json_ok (content args)).
  { constructor. constructor; [|constructor]. cbn. now constructor. }
  exists ps, (map (text_of e) ps). split; [exact H|]. split; [|split; [exact E|exact F]].
  clear H E. induction F as [|p ps P _ IH]; [constructor|]. cbn [map]. constructor; [|exact IH].
  destruct p as [s|j|j]; cbn in P.
  - destruct e; reflexivity.
  - apply escaped_written. exact (ok_part _ _ P C).
  - apply unescaped_written. exact (ok_part _ _ P C).
Qed.

(** There is only one way to take a template apart. *)
Theorem C106_unique : forall stack template pieces others,
  stand stack template pieces -> stand stack template others -> pieces = others.
Proof. intros stack template pieces others H1 H2. exact (stand_fun _ _ _ H1 _ H2). Qed.

Lemma escapes_all_inv : forall b bs, escapes_all (b :: bs) ->
  escapes_all bs /\ match b with Unescaped _ => False | Section _ b => escapes_all b | _ => True end.
Proof. intros b bs H. inversion H; subst; split; trivial. Qed.

Lemma no_raw : forall st bs ps, stand st bs ps -> escapes_all bs -> forall j, ~ In (Raw j) ps.
Proof.
  apply (stand_mut
    (fun st b ps _ => match b with Unescaped _ => False | Section _ b => escapes_all b | _ => True end -> forall j, ~ In (Raw j) ps)
    (fun st bs ps _ => escapes_all bs -> forall j, ~ In (Raw j) ps)
    (fun st b l pss _ => escapes_all b -> forall j, ~ In (Raw j) (List.concat pss))).
  - intros st s _ j [E|[]]. discriminate E.
  - intros st n v D _ j [E|[]]. discriminate E.
  - intros st n U _ j [].
  - intros st n v D [].
  - intros st n U _ j [].
  - intros st n b l pss D _ IH A. now apply IH.
  - intros st n b fs ps D _ IH A. now apply IH.
  - intros st n b v ps D _ _ _ IH A. now apply IH.
  - intros st n b U _ j [].
  - intros st n b _ j [].
  - intros st _ j [].
  - intros st b bs ps qs _ IH1 _ IH2 A j I. apply escapes_all_inv in A. destruct A as [A1 A2].
    apply in_app_or in I. destruct I as [I|I]; [exact (IH1 A2 j I)|exact (IH2 A1 j I)].
  - intros st b _ j [].
  - intros st b v l ps pss _ IH1 _ IH2 A j I. cbn [List.concat] in I.
    apply in_app_or in I. destruct I as [I|I]; [exact (IH1 A j I)|exact (IH2 A j I)].
Qed.

(** In the URL given by a template without raw placeholders, whatever is not inert was written in the
    template: no argument adds a separator, a query parameter or another host. *)
Theorem C106_url : forall template args,
  Forall (fun f => json_ok (snd f)) args -> escapes_all template ->
  exists texts, render Url template args = String.concat "" texts /\
    Forall (fun t => written_in t template \/ url_inert t) texts.
Proof.
  intros template args K A. destruct (C106_meaning Url template args K) as (ps & ts & H & W & E & F).
  exists ts. split; [exact E|]. pose proof (no_raw _ _ _ H A) as N. clear H E.
  induction W as [|p t ps ts W _ IH]; [constructor|]. inversion F as [|? ? F1 F2]. subst. constructor.
  - destruct p as [s|j|j]; cbn in W, F1.
    + left. now subst t.
    + right. apply W.
    + exfalso. apply (N j). now left.
  - apply IH; [exact F2|]. intros j I. apply (N j). now right.
Qed.

(** Examples: the templates of the integration tests, a section, and a name looked up outwards. *)
Example C106_ex_url :
  render Url [Text "https://h/?q="; Escaped "args.q"; Text "&n="; Escaped "args.n"; Text "&d="; Escaped "args.d"]
    [("q", JStr "a&b=c/d"); ("n", JNum "2.7"); ("d", JArr [JStr "x y"])]
  = "https://h/?q=a%26b%3Dc%2Fd&n=2.7&d=%5B%22x%20y%22%5D".
Proof. reflexivity. Qed.

Example C106_ex_json :
  render Json [Text "{""d"":"; Escaped "args.d"; Text "}"] [("d", JStr "a""b\c")] = "{""d"":""a\""b\\c""}"
  /\ read_value 5 "{""d"":""a\""b\\c""}" = Some (JObj [("d", JStr "a""b\c")], "").
Proof. split; reflexivity. Qed.

Example C106_ex_section :
  render Json [Section "args.l" [Escaped "."; Text ";"; Escaped "args.k"; Text "|"]; Inverse "args.none" [Text "never"]; Escaped "args.none"]
    [("l", JArr [JNum "1"; JStr "z"]); ("k", JBool false)]
  = "1;false|""z"";false|".
Proof. reflexivity. Qed.

Example C106_ex_stand :
  stand [JObj [("args", JObj [("l", JArr [JNum "1"; JNull])])]] [Section "args.l" [Escaped "."]; Text "."; Escaped "args.m"]
    [Hole (JNum "1"); Hole JNull; Lit "."].
Proof.
  change [Hole (JNum "1"); Hole JNull; Lit "."] with ([Hole (JNum "1"); Hole JNull] ++ [Lit "."] ++ [] ++ [])%list.
  assert (R : refers (JObj [("args", JObj [("l", JArr [JNum "1"; JNull])])]) "args.l" (JArr [JNum "1"; JNull])).
  { apply get_refers. reflexivity. }
  constructor; [|constructor; [constructor|constructor; [|constructor]]].
  - change [Hole (JNum "1"); Hole JNull] with (List.concat [[Hole (JNum "1")]; [Hole JNull]]).
    apply (StList _ _ _ [JNum "1"; JNull]); [apply lookup_denotes; reflexivity|].
    constructor; [|constructor; [|constructor]].
    + change [Hole (JNum "1")] with ([Hole (JNum "1")] ++ [])%list. constructor; [|constructor]. constructor. apply lookup_denotes. reflexivity.
    + change [Hole JNull] with ([Hole JNull] ++ [])%list. constructor; [|constructor]. constructor. apply lookup_denotes. reflexivity.
  - apply StNoHole. apply lookup_unknown. reflexivity.
Qed.

(** A placeholder between quotes is not protected: the value brings its own quotes, which close the ones of
    the template, and a string of the request becomes three elements. *)
Theorem C106_quotes_refuted : exists template value,
  template = [Text "["""; Escaped "args.x"; Text """]"] /\
  read_value 9 (render Json template [("x", JStr value)])
    = Some (JArr [JStr ""; JNum "1"; JNum "2"; JStr ""], "").
Proof. exists [Text "["""; Escaped "args.x"; Text """]"], ",1,2,". split; reflexivity. Qed.

(** A raw placeholder lets an argument add a parameter to the URL. *)
Theorem C106_raw_refuted : exists template value,
  template = [Text "https://h/?q="; Unescaped "args.q"] /\
  render Url template [("q", JStr value)] = "https://h/?q=a&admin=1".
Proof. exists [Text "https://h/?q="; Unescaped "args.q"], "a&admin=1". split; reflexivity. Qed.
