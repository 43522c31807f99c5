(** Proofs about statuses, formats, the order of effects and answers. *)
From Coq Require Import String Ascii List Bool Arith NArith ZArith Lia.
From Verif.Front Require Import Status Negotiate Serve Spec Proofs.
Import ListNotations.
Local Open Scope nat_scope.
Local Open Scope list_scope.

(** ** Status *)
Lemma increments : forall e k c, fold_left increment e k c = if in_dec code_eq_dec c e then wrap (k c + N.of_nat (count_occ code_eq_dec e c)) else k c.
Proof.
  induction e as [| x e IH]; intros k c; [reflexivity |]. cbn [fold_left]. rewrite IH. unfold increment.
  destruct (code_eq_dec c x) as [-> | Hx].
  - destruct (in_dec code_eq_dec x (x :: e)) as [_ | H]; [| exfalso; apply H; left; reflexivity].
    rewrite count_occ_cons_eq by reflexivity. destruct (in_dec code_eq_dec x e) as [H | H].
    + unfold wrap. rewrite N.add_mod_idemp_l by discriminate. f_equal. lia.
    + apply (count_occ_not_In code_eq_dec) in H. rewrite H. reflexivity.
  - rewrite count_occ_cons_neq by congruence. destruct (in_dec code_eq_dec c e) as [H | H]; destruct (in_dec code_eq_dec c (x :: e)) as [H' | H']; try reflexivity; exfalso.
    + apply H'. right. exact H.
    + destruct H' as [H' | H']; [congruence | contradiction].
Qed.
Lemma from_errors_count : forall e c, from_errors e c = wrap (N.of_nat (count_occ code_eq_dec e c)).
Proof.
  intros e c. unfold from_errors. rewrite increments. destruct (in_dec code_eq_dec c e) as [H | H]; [reflexivity |].
  apply (count_occ_not_In code_eq_dec) in H. rewrite H. reflexivity.
Qed.
Lemma count_le : forall (e : list code) c, count_occ code_eq_dec e c <= List.length e.
Proof. induction e as [| x e IH]; intro c; cbn [count_occ List.length]; [lia |]. specialize (IH c). destruct (code_eq_dec x c); lia. Qed.
Definition mem (e : list code) (c : code) : bool := if in_dec code_eq_dec c e then true else false.
Lemma iter_from_errors : forall e, (N.of_nat (List.length e) < 65536)%N -> iter (from_errors e) = filter (mem e) codes.
Proof.
  intros e He. unfold iter. apply filter_ext_in'. intro c. rewrite from_errors_count. unfold wrap, mem. assert (L := count_le e c).
  rewrite N.mod_small by lia. destruct (in_dec code_eq_dec c e) as [H | H].
  - apply (count_occ_In code_eq_dec) in H. apply N.ltb_lt. lia.
  - apply (count_occ_not_In code_eq_dec) in H. rewrite H. reflexivity.
Qed.
Fixpoint subs {A} (l : list A) : list (list A) := match l with [] => [[]] | x :: l => let s := subs l in map (cons x) s ++ s end.
Lemma filter_subs : forall A (m : A -> bool) l, In (filter m l) (subs l).
Proof.
  intros A m. induction l as [| x l IH]; [left; reflexivity |]. cbn [filter subs]. apply in_or_app. destruct (m x); [left; apply in_map, IH | right; exact IH].
Qed.
Definition status_of_codes (l : list code) : N := match max_by_key snd (map status_priority l) with Some (s, _) => s | None => 500%N end.
Lemma all_subs : forallb (fun s => N.eqb (status_of_codes s) (expected_status s)) (subs codes) = true.
Proof. vm_compute. reflexivity. Qed.
Lemma all_codes : forall c, In c codes. Proof. intro c. unfold codes. destruct c; cbn; tauto. Qed.
Lemma existsb_codes : forall p e, existsb p e = existsb p (filter (mem e) codes).
Proof.
  intros p e. apply eq_true_iff_eq. rewrite !existsb_exists. split; intros (c & H1 & H2); exists c; (split; [| exact H2]).
  - apply filter_In. split; [apply all_codes |]. unfold mem. destruct (in_dec code_eq_dec c e); [reflexivity | contradiction].
  - apply filter_In in H1 as [_ H1]. unfold mem in H1. destruct (in_dec code_eq_dec c e); [assumption | discriminate].
Qed.
Lemma expected_codes : forall e, expected_status e = expected_status (filter (mem e) codes).
Proof. intro e. unfold expected_status. rewrite <- !existsb_codes. reflexivity. Qed.
Lemma request_error_status : forall e d, (N.of_nat (List.length e) < 65536)%N -> compute_status (Complete GraphqlJson) (RequestError e d) = Some (expected_status e).
Proof.
  intros e d He. cbn [compute_status]. rewrite iter_from_errors by exact He. f_equal. rewrite expected_codes.
  assert (A := all_subs). rewrite forallb_forall in A. apply N.eqb_eq, A, filter_subs.
Qed.
Definition few (r : response) : Prop := (N.of_nat (List.length (errors_of r)) < 65536)%N.
Lemma complete_status : forall f r, few r -> compute_status (Complete f) r = Some (status_of f r).
Proof. intros f [s e h d | e d | e d] H; try reflexivity. destruct f; [reflexivity |]. apply request_error_status, H. Qed.
Lemma complete_some : forall f r, exists s, compute_status (Complete f) r = Some s.
Proof. intros f r. destruct r; try (eexists; reflexivity). destruct f; eexists; reflexivity. Qed.
Definition combined (f : complete) (l : list response) (s : N) : N :=
  if is_client_error s then s
  else match find is_client_error (map (status_of f) l) with
       | Some s => s
       | None => last (filter (fun s => negb (is_success s)) (map (status_of f) l)) s
       end.
Lemma client_not_success : forall s, is_client_error s = true -> is_success s = false.
Proof. intros s H. unfold is_client_error in H. unfold is_success. apply andb_true_iff in H as [H _]. apply N.leb_le in H. apply andb_false_iff. right. apply N.ltb_ge. lia. Qed.
Lemma last_cons : forall A (l : list A) x d, last (x :: l) d = last l x.
Proof. intros A l. induction l as [| y l IH]; intros x d; [reflexivity |]. change (last (x :: y :: l) d) with (last (y :: l) d). rewrite IH. symmetry. apply IH. Qed.
Lemma batch_combined : forall f l s, Forall few l -> batch_status f l s = Some (combined f l s).
Proof.
  intros f. induction l as [| r l IH]; intros s H.
  - cbn. unfold combined. destruct (is_client_error s); reflexivity.
  - inversion_clear H as [| ? ? H1 H2]. cbn [batch_status]. unfold combined at 1. destruct (is_client_error s) eqn:Es.
    + rewrite IH by exact H2. unfold combined. rewrite Es. reflexivity.
    + rewrite complete_status by exact H1. rewrite IH by exact H2. cbn [map find filter]. unfold combined. f_equal.
      destruct (is_client_error (status_of f r)) eqn:Er.
      * rewrite (client_not_success _ Er), Er. reflexivity.
      * destruct (is_success (status_of f r)) eqn:Ec; cbn [negb]; [rewrite Es; reflexivity |]. rewrite Er, last_cons. reflexivity.
Qed.

(** ** Formats *)
Lemma max_by_spec : forall A (lt : A -> A -> bool) (l : list A),
  (forall x, lt x x = false) -> (forall x y z, lt x y = true -> lt y z = true -> lt x z = true) ->
  (forall x y z, lt x y = false -> lt y z = false -> lt x z = false) ->
  match max_by lt l with
  | None => l = []
  | Some m => exists pre post, l = pre ++ m :: post /\ (forall x, In x l -> lt m x = false) /\ (forall x, In x post -> lt x m = true)
  end.
Proof.
  intros A lt l Hi Ht Hn. induction l as [| x l IH]; [reflexivity |]. cbn [max_by]. destruct (max_by lt l) as [m |].
  - destruct IH as (pre & post & -> & H1 & H2). destruct (lt m x) eqn:E.
    + exists [], (pre ++ m :: post). split; [reflexivity |].
      assert (G : forall y, In y (pre ++ m :: post) -> lt y x = true).
      { intros y Hy. destruct (lt y x) eqn:Ey; [reflexivity |]. rewrite (Hn m y x (H1 y Hy) Ey) in E. discriminate. }
      split; [| exact G]. intros y [<- | Hy]; [apply Hi |]. destruct (lt x y) eqn:Ey; [| reflexivity]. assert (C := Ht x y x Ey (G y Hy)). rewrite Hi in C. discriminate.
    + exists (x :: pre), post. split; [reflexivity |]. split; [| exact H2]. intros y [<- | Hy]; [exact E | exact (H1 y Hy)].
  - rewrite IH. exists [], []. split; [reflexivity |]. split; [| intros y []]. intros y [<- | []]. apply Hi.
Qed.
Lemma qltb_irrefl : forall q, qltb q q = false.
Proof. intro q. unfold qltb. destruct (qkey q) as [a b]. rewrite !Z.ltb_irrefl, Z.eqb_refl. reflexivity. Qed.
Lemma qltb_trans : forall a b c, qltb a b = true -> qltb b c = true -> qltb a c = true.
Proof.
  intros a b c. unfold qltb. destruct (qkey a) as [a1 a2], (qkey b) as [b1 b2], (qkey c) as [c1 c2]. rewrite !orb_true_iff, !andb_true_iff, !Z.ltb_lt, !Z.eqb_eq. lia.
Qed.
Lemma qltb_ntrans : forall a b c, qltb a b = false -> qltb b c = false -> qltb a c = false.
Proof.
  intros a b c. unfold qltb. destruct (qkey a) as [a1 a2], (qkey b) as [b1 b2], (qkey c) as [c1 c2]. rewrite !orb_false_iff, !andb_false_iff, !Z.ltb_ge, !Z.eqb_neq. lia.
Qed.
Lemma has_quality_of : forall m, has_quality m (quality_of m).
Proof.
  intro m. unfold quality_of, has_quality. induction (m_params m) as [| [k v] l IH].
  - right. split; [reflexivity |]. right. intros [].
  - cbn [find fst]. destruct (String.eqb k "q") eqn:E.
    + apply String.eqb_eq in E as ->. destruct v as [q |]; [left | right; split; [reflexivity | left]]; exists [], l; (split; [reflexivity | intros []]).
    + apply String.eqb_neq in E. set (q := match find _ l with Some (_, Some q) => q | _ => Fin 1000 end) in *. clearbody q.
      destruct IH as [(pre & rest & -> & H) | (-> & [(pre & rest & -> & H) | H])].
      * left. exists ((k, v) :: pre), rest. split; [reflexivity |]. intros [C | C]; [exact (E C) | exact (H C)].
      * right. split; [reflexivity |]. left. exists ((k, v) :: pre), rest. split; [reflexivity |]. intros [C | C]; [exact (E C) | exact (H C)].
      * right. split; [reflexivity |]. right. intros [C | C]; [exact (E C) | exact (H C)].
Qed.
Lemma find_first : forall (l : list (string * option quality)) pre v rest, l = pre ++ ("q"%string, v) :: rest -> ~ In "q"%string (map fst pre) ->
  find (fun p => String.eqb (fst p) "q") l = Some ("q"%string, v).
Proof.
  intros l pre v rest -> H. induction pre as [| [k x] pre IH]; [reflexivity |]. cbn [app find fst]. destruct (String.eqb k "q") eqn:E.
  - apply String.eqb_eq in E as ->. exfalso. apply H. left. reflexivity.
  - apply IH. intro C. apply H. right. exact C.
Qed.
Lemma quality_unique : forall m q, has_quality m q -> quality_of m = q.
Proof.
  intros m q H. unfold quality_of. destruct H as [(pre & rest & H1 & H2) | (-> & [(pre & rest & H1 & H2) | H])].
  - rewrite (find_first _ pre _ rest H1 H2). reflexivity.
  - rewrite (find_first _ pre _ rest H1 H2). reflexivity.
  - destruct (find _ (m_params m)) as [[k v] |] eqn:E; [| reflexivity]. apply find_some in E as [E1 E2]. apply String.eqb_eq in E2. cbn [fst] in E2. subst k. exfalso. apply H. apply in_map_iff. exists ("q"%string, v). split; [reflexivity | exact E1].
Qed.
Lemma supported_acceptable : forall m, supported (m_essence m) = true <-> acceptable m.
Proof.
  intro m. unfold acceptable. destruct (m_essence m); cbn; split; try reflexivity; try discriminate; intros H;
    first [exists (Complete Json); exact Logic.I | exists (Complete GraphqlJson); exact Logic.I | exists (Streaming Sse); exact Logic.I | exists (Streaming Incremental); exact Logic.I | idtac].
  destruct H as ([[] | []] & []).
Qed.
Lemma format_answers : forall e f, format_of e = Some f <-> answers e f.
Proof. intros e f. destruct e, f as [[] | []]; cbn; split; intro H; try exact Logic.I; try discriminate; try contradiction; try reflexivity. Qed.
Lemma media_list_somes : forall h, somes (concat (somes h)) = media_list h.
Proof.
  unfold media_list, somes. induction h as [| [v |] h IH]; [reflexivity | | exact IH]. cbn [flat_map app concat]. rewrite flat_map_app, IH. reflexivity.
Qed.
Lemma candidates_in : forall h c, In c (candidates h) <-> In (fst c) (media_list h) /\ acceptable (fst c) /\ has_quality (fst c) (snd c).
Proof.
  intros h [m q]. unfold candidates. rewrite in_map_iff, media_list_somes. cbn [fst snd]. split.
  - intros (m' & H & Hm). injection H as -> <-. apply filter_In in Hm as [H1 H2]. split; [exact H1 |]. split; [apply supported_acceptable, H2 | apply has_quality_of].
  - intros (H1 & H2 & H3). exists m. rewrite (quality_unique _ _ H3). split; [reflexivity |]. apply filter_In. split; [exact H1 | apply supported_acceptable, H2].
Qed.
Lemma filter_split : forall A (p : A -> bool) l pre m post, filter p l = pre ++ m :: post ->
  exists l1 l2, l = l1 ++ m :: l2 /\ filter p l2 = post.
Proof.
  intros A p. induction l as [| x l IH]; intros pre m post H; [destruct pre; discriminate |]. cbn [filter] in H. destruct (p x).
  - destruct pre as [| y pre].
    + injection H as -> <-. exists [], l. split; reflexivity.
    + injection H as -> H. destruct (IH _ _ _ H) as (l1 & l2 & -> & E). exists (y :: l1), l2. split; [reflexivity | exact E].
  - destruct (IH _ _ _ H) as (l1 & l2 & -> & E). exists (x :: l1), l2. split; [reflexivity | exact E].
Qed.
Lemma map_split : forall A B (f : A -> B) l pre x post, map f l = pre ++ x :: post -> exists l1 a l2, l = l1 ++ a :: l2 /\ f a = x /\ map f l2 = post.
Proof.
  intros A B f. induction l as [| a l IH]; intros pre x post H; [destruct pre; discriminate |]. destruct pre as [| y pre]; injection H as H1 H2.
  - exists [], a, l. split; [reflexivity | split; assumption].
  - destruct (IH _ _ _ H2) as (l1 & b & l2 & -> & E1 & E2). exists (a :: l1), b, l2. split; [reflexivity | split; assumption].
Qed.
Lemma qltb_lt : forall a b, qltb a b = true <-> qlt a b.
Proof.
  intros a b. unfold qltb, qlt. destruct a, b; cbn [qkey fst snd]; split; intro H; try discriminate; try contradiction; try reflexivity; try exact Logic.I.
  - apply orb_true_iff in H as [H | H]; [discriminate H |]. apply andb_true_iff in H as [_ H]. apply Z.ltb_lt, H.
  - apply orb_true_iff. right. apply andb_true_iff. split; [reflexivity | apply Z.ltb_lt, H].
Qed.
Lemma qltb_le : forall a b, qltb b a = false -> qle a b.
Proof.
  intros a b H. assert (G : ~ qlt b a) by (intro C; apply qltb_lt in C; congruence). unfold qle, qlt in *. destruct a, b; try (left; exact Logic.I); try (right; reflexivity); try (exfalso; apply G; exact Logic.I).
  destruct (Z.lt_trichotomy thousandths thousandths0) as [L | [-> | L]]; [left; exact L | right; reflexivity | contradiction].
Qed.
Lemma extract_format_spec : forall h, h <> [] ->
  match extract_format h with
  | None => forall m, In m (media_list h) -> ~ acceptable m
  | Some f => exists pre m post q, media_list h = pre ++ m :: post /\ answers (m_essence m) f /\ has_quality m q /\
      (forall m' q', In m' (media_list h) -> acceptable m' -> has_quality m' q' -> qle q' q) /\
      (forall m' q', In m' post -> acceptable m' -> has_quality m' q' -> qlt q' q)
  end.
Proof.
  intros h Hh. unfold extract_format. destruct h as [| v h]; [contradiction |]. set (hd := v :: h) in *.
  assert (M := max_by_spec _ (fun a b : media * quality => qltb (snd a) (snd b)) (candidates hd) (fun x => qltb_irrefl (snd x)) (fun x y z => qltb_trans _ _ _) (fun x y z => qltb_ntrans _ _ _)).
  destruct (max_by _ (candidates hd)) as [[m q] |].
  - destruct M as (pre & post & E & M1 & M2). assert (Hc : In (m, q) (candidates hd)) by (rewrite E; apply in_or_app; right; left; reflexivity).
    apply candidates_in in Hc as (H1 & H2 & H3). cbn [fst snd] in *. destruct (format_of (m_essence m)) as [f |] eqn:Ef.
    + unfold candidates in E. apply map_split in E as (l1 & a & l2 & E1 & E2 & E3). injection E2 as -> _. apply filter_split in E1 as (k1 & k2 & E1 & E2). rewrite media_list_somes in E1. exists k1, m, k2, q.
      split; [exact E1 |]. split; [apply format_answers, Ef |]. split; [exact H3 |]. split.
      * intros m' q' G1 G2 G3. apply qltb_le. apply (M1 (m', q')). apply candidates_in. split; [exact G1 | split; assumption].
      * intros m' q' G1 G2 G3. apply qltb_lt. apply (M2 (m', q')). rewrite <- E3. apply in_map_iff. exists m'. rewrite (quality_unique _ _ G3). split; [reflexivity |]. rewrite <- E2. apply filter_In. split; [exact G1 | apply supported_acceptable, G2].
    + destruct H2 as (f & H2). apply format_answers in H2. congruence.
  - intros m Hm Ha. assert (C : In (m, quality_of m) (candidates hd)) by (apply candidates_in; split; [exact Hm | split; [exact Ha | apply has_quality_of]]). rewrite M in C. exact C.
Qed.
Lemma extract_no_websocket : forall h, extract_format h <> Some (Streaming Websocket).
Proof.
  intros [| v h]; [discriminate |]. unfold extract_format. destruct (max_by _ _) as [[m q] |]; [| discriminate]. destruct (m_essence m); discriminate.
Qed.
Lemma before_until : forall s, before_semicolon s = until_semicolon s.
Proof.
  induction s as [| c s IH]; [reflexivity |]. cbn [before_semicolon until_semicolon]. rewrite IH.
  destruct (Ascii.eqb c ";") eqn:E.
  - apply Ascii.eqb_eq in E as ->. reflexivity.
  - destruct (Nat.eqb (nat_of_ascii c) 59) eqn:En; [| reflexivity]. apply Nat.eqb_eq in En. exfalso. apply Ascii.eqb_neq in E. apply E.
    rewrite <- (ascii_nat_embedding c), En. reflexivity.
Qed.

(** ** Effects and answers *)
Definition execs (l : list effect) : Prop := exists ops, l = exec_effects ops.
Lemma execs_nil : execs []. Proof. exists []. reflexivity. Qed.
Lemma execs_one : forall t o, execs [EExec t o]. Proof. intros t o. exists [(t, o)]. reflexivity. Qed.
Lemma execs_app : forall a b, execs a -> execs b -> execs (a ++ b).
Proof. intros a b (x & ->) (y & ->). exists (x ++ y). unfold exec_effects. rewrite map_app. reflexivity. Qed.
#[export] Hint Resolve execs_nil execs_one execs_app : front.
Lemma single_execs : forall w t m o, execs (fst (single w t m o)).
Proof. intros w t m o. unfold single. destruct (w_parse w o) as [r | k]; [auto with front |]. destruct k, m, (w_rest w t o); cbn [andb negb fst]; auto with front. Qed.
Lemma several_execs : forall w t m l pat, execs (fst (several w t m l pat)).
Proof.
  intros w t m. induction l as [| o l IH]; intros pat; cbn [several]; [auto with front |]. assert (S1 := single_execs w t m o).
  destruct pat as [[[| n] b] |].
  - cbn [fst]. destruct b; auto with front.
  - specialize (IH (Some (n, b))). destruct (single w t m o), (several w t m l (Some (n, b))). cbn [fst] in *. auto with front.
  - specialize (IH None). destruct (single w t m o), (several w t m l None). cbn [fst] in *. auto with front.
Qed.
Lemma stream_execs : forall w t m o, execs (fst (stream w t m o)).
Proof.
  intros w t m o. unfold stream. destruct (w_parse w o) as [r | k]; [auto with front |]. destruct k, m, (w_rest w t o); cbn [andb negb]; auto with front; destruct (w_patience w) as [[[| n] []] |]; cbn [fst]; auto with front.
Qed.
Lemma well_formed_execs : forall cfg w t m f b, execs (fst (well_formed cfg w t m f b)).
Proof.
  intros cfg w t m f [o | l]; cbn [well_formed]; destruct f as [c | s].
  - assert (H := several_execs w t m [o] (w_patience w)). destruct (several w t m [o] (w_patience w)) as [e [rs |]]; exact H.
  - assert (H := stream_execs w t m o). destruct (stream w t m o); exact H.
  - destruct (negb (c_batching cfg)); [auto with front |]. destruct (match c_batch_limit cfg with Some n => n <? List.length l | None => false end); [auto with front |].
    assert (H := several_execs w t m l (w_patience w)). destruct (several w t m l (w_patience w)) as [e [rs |]]; exact H.
  - auto with front.
Qed.
Lemma engine_order : forall cfg w t m f p c, exists ops, fst (engine_execute cfg w t m f p c) = [ELimit; ERead] ++ exec_effects ops.
Proof.
  intros cfg w t m f p c. unfold engine_execute. destruct (w_early w); [exists []; reflexivity |]. destruct (extract w p c) as [r | b]; [destruct (w_limit w); exists []; reflexivity |].
  destruct (w_limit w); [| exists []; reflexivity]. destruct (well_formed_execs cfg w t m f b) as (ops & H). destruct (well_formed cfg w t m f b) as [e a]. cbn [fst] in *. exists ops. rewrite H. reflexivity.
Qed.
Lemma route_order : forall cfg w t key p, exists contract read ops, fst (route cfg w t key p) = contract ++ read ++ exec_effects ops /\
  (contract = [] \/ exists k, contract = [EContract k]) /\ (read = [] \/ read = [ELimit; ERead]) /\ (ops <> [] -> read <> []).
Proof.
  assert (T : forall e, e = [] -> exists contract read ops, e = contract ++ read ++ exec_effects ops /\
    (contract = [] \/ exists k, contract = [EContract k]) /\ (read = [] \/ read = [ELimit; ERead]) /\ (ops <> [] -> read <> [])).
  { intros e ->. exists [], [], []. split; [reflexivity |]. split; [left; reflexivity |]. split; [left; reflexivity | intro C; contradiction]. }
  intros cfg w t key p. unfold route. destruct (p_method p); try (apply T; reflexivity); unfold contract_execute;
   (destruct (unpack p) as [[r f] | [[f c] m]]; [apply T; reflexivity |]; destruct (engine_order cfg w t m f p c) as (ops & E);
    destruct (engine_execute cfg w t m f p c) as [e a]; cbn [fst] in E; destruct key as [k |];
    [destruct (w_contract w k);
      [exists [EContract k], [], []; split; [reflexivity |]; split; [right; exists k; reflexivity |]; split; [left; reflexivity | intro C; contradiction]
      | exists [EContract k], [ELimit; ERead], ops; cbn [fst]; rewrite E; split; [reflexivity |]; split; [right; exists k; reflexivity |]; split; [right; reflexivity | intros _; discriminate]]
    | exists [], [ELimit; ERead], ops; cbn [fst]; rewrite E; split; [reflexivity |]; split; [left; reflexivity |]; split; [right; reflexivity | intros _; discriminate]]).
Qed.

(** No panics. *)
Definition sane (f : format) : Prop := f <> Streaming Websocket.
Lemma err_some : forall w f r, sane f -> exists a, err w f r = Some a.
Proof.
  intros w f r Hf. unfold err, http_error. destruct f as [f | f].
  - unfold from_complete. destruct (w_ser w r); [| eexists; reflexivity]. destruct (complete_some f r) as (s & ->). eexists. reflexivity.
  - unfold from_stream. destruct f, r; try (eexists; reflexivity); destruct (Hf eq_refl).
Qed.
Lemma single_some : forall ser c r, exists h, http_single ser c r = Some h.
Proof. intros ser c r. unfold http_single, from_complete. destruct (ser r); [| eexists; reflexivity]. destruct (complete_some c r) as (s & ->). eexists. reflexivity. Qed.
Lemma batch_some : forall c l s, exists s', batch_status c l s = Some s'.
Proof.
  intros c. induction l as [| r l IH]; intro s; cbn [batch_status]; [eexists; reflexivity |]. destruct (is_client_error s); [apply IH |]. destruct (complete_some c r) as (s' & ->). apply IH.
Qed.
Lemma http_batch_some : forall ser c l, exists h, http_batch ser c l = Some h.
Proof. intros ser c l. unfold http_batch. destruct (forallb ser l); [| eexists; reflexivity]. destruct (batch_some c l 200%N) as (s & ->). eexists. reflexivity. Qed.
Lemma stream_some : forall ser s l, s <> Websocket -> exists h, http_stream ser s l = Some h.
Proof. intros ser s l Hs. unfold http_stream, from_stream. destruct l as [| r l]; [eexists; reflexivity |]. destruct s, r; try (eexists; reflexivity); destruct (Hs eq_refl). Qed.
Lemma well_formed_some : forall cfg w t m f b, sane f -> exists a, snd (well_formed cfg w t m f b) = Some a.
Proof.
  intros cfg w t m f b Hf. destruct b as [o | l]; cbn [well_formed]; destruct f as [c | s].
  - destruct (several w t m [o] (w_patience w)) as [e [rs |]] eqn:E; [| apply err_some, Hf]. assert (L := several_some w t m [o] (w_patience w) rs). rewrite E in L. specialize (L eq_refl). destruct rs as [| r rs]; [discriminate |]. destruct (single_some (w_ser w) c r) as (h & H). exists (Graphql h). cbn [snd]. rewrite H. reflexivity.
  - destruct (stream w t m o) as [e l]. assert (Hs : s <> Websocket) by (intros ->; exact (Hf eq_refl)). destruct (stream_some (w_ser w) s l Hs) as (h & H). exists (Graphql h). cbn [snd]. rewrite H. reflexivity.
  - destruct (negb (c_batching cfg)); [apply err_some, Hf |]. destruct (match c_batch_limit cfg with Some n => n <? List.length l | None => false end); [apply err_some, Hf |].
    destruct (several w t m l (w_patience w)) as [e [rs |]]; [| apply err_some, Hf]. destruct (http_batch_some (w_ser w) c rs) as (h & H). exists (Graphql h). cbn [snd]. rewrite H. reflexivity.
  - apply err_some, Hf.
Qed.
Lemma engine_some : forall cfg w t m f p c, sane f -> exists a, snd (engine_execute cfg w t m f p c) = Some a.
Proof.
  intros cfg w t m f p c Hf. unfold engine_execute. destruct (w_early w); [apply err_some, Hf |]. destruct (extract w p c) as [r | b].
  - destruct (w_limit w); [apply err_some, Hf |]. destruct (w_limit_first w); apply err_some, Hf.
  - destruct (w_limit w); [| apply err_some, Hf]. destruct (well_formed_some cfg w t m f b Hf) as (a & H). destruct (well_formed cfg w t m f b). exists a. exact H.
Qed.
Lemma unpack_sane : forall p, match unpack p with inl (_, f) => sane f | inr (f, _, _) => sane f end.
Proof.
  intro p. unfold unpack. destruct (extract_format (p_accept p)) as [f |] eqn:E; [| discriminate].
  assert (Hf : sane f) by (intros ->; exact (extract_no_websocket _ E)). destruct (p_method p); try exact Hf. destruct (extract_content (p_ctype p)); exact Hf.
Qed.
Lemma route_some : forall cfg w t key p, exists a, snd (route cfg w t key p) = Some a.
Proof.
  intros cfg w t key p. assert (U := unpack_sane p). unfold route. destruct (p_method p); try (eexists; reflexivity); unfold contract_execute;
  (destruct (unpack p) as [[r f] | [[f c] m]]; [apply err_some, U |]; destruct (engine_some cfg w t m f p c U) as (a & H); destruct key as [k |]; [destruct (w_contract w k); [apply err_some, U |]; destruct (engine_execute cfg w t m f p c); exists a; exact H | exists a; exact H]).
Qed.
