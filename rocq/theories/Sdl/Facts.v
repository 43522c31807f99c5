(** * Facts on lines, white space and quotes *)

From Coq Require Import List NArith Bool Arith Lia.
From Verif Require Import Introspection.Render Introspection.Grammar.
From Verif.Sdl Require Import Model Spec.
Import ListNotations.
Local Open Scope list_scope.
Local Open Scope N_scope.

(** ** White space *)

Lemma white_visible c : visible_char c = negb (white c).
Proof.
  unfold visible_char. f_equal. apply eq_true_iff_eq. rewrite existsb_exists. unfold white, spaces. split.
  - intros [x [J E]]. apply N.eqb_eq in E. subst x. cbn in J.
    repeat (destruct J as [<-|J]; [reflexivity|]). destruct J.
  - intros W. exists c. split; [|apply N.eqb_refl].
    rewrite !orb_true_iff, !andb_true_iff, !N.leb_le, !N.eqb_eq in W. cbn [In].
    assert (forall a b, (a <= c <= b) -> c = a \/ (a + 1 <= c <= b)) as Step by (intros; lia).
    repeat match goal with H : _ \/ _ |- _ => destruct H as [H|H] end;
      try (subst c; tauto);
      repeat match goal with
      | H : ?a <= c <= ?b |- _ =>
          apply Step in H; destruct H as [H|H];
          [subst c; tauto|let k := eval vm_compute in (a + 1) in change (a + 1) with k in H; try (exfalso; lia)]
      end.
Qed.

Lemma visible_app a b : visible (a ++ b) = visible a ++ visible b.
Proof. apply filter_app. Qed.

Lemma visible_nil t : visible t = [] <-> forall c, In c t -> white c = true.
Proof.
  induction t as [|c t IH]; [split; [intros _ c []|reflexivity]|].
  unfold visible in *. cbn [filter]. rewrite white_visible. destruct (white c) eqn:W; cbn [negb].
  - rewrite IH. split; [intros H x [<-|J]; [exact W|exact (H x J)]|intros H x J; apply H; right; exact J].
  - split; [discriminate|]. intros H. specialize (H c (or_introl eq_refl)). congruence.
Qed.

Lemma blank_white c : blank_char c = true -> visible_char c = false.
Proof.
  unfold blank_char. rewrite orb_true_iff, !N.eqb_eq. intros [->| ->]; reflexivity.
Qed.

Lemma visible_blank l : blank l = true -> visible l = [].
Proof.
  intros B. apply visible_nil. intros c J. unfold blank in B. rewrite forallb_forall in B.
  specialize (B c J). apply blank_white in B. rewrite white_visible in B. apply negb_false_iff. exact B.
Qed.

Lemma visible_trim_start t : visible (trim_start t) = visible t.
Proof.
  induction t as [|c t IH]; [reflexivity|]. cbn [trim_start]. destruct (white c) eqn:W; [|reflexivity].
  rewrite IH. unfold visible. cbn [filter]. rewrite white_visible, W. reflexivity.
Qed.

Lemma visible_trim_end t : visible (trim_end t) = visible t.
Proof.
  induction t as [|c t IH]; [reflexivity|]. cbn [trim_end].
  change (visible (c :: t)) with (visible ([c] ++ t)). rewrite visible_app, <- IH.
  destruct (trim_end t) as [|e r].
  - unfold visible. cbn [filter]. rewrite white_visible. destruct (white c) eqn:W; cbn [negb].
    + reflexivity.
    + cbn [filter app]. rewrite white_visible, W. reflexivity.
  - rewrite <- visible_app. reflexivity.
Qed.

Lemma visible_trim t : visible (trim t) = visible t.
Proof. unfold trim. rewrite visible_trim_end. apply visible_trim_start. Qed.

Lemma visible_lines t : visible (concat (lines t)) = visible t.
Proof.
  induction t as [|c t IH]; [reflexivity|]. cbn [lines].
  change (visible (c :: t)) with (visible ([c] ++ t)). rewrite visible_app, <- IH.
  destruct (N.eqb_spec c 10) as [->|N10]; [reflexivity|].
  destruct (c =? 13) eqn:E; cbn [andb].
  - apply N.eqb_eq in E. subst c. destruct (starts_lf t); [reflexivity|].
    destruct (lines t); reflexivity.
  - destruct (lines t) as [|l ls]; [rewrite <- visible_app; reflexivity|].
    cbn [concat]. rewrite <- visible_app. reflexivity.
Qed.

Lemma visible_concat_map (f : text -> text) ls :
  (forall l, In l ls -> visible (f l) = visible l) ->
  visible (concat (map f ls)) = visible (concat ls).
Proof.
  induction ls as [|l ls IH]; intros H; [reflexivity|]. cbn [map concat].
  rewrite !visible_app, (H l) by (left; reflexivity). rewrite IH; [reflexivity|].
  intros x J. apply H. right. exact J.
Qed.

Lemma visible_skip_empty ls : visible (concat (skip_empty ls)) = visible (concat ls).
Proof.
  induction ls as [|l ls IH]; [reflexivity|]. cbn [skip_empty]. destruct l; [exact IH|reflexivity].
Qed.

Lemma visible_body ls : visible (concat (body ls)) = visible (concat ls).
Proof.
  induction ls as [|l ls IH]; [reflexivity|]. cbn [body concat].
  rewrite visible_app, <- IH, <- (visible_trim l).
  destruct (is_empty (trim l) && match ls with n :: _ => is_empty n | [] => true end) eqn:E.
  - apply andb_true_iff in E. destruct E as [E _]. destruct (trim l); [reflexivity|discriminate].
  - cbn [concat]. rewrite visible_app. reflexivity.
Qed.

(** ** The value of a block string *)

Lemma visible_block_lines t : visible (concat (block_lines t)) = visible t.
Proof.
  induction t as [|c t IH]; [reflexivity|]. cbn [block_lines].
  change (visible (c :: t)) with (visible ([c] ++ t)). rewrite visible_app, <- IH.
  destruct (N.eqb_spec c 10) as [->|N10]; [reflexivity|].
  destruct (N.eqb_spec c 13) as [->|N13].
  - destruct t as [|e t]; [reflexivity|]. destruct (e =? 10); reflexivity.
  - destruct (block_lines t) as [|l ls]; [rewrite <- visible_app; reflexivity|].
    cbn [concat]. rewrite <- visible_app. reflexivity.
Qed.

Lemma visible_skip n l : (n <= indent_of l)%nat -> visible (skipn n l) = visible l.
Proof.
  revert l. induction n as [|n IH]; intros l H; [reflexivity|].
  destruct l as [|c l]; [reflexivity|]. cbn [indent_of] in H.
  destruct (blank_char c) eqn:B; [|lia]. cbn [skipn]. rewrite IH by lia.
  unfold visible. cbn [filter]. rewrite (blank_white c B). reflexivity.
Qed.

Lemma visible_skip_blank n l : blank l = true -> visible (skipn n l) = visible l.
Proof.
  intros B. rewrite (visible_blank l B). apply visible_nil. intros c J.
  apply (proj1 (visible_nil l) (visible_blank l B)).
  rewrite <- (firstn_skipn n l). apply in_or_app. right. exact J.
Qed.

Lemma common_le ls : forall n, common_indent ls = Some n ->
  forall l, In l ls -> blank l = true \/ (n <= indent_of l)%nat.
Proof.
  induction ls as [|x ls IH]; intros n E l J; [destruct J|]. cbn [common_indent] in E.
  destruct (blank x) eqn:B.
  - destruct J as [<-|J]; [left; exact B|exact (IH n E l J)].
  - destruct (common_indent ls) as [m|] eqn:C; injection E as E.
    + destruct J as [<-|J]; [right; lia|]. destruct (IH m eq_refl l J) as [K|K]; [left; exact K|right; lia].
    + destruct J as [<-|J]; [right; lia|]. left. clear - C J.
      induction ls as [|y ls IH]; [destruct J|]. cbn [common_indent] in C.
      destruct (blank y) eqn:Y; [|destruct (common_indent ls); discriminate].
      destruct J as [<-|J]; [exact Y|exact (IH C J)].
Qed.

Lemma visible_join ls : visible (join ls) = visible (concat ls).
Proof.
  induction ls as [|l ls IH]; [reflexivity|]. cbn [join concat]. destruct ls as [|x ls].
  - cbn [concat]. rewrite app_nil_r. reflexivity.
  - rewrite !visible_app, <- IH. reflexivity.
Qed.

Lemma visible_drop_blank ls : visible (concat (drop_blank ls)) = visible (concat ls).
Proof.
  induction ls as [|l ls IH]; [reflexivity|]. cbn [drop_blank]. destruct (blank l) eqn:B; [|reflexivity].
  cbn [concat]. rewrite visible_app, (visible_blank l B). exact IH.
Qed.

(** Dropping blank lines at the end. *)
Lemma drop_blank_app ls : exists a, ls = a ++ drop_blank ls /\ visible (concat a) = [].
Proof.
  induction ls as [|l ls [a [E V]]]; [exists []; split; reflexivity|]. cbn [drop_blank].
  destruct (blank l) eqn:B; [|exists []; split; reflexivity].
  exists (l :: a). split; [cbn; f_equal; exact E|]. cbn [concat]. rewrite visible_app, V, (visible_blank l B).
  reflexivity.
Qed.

Lemma visible_rev_nil (a : list text) : visible (concat a) = [] -> visible (concat (rev a)) = [].
Proof.
  induction a as [|l a IH]; intros H; [reflexivity|]. cbn [concat rev] in *.
  rewrite visible_app in H. apply app_eq_nil in H. destruct H as [H1 H2].
  rewrite concat_app, visible_app, (IH H2). cbn [concat]. rewrite app_nil_r. exact H1.
Qed.

Lemma visible_drop_end ls : visible (concat (rev (drop_blank (rev ls)))) = visible (concat ls).
Proof.
  destruct (drop_blank_app (rev ls)) as [a [E V]].
  assert (F : ls = rev (drop_blank (rev ls)) ++ rev a).
  { rewrite <- rev_app_distr, <- E, rev_involutive. reflexivity. }
  transitivity (visible (concat (rev (drop_blank (rev ls)) ++ rev a))); [|rewrite <- F; reflexivity].
  rewrite concat_app, visible_app. rewrite (visible_rev_nil a V). rewrite app_nil_r. reflexivity.
Qed.

(** A block string keeps every visible character of its text. *)
Lemma visible_block_value raw : visible (block_value raw) = visible raw.
Proof.
  unfold block_value. rewrite visible_join, visible_drop_end, visible_drop_blank.
  rewrite <- (visible_block_lines raw). destruct (block_lines raw) as [|f o]; [reflexivity|].
  destruct (common_indent o) as [n|] eqn:C; [|reflexivity].
  cbn [concat]. rewrite !visible_app. f_equal. apply visible_concat_map.
  intros l J. destruct (common_le o n C l J) as [K|K];
    [apply visible_skip_blank; exact K|apply visible_skip; exact K].
Qed.

(** ** Quotes *)

Fixpoint has3 (t : text) : bool :=
  match t with
  | [] => false
  | c :: r =>
      (match r with a :: b :: _ => (c =? 34) && (a =? 34) && (b =? 34) | _ => false end) || has3 r
  end.

Lemma has3_spec t : has3 t = true <-> has_quotes t.
Proof.
  unfold has_quotes. induction t as [|c t IH].
  - split; [discriminate|]. intros [a [b E]]. destruct a; discriminate.
  - cbn [has3]. rewrite orb_true_iff, IH. split.
    + intros [H|[a [b E]]].
      * destruct t as [|x [|y t]]; try discriminate. rewrite !andb_true_iff, !N.eqb_eq in H.
        destruct H as [[-> ->] ->]. exists [], t. reflexivity.
      * exists (c :: a), b. rewrite E. reflexivity.
    + intros [a [b E]]. destruct a as [|x a].
      * cbn in E. injection E as -> ->. left. reflexivity.
      * cbn in E. injection E as -> E. right. exists a, b. exact E.
Qed.

Lemma has3_suffix a b : has3 (a ++ b) = false -> has3 b = false.
Proof.
  induction a as [|c a IH]; [intros H; exact H|]. cbn [app has3]. rewrite orb_false_iff. intros [_ H].
  exact (IH H).
Qed.

Lemma has3_prefix a b : has3 (a ++ b) = false -> has3 a = false.
Proof.
  intros H. destruct (has3 a) eqn:E; [|reflexivity]. apply has3_spec in E. destruct E as [x [y E]].
  rewrite <- H. symmetry. apply has3_spec. exists x, (y ++ b). rewrite E, <- !app_assoc. reflexivity.
Qed.

Lemma has3_sep c a b : c <> 34 -> has3 a = false -> has3 b = false -> has3 (a ++ c :: b) = false.
Proof.
  intros NC A B. induction a as [|x a IH].
  - cbn [app has3]. rewrite B, (proj2 (N.eqb_neq c 34) NC). destruct b as [|y [|z b]]; reflexivity.
  - cbn [has3] in A. apply orb_false_iff in A. destruct A as [A1 A2]. cbn [app has3].
    rewrite (IH A2), orb_false_r.
    destruct a as [|y [|z a]]; cbn [app].
    + destruct b as [|e b]; [reflexivity|]. rewrite (proj2 (N.eqb_neq c 34) NC), andb_false_r. reflexivity.
    + rewrite (proj2 (N.eqb_neq c 34) NC), !andb_false_r. reflexivity.
    + exact A1.
Qed.

(** Text that ends before the closing quotes is read as it is. *)
Lemma read_plain u : forall e rest,
  has3 (u ++ [e]) = false -> e <> 34 -> e <> 92 ->
  (forall c, In c (u ++ [e]) -> source_char c = true) ->
  read_block (u ++ e :: 34 :: 34 :: 34 :: rest) = Some (u ++ [e], rest).
Proof.
  induction u as [|c u IH]; intros e rest H NQ NB HS.
  - cbn [app read_block]. rewrite (proj2 (N.eqb_neq e 34) NQ), (proj2 (N.eqb_neq e 92) NB).
    rewrite (HS e) by (left; reflexivity). reflexivity.
  - cbn [app] in H. cbn [has3] in H. apply orb_false_iff in H. destruct H as [H1 H2].
    assert (R : read_block (u ++ e :: 34 :: 34 :: 34 :: rest) = Some (u ++ [e], rest)).
    { apply IH; [exact H2|exact NQ|exact NB|]. intros x J. apply HS. right. exact J. }
    cbn [app read_block]. destruct (N.eqb_spec c 34) as [->|N34].
    + destruct u as [|x u]; cbn [app] in *.
      * rewrite (proj2 (N.eqb_neq e 34) NQ). cbn [andb]. rewrite R. reflexivity.
      * destruct u as [|y u]; cbn [app] in *.
        -- rewrite (proj2 (N.eqb_neq e 34) NQ), andb_false_r. rewrite R. reflexivity.
        -- cbn [N.eqb Pos.eqb andb] in H1. rewrite H1. rewrite R. reflexivity.
    + destruct (N.eqb_spec c 92) as [->|N92].
      * destruct u as [|x u]; cbn [app] in *.
        -- rewrite (proj2 (N.eqb_neq e 34) NQ). cbn [andb]. rewrite R. reflexivity.
        -- destruct u as [|y u]; cbn [app] in *.
           ++ rewrite (proj2 (N.eqb_neq e 34) NQ), andb_false_r. cbn [andb]. rewrite R. reflexivity.
           ++ assert (G : forall z w, u ++ e :: 34 :: 34 :: 34 :: rest = z :: w ->
                      (x =? 34) && (y =? 34) && (z =? 34) = false).
              { intros z w E. destruct u as [|z' u]; cbn [app] in *; injection E as <- _.
                - rewrite (proj2 (N.eqb_neq e 34) NQ), andb_false_r. reflexivity.
                - cbn [has3] in H2. apply orb_false_iff in H2. exact (proj1 H2). }
              destruct (u ++ e :: 34 :: 34 :: 34 :: rest) as [|z w] eqn:E.
              ** destruct u; discriminate.
              ** rewrite (G z w eq_refl). rewrite R. reflexivity.
      * rewrite (HS c) by (left; reflexivity). rewrite R. reflexivity.
Qed.

(** ** Lines of the writer *)

Lemma lines_prefix t : forall l ls, lines t = l :: ls -> exists s, t = l ++ s.
Proof.
  induction t as [|c t IH]; intros l ls E; cbn [lines] in E; [discriminate|].
  destruct (c =? 10) eqn:N10; [injection E as <- <-; exists (c :: t); reflexivity|].
  destruct ((c =? 13) && starts_lf t) eqn:C.
  - apply andb_true_iff in C. destruct C as [_ C]. destruct t as [|e t]; [discriminate|].
    cbn [starts_lf] in C. cbn [lines] in E. rewrite C in E. injection E as <- <-.
    exists (c :: e :: t). reflexivity.
  - destruct (lines t) as [|l' ls'] eqn:Q; injection E as <- <-.
    + exists t. reflexivity.
    + destruct (IH l' ls' eq_refl) as [s E]. exists s. cbn. f_equal. exact E.
Qed.

Lemma lines_no3 t : has3 t = false -> Forall (fun l => has3 l = false) (lines t).
Proof.
  induction t as [|c t IH]; intros H; [constructor|].
  pose proof (has3_suffix [c] t H) as H2. specialize (IH H2). cbn [lines].
  destruct (c =? 10) eqn:N10; [constructor; [reflexivity|exact IH]|].
  destruct ((c =? 13) && starts_lf t) eqn:C; [exact IH|].
  destruct (lines t) as [|l ls] eqn:Q.
  - constructor; [reflexivity|constructor].
  - inversion IH as [|? ? A B]; subst. constructor; [|exact B].
    destruct (lines_prefix t l ls Q) as [s E]. apply (has3_prefix (c :: l) s). cbn [app].
    rewrite <- E. exact H.
Qed.

Lemma lines_chars t : forall l c, In l (lines t) -> In c l -> In c t.
Proof.
  induction t as [|x t IH]; intros l c J K; cbn [lines] in J; [destruct J|].
  destruct (x =? 10).
  { destruct J as [<-|J]; [destruct K|right; exact (IH l c J K)]. }
  destruct ((x =? 13) && starts_lf t); [right; exact (IH l c J K)|].
  destruct (lines t) as [|l' ls'].
  - destruct J as [<-|[]]. destruct K as [<-|[]]. left. reflexivity.
  - destruct J as [<-|J].
    + destruct K as [<-|K]; [left; reflexivity|right; exact (IH l' c (or_introl eq_refl) K)].
    + right. exact (IH l c (or_intror J) K).
Qed.

Lemma trim_start_suffix t : exists s, t = s ++ trim_start t.
Proof.
  induction t as [|c t [s E]]; [exists []; reflexivity|]. cbn [trim_start].
  destruct (white c); [|exists []; reflexivity]. exists (c :: s). cbn. f_equal. exact E.
Qed.

Lemma trim_end_prefix t : exists s, t = trim_end t ++ s.
Proof.
  induction t as [|c t [s E]]; [exists []; reflexivity|]. cbn [trim_end].
  destruct (trim_end t) as [|e r] eqn:Q.
  - destruct (white c); [exists (c :: t); reflexivity|]. exists t. reflexivity.
  - exists s. cbn. f_equal. exact E.
Qed.

Lemma trim_no3 t : has3 t = false -> has3 (trim t) = false.
Proof.
  intros H. unfold trim. destruct (trim_start_suffix t) as [s E]. rewrite E in H. apply has3_suffix in H.
  destruct (trim_end_prefix (trim_start t)) as [s' E']. rewrite E' in H. exact (has3_prefix _ _ H).
Qed.

Lemma trim_chars t c : In c (trim t) -> In c t.
Proof.
  intros J. unfold trim in J. destruct (trim_end_prefix (trim_start t)) as [s' E'].
  destruct (trim_start_suffix t) as [s E]. rewrite E. apply in_or_app. right. rewrite E'.
  apply in_or_app. left. exact J.
Qed.

Lemma trim_end_chars t c : In c (trim_end t) -> In c t.
Proof.
  intros J. destruct (trim_end_prefix t) as [s' E']. rewrite E'. apply in_or_app. left. exact J.
Qed.

Lemma skip_empty_in ls l : In l (skip_empty ls) -> In l ls.
Proof.
  induction ls as [|x ls IH]; intros J; [exact J|]. cbn [skip_empty] in J.
  destruct (is_empty x); [right; exact (IH J)|exact J].
Qed.

Lemma body_in ls l : In l (body ls) -> exists x, In x ls /\ l = trim x.
Proof.
  induction ls as [|x ls IH]; intros J; [destruct J|]. cbn [body] in J.
  destruct (is_empty (trim x) && _).
  - destruct (IH J) as [y [K E]]. exists y. split; [right; exact K|exact E].
  - destruct J as [<-|J]; [exists x; split; [left|]; reflexivity|].
    destruct (IH J) as [y [K E]]. exists y. split; [right; exact K|exact E].
Qed.
