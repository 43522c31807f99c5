(** C126: what is written in schemas for MCP clients is read as it was. *)
From Coq Require Import List Bool NArith Arith Lia.
From Verif.SdlText Require Import Model Spec.
Import ListNotations.
Open Scope N_scope.
Open Scope list_scope.

(** Control characters whose code has the same digits in decimal and in hexadecimal, or that have an escape of their own. *)
Definition Safe (c : N) : Prop := ~ (10 < c < 32 /\ c <> 13) /\ ~ (127 <= c <= 159).

Lemma quoted_char_reads : forall c rest t k, Safe c -> read_body rest = Some (t, k) ->
  read_body (quoted_char c ++ rest) = Some (c :: t, k).
Proof.
  intros c rest t k [S1 S2] E. unfold quoted_char, newline, quote, backslash.
  destruct (c =? 13) eqn:E1; [apply N.eqb_eq in E1; subst c; cbn; rewrite E; reflexivity|].
  destruct (c =? 10) eqn:E2; [apply N.eqb_eq in E2; subst c; cbn; rewrite E; reflexivity|].
  destruct (c =? 9) eqn:E3; [apply N.eqb_eq in E3; subst c; cbn; rewrite E; reflexivity|].
  destruct (c =? 34) eqn:E4; [apply N.eqb_eq in E4; subst c; cbn; rewrite E; reflexivity|].
  destruct (c =? 92) eqn:E5; [apply N.eqb_eq in E5; subst c; cbn; rewrite E; reflexivity|].
  apply N.eqb_neq in E1, E2, E3. destruct (is_control c) eqn:Ec.
  - unfold is_control in Ec. apply orb_true_iff in Ec. rewrite andb_true_iff, N.ltb_lt, !N.leb_le in Ec.
    assert (L : c < 9) by lia.
    assert (H : In c (map N.of_nat (seq 0 9))) by (apply in_map_iff; exists (N.to_nat c); split; [lia|apply in_seq; lia]).
    cbn [seq map In] in H. repeat (destruct H as [<-|H]; [cbn; rewrite E; reflexivity|]). destruct H.
  - cbn [app read_body]. rewrite E4, E5. apply N.eqb_neq in E1, E2. rewrite E1, E2. cbn [orb]. rewrite E. reflexivity.
Qed.

(** Addresses are read as they are. *)
Theorem C126_quoted_partial : forall s rest, Forall Safe s -> read_string (write_quoted s ++ rest) = Some (s, rest).
Proof.
  intros s rest H. unfold write_quoted, quote. cbn [app read_string]. rewrite <- app_assoc.
  induction H as [|c s Hc H IH]; [reflexivity|]. cbn [flat_map]. rewrite <- app_assoc. apply quoted_char_reads; [exact Hc|exact IH].
Qed.

(** Not so with control characters: this one is read as another. *)
Theorem C126_quoted_refuted : exists s t, read_string (write_quoted s) = Some (t, []) /\ s <> t.
Proof. exists [16], [22]. split; [vm_compute; reflexivity|discriminate]. Qed.

(** * Descriptions *)

Lemma drop_spaces_id : forall s, (forall c r, s = c :: r -> is_space c = false) -> drop_spaces s = s.
Proof. intros [|c r] H; [reflexivity|]. cbn [drop_spaces]. rewrite (H c r eq_refl). reflexivity. Qed.

Lemma trim_end_id : forall s, (forall a c, s = a ++ [c] -> is_space c = false) -> trim_end s = s.
Proof.
  intros s H. unfold trim_end. rewrite drop_spaces_id; [apply rev_involutive|]. intros c r E. apply (H (rev r) c).
  apply (f_equal (@rev N)) in E. rewrite rev_involutive in E. exact E.
Qed.

Lemma escape_reads : forall s rest, Forall (fun c => c <> 92 /\ c <> 10 /\ c <> 13) s ->
  read_body (escape_quotes s ++ 34 :: rest) = Some (s, rest).
Proof.
  intros s rest H. unfold escape_quotes, quote, backslash. induction H as [|c s (H1 & H2 & H3) H IH]; [reflexivity|].
  cbn [flat_map]. rewrite <- app_assoc. destruct (c =? 34) eqn:E.
  - apply N.eqb_eq in E. subst c. cbn. rewrite IH. reflexivity.
  - cbn [app read_body]. rewrite E. apply N.eqb_neq in H1, H2, H3. rewrite H1, H2, H3. cbn [orb]. rewrite IH. reflexivity.
Qed.

(** A description of one line, without backslashes and without white space at its end, is read as it is; it is on a line of
    its own, at its indentation. *)
Theorem C126_line_partial : forall indent d, Forall (fun c => c <> 92 /\ c <> 10 /\ c <> 13) d ->
  (forall a c, d = a ++ [c] -> c <> 32 /\ ~ (9 <= c <= 13)) ->
  exists s, write_description indent d = repeat 32 (2 * indent) ++ s /\ read_string s = Some (d, [10]).
Proof.
  intros indent d H T. unfold write_description, spaces.
  assert (E : existsb (N.eqb newline) d = false).
  { apply not_true_iff_false. rewrite existsb_exists. intros (c & Hc & Ec). apply N.eqb_eq in Ec. subst c. rewrite Forall_forall in H.
    destruct (H _ Hc) as (_ & N1 & _). apply N1. reflexivity. }
  rewrite E. eexists. split; [reflexivity|]. rewrite trim_end_id.
  - cbn [app read_string quote]. apply (escape_reads d [10] H).
  - intros a c Ed. destruct (T a c Ed) as [T1 T2]. unfold is_space. apply orb_false_iff. rewrite N.eqb_neq, andb_false_iff, !N.leb_gt. lia.
Qed.

(** * Descriptions on several lines *)

Lemma triple_false : forall c s, c <> 34 -> triple (c :: s) = false.
Proof. intros c [|a [|b s]] H; try reflexivity. cbn [triple]. apply N.eqb_neq in H. rewrite H. reflexivity. Qed.

Lemma read_raw_plain : forall x r, Forall (fun c => c <> 34) x -> (forall a, x <> a ++ [92]) ->
  read_raw (x ++ 34 :: 34 :: 34 :: r) = Some (x, r).
Proof.
  induction x as [|c x IH]; intros r F L; [reflexivity|]. apply Forall_cons_iff in F. destruct F as [Hc F].
  change ((c :: x) ++ 34 :: 34 :: 34 :: r) with (c :: (x ++ 34 :: 34 :: 34 :: r)). cbn [read_raw]. rewrite (triple_false c _ Hc).
  assert (E : (c =? 92) && triple (x ++ 34 :: 34 :: 34 :: r) = false).
  { destruct x as [|y x].
    - destruct (c =? 92) eqn:E; [|reflexivity]. apply N.eqb_eq in E. subst c. destruct (L []). reflexivity.
    - cbn [app]. rewrite triple_false by (apply (Forall_inv F)). apply andb_false_r. }
  rewrite E, IH; [reflexivity|exact F|]. intros a Ea. apply (L (c :: a)). rewrite Ea. reflexivity.
Qed.

Lemma lines_app : forall l z, Forall (fun c => c <> 10) l -> lines (l ++ 10 :: z) = l :: lines z.
Proof.
  intros l z H. induction H as [|c l Hc H IH]; [reflexivity|]. cbn [app lines]. unfold newline. apply N.eqb_neq in Hc. rewrite Hc, IH. reflexivity.
Qed.

Lemma lines_one : forall l, Forall (fun c => c <> 10) l -> lines l = [l].
Proof.
  intros l H. induction H as [|c l Hc H IH]; [reflexivity|]. cbn [lines]. unfold newline. apply N.eqb_neq in Hc. rewrite Hc, IH. reflexivity.
Qed.

Lemma line_no_newline : forall l, Line l -> Forall (fun c => c <> 10) l.
Proof. intros l [H _]. eapply Forall_impl; [|exact H]. intros c Hc. exact (proj1 (proj2 Hc)). Qed.

Lemma joined_lines : forall ls d, Joined ls d -> Forall Line ls -> lines d = ls.
Proof.
  intros ls d J. induction J as [l|l ls d J IH]; intros F; apply Forall_cons_iff in F; destruct F as [Fl F].
  - apply lines_one, line_no_newline, Fl.
  - rewrite (lines_app _ _ (line_no_newline _ Fl)), (IH F). reflexivity.
Qed.

Lemma joined_unlines : forall ls d, Joined ls d -> unlines ls = d.
Proof.
  intros ls d J. induction J as [l|l ls d J IH]; [reflexivity|]. rewrite <- IH. destruct ls as [|m ls]; [inversion J|]. reflexivity.
Qed.

Lemma spaces_no_newline : forall k, Forall (fun c => c <> 10) (repeat 32 k).
Proof. induction k as [|k IH]; [constructor|]. cbn [repeat]. constructor; [discriminate|exact IH]. Qed.

Lemma spaces_no_quote : forall k, Forall (fun c => c <> 34) (repeat 32 k).
Proof. induction k as [|k IH]; [constructor|]. cbn [repeat]. constructor; [discriminate|exact IH]. Qed.

Lemma body_lines : forall k q ls, Forall Line ls -> Forall (fun c => c <> 10) q ->
  lines (flat_map (fun l => repeat 32 k ++ l ++ [10]) ls ++ q) = map (app (repeat 32 k)) ls ++ [q].
Proof.
  intros k q ls H Hq. induction H as [|l ls Hl H IH]; [apply lines_one, Hq|]. cbn [flat_map map app].
  replace ((repeat 32 k ++ l ++ [10]) ++ flat_map (fun l => repeat 32 k ++ l ++ [10]) ls)
    with ((repeat 32 k ++ l) ++ 10 :: flat_map (fun l => repeat 32 k ++ l ++ [10]) ls) by (rewrite <- !app_assoc; reflexivity).
  rewrite <- app_assoc. cbn [app]. rewrite lines_app, IH; [reflexivity|]. apply Forall_app. split; [apply spaces_no_newline|apply line_no_newline, Hl].
Qed.

Lemma indent_spaces : forall k l, indent_of (repeat 32 k ++ l) = (k + indent_of l)%nat.
Proof. induction k as [|k IH]; intros l; [reflexivity|]. cbn [repeat app indent_of]. rewrite IH. reflexivity. Qed.

Lemma blank_spaces : forall k l, blank (repeat 32 k ++ l) = blank l.
Proof. induction k as [|k IH]; intros l; [reflexivity|]. cbn [repeat app]. unfold blank in *. cbn [forallb]. rewrite IH. reflexivity. Qed.

Definition meet (a : option nat) (l : text) : option nat :=
  if blank l then a else match a with None => Some (indent_of l) | Some n => Some (Nat.min n (indent_of l)) end.

Lemma meet_keeps : forall k ls, fold_left meet (map (app (repeat 32 k)) ls) (Some k) = Some k.
Proof.
  intros k. induction ls as [|l ls IH]; [reflexivity|]. cbn [map fold_left]. unfold meet at 2. rewrite blank_spaces, indent_spaces.
  destruct (blank l); [exact IH|]. rewrite Nat.min_l by lia. exact IH.
Qed.

Lemma flush_facts : forall l, Flush l -> blank l = false /\ indent_of l = 0%nat.
Proof.
  intros l (c & r & -> & H1 & H2). apply N.eqb_neq in H1, H2. unfold blank. cbn [forallb indent_of]. rewrite H1, H2. split; reflexivity.
Qed.

Lemma meet_reaches : forall k ls a, (a = None \/ exists n, a = Some n /\ (k <= n)%nat) -> Exists Flush ls ->
  fold_left meet (map (app (repeat 32 k)) ls) a = Some k.
Proof.
  intros k. induction ls as [|l ls IH]; intros a Ha E; [inversion E|]. cbn [map fold_left]. apply Exists_cons in E.
  assert (M : meet a (repeat 32 k ++ l) = None \/ exists n, meet a (repeat 32 k ++ l) = Some n /\ (k <= n)%nat).
  { unfold meet. rewrite blank_spaces, indent_spaces. destruct (blank l); [exact Ha|]. right.
    destruct Ha as [->|(n & -> & Hn)]; eexists; (split; [reflexivity|lia]). }
  destruct E as [E|E]; [|apply IH; assumption].
  destruct (flush_facts l E) as [B I0].
  assert (K : meet a (repeat 32 k ++ l) = Some k).
  { unfold meet. rewrite blank_spaces, indent_spaces, B, I0, Nat.add_0_r. destruct Ha as [->|(n & -> & Hn)]; [reflexivity|].
    rewrite Nat.min_r by exact Hn. reflexivity. }
  rewrite K. apply meet_keeps.
Qed.

Lemma escape_plain : forall l, Forall (fun c => c <> 34) l -> escape_quotes l = l.
Proof.
  intros l H. unfold escape_quotes, quote. induction H as [|c l Hc H IH]; [reflexivity|]. cbn [flat_map]. apply N.eqb_neq in Hc.
  rewrite Hc, IH. reflexivity.
Qed.

Lemma line_written : forall l, Line l -> escape_quotes (trim_end l) = l.
Proof.
  intros l [F T]. rewrite trim_end_id.
  - apply escape_plain. eapply Forall_impl; [|exact F]. intros c Hc. exact (proj1 Hc).
  - intros a c E. destruct (T a c E) as [T1 T2]. unfold is_space. apply orb_false_iff. rewrite N.eqb_neq, andb_false_iff, !N.leb_gt. lia.
Qed.

Lemma no_backslash_end : forall x k a, x ++ 10 :: repeat 32 k <> a ++ [92].
Proof.
  intros x k a E. apply (f_equal (@rev N)) in E. rewrite !rev_app_distr in E. cbn [rev app] in E.
  destruct k as [|k]; [cbn in E; discriminate|].
  assert (R : rev (repeat 32 (S k)) = 32 :: rev (repeat 32 k)).
  { assert (Q : forall n, repeat 32 n ++ [32] = 32 :: repeat 32 n) by (induction n as [|n IHn]; [reflexivity|cbn [repeat app]; rewrite IHn; reflexivity]).
    cbn [repeat]. rewrite <- Q, rev_app_distr. reflexivity. }
  rewrite R in E. discriminate.
Qed.

(** A description of several lines without quotes is read as it is, backslashes included: provided a line is not indented,
    the first and last ones are not empty, and no line ends with white space. *)
Theorem C126_block_partial : forall indent l ls d, Joined (l :: ls) d -> ls <> [] -> Forall Line (l :: ls) -> Exists Flush (l :: ls) ->
  (forall f, f = l \/ (exists b, l :: ls = b ++ [f]) -> exists c, In c f /\ c <> 32 /\ c <> 9) ->
  exists s, write_description indent d = repeat 32 (2 * indent) ++ s /\ read s = Some (d, [10]).
Proof.
  intros indent l ls d J N1 F X Ends. unfold write_description, spaces.
  assert (E : existsb (N.eqb newline) d = true).
  { inversion J as [x Hx Hd|x y d' J' Hx Hd]; subst; [contradiction|]. rewrite existsb_app. apply orb_true_iff. right. reflexivity. }
  rewrite E. eexists. split; [reflexivity|]. set (k := (2 * indent)%nat).
  rewrite (joined_lines _ _ J F).
  assert (W : flat_map (fun l => repeat 32 k ++ escape_quotes (trim_end l) ++ [newline]) (l :: ls) = flat_map (fun l => repeat 32 k ++ l ++ [10]) (l :: ls)).
  { clear - F. induction F as [|x xs Hx F IH]; [reflexivity|]. cbn [flat_map]. rewrite IH, (line_written x Hx). reflexivity. }
  rewrite W. set (body := flat_map (fun l => repeat 32 k ++ l ++ [10]) (l :: ls)).
  unfold quote, newline. cbn [app read].
  assert (Bq : Forall (fun c => c <> 34) body).
  { unfold body. apply Forall_flat_map. eapply Forall_impl; [|exact F]. intros x [Hx _]. apply Forall_app. split; [apply spaces_no_quote|].
    apply Forall_app. split; [eapply Forall_impl; [|exact Hx]; intros c Hc; exact (proj1 Hc)|]. constructor; [discriminate|constructor]. }
  assert (Be : exists b, body = b ++ [10]).
  { unfold body. clear. revert l. induction ls as [|m ls IH]; intros l.
    - exists (repeat 32 k ++ l). cbn [flat_map]. rewrite app_nil_r, app_assoc. reflexivity.
    - destruct (IH m) as (b & Hb). exists ((repeat 32 k ++ l ++ [10]) ++ b).
      change (flat_map (fun l => repeat 32 k ++ l ++ [10]) (l :: m :: ls)) with ((repeat 32 k ++ l ++ [10]) ++ flat_map (fun l => repeat 32 k ++ l ++ [10]) (m :: ls)).
      rewrite Hb, app_assoc. reflexivity. }
  assert (R : read_raw (10 :: body ++ repeat 32 k ++ [34; 34; 34; 10]) = Some (10 :: body ++ repeat 32 k, [10])).
  { change (10 :: body ++ repeat 32 k ++ [34; 34; 34; 10]) with ((10 :: body) ++ repeat 32 k ++ 34 :: 34 :: 34 :: [10]). rewrite app_assoc.
    apply read_raw_plain.
    - constructor; [discriminate|]. apply Forall_app. split; [exact Bq|apply spaces_no_quote].
    - destruct Be as (b & ->). intros a Ea. apply (no_backslash_end (10 :: b) k a). rewrite <- Ea. cbn [app]. rewrite <- app_assoc. reflexivity. }
  rewrite R. f_equal. f_equal. unfold block_value.
  assert (Ls : lines (10 :: body ++ repeat 32 k) = [] :: map (app (repeat 32 k)) (l :: ls) ++ [repeat 32 k]).
  { change (lines (10 :: body ++ repeat 32 k)) with ([] :: lines (body ++ repeat 32 k)). unfold body. rewrite body_lines; [reflexivity|exact F|apply spaces_no_newline]. }
  rewrite Ls. cbv zeta.
  assert (Cm : common ([] :: map (app (repeat 32 k)) (l :: ls) ++ [repeat 32 k]) = Some k).
  { change (fold_left meet (map (app (repeat 32 k)) (l :: ls) ++ [repeat 32 k]) None = Some k).
    rewrite fold_left_app. transitivity (fold_left meet [repeat 32 k] (Some k)); [f_equal; exact (meet_reaches k _ None (or_introl eq_refl) X)|].
    cbn [fold_left]. unfold meet.
    pose proof (blank_spaces k []) as B. rewrite app_nil_r in B. rewrite B. reflexivity. }
  rewrite Cm.
  assert (Sk : forall x, skipn k (repeat 32 k ++ x) = x) by (intros x; generalize k as n; induction n as [|n IHn]; [reflexivity|exact IHn]).
  assert (Sm : map (skipn k) (map (app (repeat 32 k)) (l :: ls) ++ [repeat 32 k]) = (l :: ls) ++ [[]]).
  { rewrite map_app, map_map. rewrite (map_ext _ (fun x => x)) by exact Sk. rewrite map_id. cbn [map].
    pose proof (Sk []) as S0. rewrite app_nil_r in S0. rewrite S0. reflexivity. }
  rewrite Sm.
  assert (Nb : forall f, (exists c, In c f /\ c <> 32 /\ c <> 9) -> blank f = false).
  { intros f (c & Hc & H1 & H2). apply not_true_iff_false. unfold blank. rewrite forallb_forall. intros H. specialize (H c Hc).
    apply orb_true_iff in H. rewrite !N.eqb_eq in H. tauto. }
  assert (D1 : drop_blank ([] :: (l :: ls) ++ [[]]) = (l :: ls) ++ [[]]).
  { cbn [drop_blank app]. change (blank []) with true. cbv iota. rewrite (Nb l (Ends l (or_introl eq_refl))). reflexivity. }
  transitivity (unlines (rev (drop_blank (rev ((l :: ls) ++ [[]]))))); [do 4 f_equal; exact D1|].
  rewrite rev_app_distr. change (rev [[]] ++ rev (l :: ls)) with ([] :: rev (l :: ls)).
  change (drop_blank ([] :: rev (l :: ls))) with (drop_blank (rev (l :: ls))).
  assert (D2 : drop_blank (rev (l :: ls)) = rev (l :: ls)).
  { destruct (rev (l :: ls)) as [|f rs] eqn:Er; [reflexivity|]. cbn [drop_blank]. rewrite Nb; [reflexivity|]. apply Ends. right. exists (rev rs).
    apply (f_equal (@rev text)) in Er. rewrite rev_involutive in Er. exact Er. }
  transitivity (unlines (rev (rev (l :: ls)))); [do 2 f_equal; exact D2|]. rewrite rev_involutive. apply joined_unlines, J.
Qed.

(** Not so with backslashes: they are not escaped. The value is another, or there is none and the schema cannot be read. *)
Theorem C126_backslash_refuted : exists d1 t d2,
  read (write_description 0 d1) = Some (t, [10]) /\ t <> d1 /\ read (write_description 0 d2) = None.
Proof. exists [97; 92; 110], [97; 10], [97; 92]. split; [vm_compute; reflexivity|]. split; [discriminate|vm_compute; reflexivity]. Qed.

(** Not so on several lines: in block strings quotes are not escaped one by one, so a backslash appears before each. *)
Theorem C126_block_quotes_refuted : exists d t, read (write_description 1 d) = None /\
  read (skipn 2 (write_description 1 d)) = Some (t, [10]) /\ d = [34; 97; 34; 10; 98] /\ t = [92; 34; 97; 92; 34; 10; 98].
Proof.
  exists [34; 97; 34; 10; 98]. eexists. split; [vm_compute; reflexivity|]. split; [vm_compute; reflexivity|]. split; reflexivity.
Qed.

(** A description can write definitions of the schema: a backslash and a quote end its string, and what follows is a type
    called A and a comment. *)
Theorem C126_injection_refuted : exists d, read (write_description 0 d) =
  Some ([92], [32; 116; 121; 112; 101; 32; 65; 32; 35; 34; 10]) /\ d = [92; 34; 32; 116; 121; 112; 101; 32; 65; 32; 35].
Proof. eexists. split; [|reflexivity]. vm_compute. reflexivity. Qed.

(** Two lines with an indentation, a blank one between them. *)
Example ex_block : read (skipn 2 (write_description 1 [97; 32; 10; 10; 32; 98])) = Some ([97; 10; 10; 32; 98], [10]).
Proof. vm_compute. reflexivity. Qed.

Example ex_line : write_description 1 [115; 97; 121; 32; 34; 104; 105; 34] = [32; 32; 34; 115; 97; 121; 32; 92; 34; 104; 105; 92; 34; 34; 10].
Proof. vm_compute. reflexivity. Qed.

Example ex_quoted : write_quoted [34; 1; 10; 92] = [34; 92; 34; 92; 117; 48; 48; 48; 49; 92; 110; 92; 92; 34].
Proof. vm_compute. reflexivity. Qed.
