(** C125: suggestions of the linter. *)
From Coq Require Import Bool Ascii String NArith Lia List.
From Verif.Lint Require Import Model Spec.
Import ListNotations.
Open Scope list_scope.

Lemma between_spec : forall lo hi c, between lo hi c = true <-> (lo <= N_of_ascii c <= hi)%N.
Proof. intros. unfold between. rewrite andb_true_iff, !N.leb_le. reflexivity. Qed.

Lemma alnum_spec : forall c, alnum c = true <-> Alnum c.
Proof.
  intros c. unfold alnum, Alnum, Upper, Lower, Digit, is_upper, is_lower, is_digit. rewrite !orb_true_iff, !between_spec. tauto.
Qed.

Lemma alnum_false : forall c, alnum c = false <-> ~ Alnum c.
Proof. intros c. rewrite <- alnum_spec, not_true_iff_false. reflexivity. Qed.

Lemma up_letter : forall c, Alnum c -> Letter c (up c) /\ Alnum (up c) /\ ~ Lower (up c).
Proof.
  intros c A. unfold up. destruct (is_lower c) eqn:E.
  - apply between_spec in E. assert (X : N_of_ascii (ascii_of_N (N_of_ascii c - 32)) = (N_of_ascii c - 32)%N) by (apply N_ascii_embedding; lia).
    unfold Lower, Alnum, Upper, Digit. rewrite X. split; [apply letter_up; [exact E|exact X]|]. lia.
  - split; [constructor; exact A|]. split; [exact A|]. intros H. apply between_spec in H. unfold is_lower in E. congruence.
Qed.

Lemma down_letter : forall c, Alnum c -> Letter c (down c) /\ Alnum (down c).
Proof.
  intros c A. unfold down. destruct (is_upper c) eqn:E.
  - apply between_spec in E. assert (X : N_of_ascii (ascii_of_N (N_of_ascii c + 32)) = (N_of_ascii c + 32)%N) by (apply N_ascii_embedding; lia).
    unfold Alnum, Upper, Lower, Digit. rewrite X. split; [apply letter_down; [exact E|exact X]|]. lia.
  - split; [constructor; exact A|exact A].
Qed.

(** * Words *)

Lemma part_words_concat : forall s m cur, s <> [] -> concat (part_words m cur s) = cur ++ s.
Proof.
  induction s as [|c rest IH]; intros m cur N1; [contradiction|]. destruct rest as [|next r].
  - cbn [part_words concat]. rewrite app_nil_r. reflexivity.
  - assert (Nr : next :: r <> []) by discriminate.
    assert (K : forall m', concat (part_words m' (cur ++ [c]) (next :: r)) = cur ++ c :: next :: r)
      by (intros m'; rewrite (IH _ _ Nr), <- app_assoc; reflexivity).
    assert (Kb : concat ((cur ++ [c]) :: part_words Boundary [] (next :: r)) = cur ++ c :: next :: r)
      by (cbn [concat]; rewrite (IH _ _ Nr), <- app_assoc; reflexivity).
    assert (Kc : concat (cur :: part_words Boundary [c] (next :: r)) = cur ++ c :: next :: r)
      by (cbn [concat]; rewrite (IH _ _ Nr); reflexivity).
    change (part_words m cur (c :: next :: r)) with
      (let m' := if is_lower c then Lowercase else if is_upper c then Uppercase else m in
       match m', is_upper next with
       | Lowercase, true => (cur ++ [c]) :: part_words Boundary [] (next :: r)
       | _, _ => match m, is_upper c && is_lower next with
                 | Uppercase, true => cur :: part_words Boundary [c] (next :: r)
                 | _, _ => part_words m' (cur ++ [c]) (next :: r)
                 end
       end).
    cbv zeta. destruct (is_lower c), (is_upper c), (is_upper next), (is_lower next), m; cbn [andb]; auto.
Qed.

Lemma part_words_all : forall s, concat (part_words Boundary [] s) = s.
Proof. intros [|c s]; [reflexivity|]. rewrite part_words_concat by discriminate. reflexivity. Qed.

Lemma concat_flat_map : forall (f : text -> list text) l, concat (flat_map f l) = flat_map (fun x => concat (f x)) l.
Proof. intros f l. induction l as [|x l IH]; [reflexivity|]. cbn [flat_map]. rewrite concat_app, IH. reflexivity. Qed.

Lemma parts_concat : forall s, concat (parts s) = filter alnum s.
Proof.
  induction s as [|c s IH]; [reflexivity|]. cbn [parts filter]. destruct (alnum c); [|exact IH].
  destruct (parts s) as [|p ps]; cbn [concat] in *; rewrite <- IH; reflexivity.
Qed.

Lemma words_concat : forall s, concat (words s) = filter alnum s.
Proof.
  intros s. unfold words. rewrite concat_flat_map, <- parts_concat. induction (parts s) as [|p ps IH]; [reflexivity|].
  cbn [flat_map concat]. rewrite part_words_all, IH. reflexivity.
Qed.

Lemma part_words_nonempty : forall s m cur, (m <> Boundary -> cur <> []) -> Forall (fun w => w <> []) (part_words m cur s).
Proof.
  assert (A : forall (cur : text) c, cur ++ [c] <> []) by (intros [|x cur] c; discriminate).
  induction s as [|c rest IH]; intros m cur Hm; [constructor|]. destruct rest as [|next r].
  - cbn [part_words]. constructor; [apply A|constructor].
  - assert (K : forall m', Forall (fun w => w <> []) (part_words m' (cur ++ [c]) (next :: r))) by (intros m'; apply IH; intros _; apply A).
    assert (Kb : Forall (fun w => w <> []) ((cur ++ [c]) :: part_words Boundary [] (next :: r))).
    { constructor; [apply A|]. apply IH. intros H. contradiction. }
    assert (Kc : m = Uppercase -> Forall (fun w => w <> []) (cur :: part_words Boundary [c] (next :: r))).
    { intros ->. constructor; [apply Hm; discriminate|]. apply IH. discriminate. }
    change (part_words m cur (c :: next :: r)) with
      (let m' := if is_lower c then Lowercase else if is_upper c then Uppercase else m in
       match m', is_upper next with
       | Lowercase, true => (cur ++ [c]) :: part_words Boundary [] (next :: r)
       | _, _ => match m, is_upper c && is_lower next with
                 | Uppercase, true => cur :: part_words Boundary [c] (next :: r)
                 | _, _ => part_words m' (cur ++ [c]) (next :: r)
                 end
       end).
    cbv zeta. destruct (is_lower c), (is_upper c), (is_upper next), (is_lower next), m; cbn [andb]; auto.
Qed.

Lemma words_nonempty : forall s, Forall (fun w => w <> []) (words s).
Proof.
  intros s. unfold words. apply Forall_flat_map. apply Forall_forall. intros p _. apply part_words_nonempty. intros H. contradiction.
Qed.

Lemma words_alnum : forall s, Forall (Forall Alnum) (words s).
Proof.
  intros s. apply Forall_forall. intros w Hw. apply Forall_forall. intros c Hc.
  assert (H : In c (concat (words s))) by (apply in_concat; exists w; tauto).
  rewrite words_concat in H. apply filter_In in H. apply alnum_spec, H.
Qed.

(** * Letters *)

Lemma reads_app : forall a b c d, Reads a b -> Reads c d -> Reads (a ++ c) (b ++ d).
Proof. intros a b c d H. induction H; intros K; cbn [app]; [exact K|apply reads_left; auto|apply reads_right; auto|apply reads_both; auto]. Qed.

Lemma reads_filter : forall s b, Reads (filter alnum s) b -> Reads s b.
Proof.
  induction s as [|c s IH]; intros b H; [exact H|]. cbn [filter] in H. destruct (alnum c) eqn:E.
  - remember (c :: filter alnum s) as l eqn:El. induction H as [|x a b N1 H IHr|x a b N1 H IHr|x y a b L H IHr].
    + discriminate.
    + injection El as -> ->. apply alnum_spec in E. contradiction.
    + apply reads_right; [exact N1|]. apply IHr, El.
    + injection El as -> ->. apply reads_both; [exact L|apply IH, H].
  - apply reads_left; [apply alnum_false, E|apply IH, H].
Qed.

Lemma reads_map : forall f w, (forall c, Alnum c -> Letter c (f c)) -> Forall Alnum w -> Reads w (map f w).
Proof. intros f w F H. induction H; cbn [map]; [apply reads_nil|apply reads_both; auto]. Qed.

Lemma reads_capital : forall w, Forall Alnum w -> Reads w (capital w).
Proof.
  intros w H. destruct H as [|c w A H]; [constructor|]. cbn [capital]. apply reads_both; [apply up_letter, A|].
  apply reads_map; [intros x Hx; apply down_letter, Hx|exact H].
Qed.

Lemma reads_join : forall ws, Forall (Forall Alnum) ws -> Reads (concat ws) (join (map (map up) ws)).
Proof.
  intros ws H. induction H as [|w ws A H IH]; [constructor|].
  assert (M : Reads w (map up w)) by (apply reads_map; [intros c Hc; apply up_letter, Hc|exact A]).
  destruct ws as [|v ws]; [cbn [concat map join]; rewrite app_nil_r; exact M|].
  change (join (map (map up) (w :: v :: ws))) with (map up w ++ ["_"%char] ++ join (map (map up) (v :: ws))).
  cbn [concat]. apply reads_app; [exact M|]. cbn [app]. apply reads_right; [|exact IH]. apply alnum_false. reflexivity.
Qed.

Lemma reads_capitals : forall ws, Forall (Forall Alnum) ws -> Reads (concat ws) (flat_map capital ws).
Proof.
  intros ws H. induction H as [|w ws A H IH]; [constructor|]. cbn [concat flat_map]. apply reads_app; [apply reads_capital, A|exact IH].
Qed.

(** A suggestion has the letters and digits of the name. *)
Theorem C125_letters : forall k s f, case_check k s = Some f -> Reads s f.
Proof.
  intros k s f H. unfold case_check in H. destruct (exempt s); [discriminate|]. destruct (same _ s); [discriminate|]. injection H as <-.
  apply reads_filter. rewrite <- words_concat. pose proof (words_alnum s) as A. destruct k; cbn [convert].
  - apply reads_capitals, A.
  - apply reads_join, A.
  - destruct (words s) as [|w ws]; [constructor|]. apply Forall_cons_iff in A. destruct A as [Aw A]. cbn [concat].
    apply reads_app; [apply reads_map; [intros c Hc; apply down_letter, Hc|exact Aw]|apply reads_capitals, A].
Qed.

(** * Capitals *)

Lemma shout_part : forall s cur m, Forall (fun c => Upper c \/ Digit c) s -> m <> Lowercase -> s <> [] -> part_words m cur s = [cur ++ s].
Proof.
  induction s as [|c rest IH]; intros cur m F Nm N1; [contradiction|]. apply Forall_cons_iff in F. destruct F as [Hc F].
  destruct rest as [|next r]; [reflexivity|].
  assert (Lc : forall x, Upper x \/ Digit x -> is_lower x = false).
  { intros x Hx. apply not_true_iff_false. intros E. apply between_spec in E. unfold Upper, Digit in Hx. lia. }
  change (part_words m cur (c :: next :: r)) with
      (let m' := if is_lower c then Lowercase else if is_upper c then Uppercase else m in
       match m', is_upper next with
       | Lowercase, true => (cur ++ [c]) :: part_words Boundary [] (next :: r)
       | _, _ => match m, is_upper c && is_lower next with
                 | Uppercase, true => cur :: part_words Boundary [c] (next :: r)
                 | _, _ => part_words m' (cur ++ [c]) (next :: r)
                 end
       end).
  rewrite (Lc c Hc), (Lc next (Forall_inv F)), andb_false_r. cbv zeta.
  assert (K : forall m', m' <> Lowercase -> part_words m' (cur ++ [c]) (next :: r) = [cur ++ c :: next :: r]).
  { intros m' Hm. rewrite (IH _ _ F Hm) by discriminate. rewrite <- app_assoc. reflexivity. }
  destruct (is_upper c), m, (is_upper next); try contradiction; apply K; discriminate.
Qed.

Lemma parts_shout : forall w s, Forall Alnum w -> parts (w ++ "_"%char :: s) = w :: parts s.
Proof.
  intros w s H. induction H as [|c w A H IH]; [reflexivity|]. cbn [app parts]. apply alnum_spec in A. rewrite A, IH. reflexivity.
Qed.

Lemma parts_one : forall w, Forall Alnum w -> parts w = [w].
Proof. intros w H. induction H as [|c w A H IH]; [reflexivity|]. cbn [parts]. apply alnum_spec in A. rewrite A, IH. reflexivity. Qed.

Lemma shout_alnum : forall w, Shout w -> Forall Alnum w.
Proof. intros w [_ H]. eapply Forall_impl; [|exact H]. intros c [A|A]; unfold Alnum; tauto. Qed.

Lemma shout_up : forall w, Shout w -> map up w = w.
Proof.
  intros w [_ H]. induction H as [|c w A H IH]; [reflexivity|]. cbn [map]. rewrite IH. unfold up. destruct (is_lower c) eqn:E; [|reflexivity].
  apply between_spec in E. unfold Upper, Digit in A. lia.
Qed.

Lemma shouty_words : forall s, Shouty s -> join (map (map up) (words s)) = s /\ words s <> [].
Proof.
  intros s H. induction H as [w Hw|w s Hw Hs [IH IN]]; unfold words in *.
  - rewrite (parts_one _ (shout_alnum _ Hw)). cbn [flat_map]. rewrite app_nil_r, shout_part; [|apply Hw|discriminate|apply Hw].
    cbn [app map join]. split; [apply shout_up, Hw|discriminate].
  - rewrite (parts_shout _ _ (shout_alnum _ Hw)). cbn [flat_map]. rewrite shout_part; [|apply Hw|discriminate|apply Hw].
    cbn [app]. split; [|discriminate]. destruct (flat_map (part_words Boundary []) (parts s)) as [|v ws]; [contradiction|].
    change (join (map (map up) (w :: v :: ws))) with (map up w ++ ["_"%char] ++ join (map (map up) (v :: ws))).
    rewrite IH, (shout_up _ Hw). reflexivity.
Qed.

Lemma join_shouty : forall ws, ws <> [] -> Forall (Forall Alnum) ws -> Forall (fun w => w <> []) ws -> Shouty (join (map (map up) ws)).
Proof.
  assert (One : forall w, Forall Alnum w -> w <> [] -> Shout (map up w)).
  { intros w A N1. split; [destruct w; [contradiction|discriminate]|]. apply Forall_forall. intros c Hc. apply in_map_iff in Hc.
    destruct Hc as (x & <- & Hx). rewrite Forall_forall in A. destruct (up_letter x (A x Hx)) as (_ & [U|[L|D]] & NL); tauto. }
  induction ws as [|w ws IH]; intros N1 A B; [contradiction|]. apply Forall_cons_iff in A, B. destruct A as [Aw A], B as [Bw B].
  destruct ws as [|v ws]; [apply shouty_one, One; assumption|].
  change (join (map (map up) (w :: v :: ws))) with (map up w ++ "_"%char :: join (map (map up) (v :: ws))).
  apply shouty_more; [apply One; assumption|]. apply IH; [discriminate|assumption|assumption].
Qed.

Lemma same_spec : forall a b, same a b = true <-> a = b.
Proof.
  induction a as [|x a IH]; intros [|y b]; cbn [same]; try (split; [discriminate|intros H; discriminate]).
  - tauto.
  - rewrite andb_true_iff, Ascii.eqb_eq, IH. split; [intros [-> ->]; reflexivity|intros H; injection H; tauto].
Qed.

Lemma namespaced_spec : forall s seen, namespaced seen s = true <->
  exists a c r, s = a ++ "_"%char :: "_"%char :: c :: r /\ (seen = false -> a <> []) /\ Forall (fun c => Upper c \/ Lower c) a.
Proof.
  induction s as [|x s IH]; intros seen; cbn [namespaced].
  - split; [discriminate|]. intros (a & c & r & E & _). destruct a; discriminate.
  - rewrite orb_true_iff, !andb_true_iff, orb_true_iff, IH. unfold is_upper, is_lower. rewrite !between_spec. split.
    + intros [[-> H]|[L (a & c & r & -> & _ & F)]].
      * destruct s as [|y [|z r]]; try discriminate. apply andb_true_iff in H. rewrite !Ascii.eqb_eq in H. destruct H as [-> ->].
        exists [], z, r. split; [reflexivity|]. split; [discriminate|constructor].
      * exists (x :: a), c, r. split; [reflexivity|]. split; [discriminate|]. constructor; [exact L|exact F].
    + intros (a & c & r & E & N1 & F). destruct a as [|y a]; cbn [app] in E; injection E as -> ->.
      * left. split; [destruct seen; [reflexivity|destruct N1; reflexivity]|reflexivity].
      * right. apply Forall_cons_iff in F. split; [apply F|]. exists a, c, r. split; [reflexivity|]. split; [discriminate|apply F].
Qed.

Lemma exempt_spec : forall s, exempt s = true <-> Exempt s.
Proof.
  intros [|c s]; unfold Exempt.
  - split; [discriminate|]. intros [(r & H)|(a & c & r & H & _)]; [discriminate|destruct a; discriminate].
  - cbn [exempt]. rewrite orb_true_iff, Ascii.eqb_eq, namespaced_spec. split.
    + intros [->|(a & d & r & H & N1 & F)]; [left; exists s; reflexivity|right; exists a, d, r; tauto].
    + intros [(r & H)|(a & d & r & H & N1 & F)]; [left; congruence|right; exists a, d, r; tauto].
Qed.

(** Values of enums are left alone exactly if they are in capitals, or exceptions. Names have a letter or digit. *)
Theorem C125_shouty : forall s, (exists c, In c s /\ Alnum c) -> (case_check ShoutySnake s = None <-> Exempt s \/ Shouty s).
Proof.
  intros s (c & Hc & Ac). unfold case_check. rewrite <- exempt_spec. destruct (exempt s); [tauto|].
  assert (Nw : words s <> []).
  { intros E. pose proof (words_concat s) as W. rewrite E in W. assert (H : In c (filter alnum s)) by (apply filter_In; split; [exact Hc|apply alnum_spec, Ac]).
    rewrite <- W in H. destruct H. }
  cbn [convert]. destruct (same _ s) eqn:E.
  - apply same_spec in E. split; [|reflexivity]. intros _. right. rewrite <- E. apply join_shouty; [exact Nw|apply words_alnum|apply words_nonempty].
  - split; [discriminate|]. intros [H|H]; [discriminate|]. destruct (shouty_words s H) as [J _]. apply same_spec in J. congruence.
Qed.

(** A suggestion for a value of an enum is not warned about again. *)
Theorem C125_settles_partial : forall s f, (exists c, In c s /\ Alnum c) -> case_check ShoutySnake s = Some f ->
  Shouty f /\ case_check ShoutySnake f = None.
Proof.
  intros s f (c & Hc & Ac) H. assert (Sf : Shouty f).
  { unfold case_check in H. destruct (exempt s); [discriminate|]. destruct (same _ s); [discriminate|]. injection H as <-. cbn [convert].
    apply join_shouty; [|apply words_alnum|apply words_nonempty]. intros E. pose proof (words_concat s) as W. rewrite E in W.
    assert (Hf : In c (filter alnum s)) by (apply filter_In; split; [exact Hc|apply alnum_spec, Ac]). rewrite <- W in Hf. destruct Hf. }
  split; [exact Sf|]. apply C125_shouty; [|right; exact Sf].
  assert (X : forall w, Shout w -> exists c, In c w /\ Alnum c).
  { intros w Hw. pose proof (shout_alnum w Hw) as A. destruct Hw as [N1 _]. destruct w as [|x w]; [contradiction|]. exists x. split; [left; reflexivity|].
    apply Forall_inv in A. exact A. }
  destruct Sf as [w Hw|w s' Hw _]; destruct (X w Hw) as (x & Hx & Ax); exists x; (split; [|exact Ax]); [exact Hx|apply in_or_app; left; exact Hx].
Qed.

(** Suggestions for the names of types and fields have no underscores. *)
Theorem C125_no_underscores : forall k s f, k <> ShoutySnake -> case_check k s = Some f -> Forall Alnum f.
Proof.
  intros k s f Nk H. unfold case_check in H. destruct (exempt s); [discriminate|]. destruct (same _ s); [discriminate|]. injection H as <-.
  assert (D : forall w, Forall Alnum w -> Forall Alnum (map down w)).
  { intros w A. apply Forall_map. eapply Forall_impl; [|exact A]. intros c Hc. apply down_letter, Hc. }
  assert (Cp : forall ws, Forall (Forall Alnum) ws -> Forall Alnum (flat_map capital ws)).
  { intros ws A. apply Forall_flat_map. eapply Forall_impl; [|exact A]. intros w Hw. destruct Hw as [|c w Hc Hw]; [constructor|].
    cbn [capital]. constructor; [apply up_letter, Hc|apply D, Hw]. }
  pose proof (words_alnum s) as A. destruct k; [apply Cp, A|contradiction|]. cbn [convert].
  destruct (words s) as [|w ws]; [constructor|]. apply Forall_cons_iff in A. destruct A as [Aw A]. apply Forall_app. split; [apply D, Aw|apply Cp, A].
Qed.

(** * Camel case *)

Lemma low_not_upper : forall c, Lower c \/ Digit c -> is_upper c = false.
Proof. intros c H. apply not_true_iff_false. intros E. apply between_spec in E. unfold Lower, Digit in H. lia. Qed.

Lemma part_step : forall m cur c next r, part_words m cur (c :: next :: r) =
  let m' := if is_lower c then Lowercase else if is_upper c then Uppercase else m in
  match m', is_upper next with
  | Lowercase, true => (cur ++ [c]) :: part_words Boundary [] (next :: r)
  | _, _ => match m, is_upper c && is_lower next with
            | Uppercase, true => cur :: part_words Boundary [c] (next :: r)
            | _, _ => part_words m' (cur ++ [c]) (next :: r)
            end
  end.
Proof. reflexivity. Qed.

Lemma low_step : forall r m cur v rest, Forall (fun c => Lower c \/ Digit c) r -> m = Lowercase \/ Exists Lower r -> r <> [] -> Upper v ->
  part_words m cur (r ++ v :: rest) = (cur ++ r) :: part_words Boundary [] (v :: rest).
Proof.
  induction r as [|c r IH]; intros m cur v rest F Hm N1 Hv; [contradiction|]. apply Forall_cons_iff in F. destruct F as [Fc F].
  pose proof (low_not_upper c Fc) as Uc. cbn [app].
  assert (Hm' : (if is_lower c then Lowercase else m) = Lowercase \/ Exists Lower r).
  { destruct (is_lower c) eqn:Ec; [left; reflexivity|]. destruct Hm as [Hm|Hm]; [left; exact Hm|right].
    apply Exists_cons in Hm. destruct Hm as [Hm|Hm]; [|exact Hm]. apply between_spec in Hm. unfold is_lower in Ec. congruence. }
  destruct r as [|d r].
  - cbn [app]. rewrite part_step, Uc. cbv zeta. destruct Hm' as [->|H]; [|inversion H].
    assert (Ev : is_upper v = true) by (apply between_spec, Hv). rewrite Ev. reflexivity.
  - change ((d :: r) ++ v :: rest) with (d :: (r ++ v :: rest)). rewrite part_step, Uc. cbv zeta.
    rewrite (low_not_upper d (Forall_inv F)). cbn [andb].
    assert (K : part_words (if is_lower c then Lowercase else m) (cur ++ [c]) (d :: r ++ v :: rest) = (cur ++ c :: d :: r) :: part_words Boundary [] (v :: rest)).
    { change (d :: r ++ v :: rest) with ((d :: r) ++ v :: rest). rewrite (IH _ _ _ _ F Hm'); [|discriminate|exact Hv]. rewrite <- app_assoc. reflexivity. }
    destruct (is_lower c), m; exact K.
Qed.

Lemma low_last : forall r m cur, Forall (fun c => Lower c \/ Digit c) r -> r <> [] -> part_words m cur r = [cur ++ r].
Proof.
  induction r as [|c r IH]; intros m cur F N1; [contradiction|]. apply Forall_cons_iff in F. destruct F as [Fc F].
  destruct r as [|d r]; [reflexivity|]. rewrite part_step, (low_not_upper c Fc), (low_not_upper d (Forall_inv F)). cbv zeta. cbn [andb].
  assert (K : forall m', part_words m' (cur ++ [c]) (d :: r) = [cur ++ c :: d :: r]).
  { intros m'. rewrite (IH _ _ F) by discriminate. rewrite <- app_assoc. reflexivity. }
  destruct (is_lower c), m; apply K.
Qed.

Lemma low_nonempty : forall r, Low r -> r <> [].
Proof. intros r [_ H] ->. inversion H. Qed.

Lemma cap_words : forall ws, Forall Capitalised ws -> part_words Boundary [] (concat ws) = ws.
Proof.
  intros ws H. induction H as [|w ws (u & r & -> & Hu & Hr) H IH]; [reflexivity|]. pose proof (low_nonempty r Hr) as Nr. destruct Hr as [Fr Xr].
  destruct r as [|d r]; [contradiction|]. cbn [concat app]. rewrite part_step.
  assert (Eu : is_upper u = true) by (apply between_spec, Hu).
  assert (El : is_lower u = false) by (apply not_true_iff_false; intros E; apply between_spec in E; unfold Upper in Hu; lia).
  rewrite Eu, El, (low_not_upper d (Forall_inv Fr)). cbv zeta. cbn [app andb].
  assert (K : part_words Uppercase [u] (d :: r ++ concat ws) = (u :: d :: r) :: ws).
  { change (d :: r ++ concat ws) with ((d :: r) ++ concat ws). destruct H as [|w ws (v & q & -> & Hv & Hq) H].
    - cbn [concat]. rewrite app_nil_r, low_last by (assumption || discriminate). reflexivity.
    - change (concat ((v :: q) :: ws)) with (v :: (q ++ concat ws)) in *. rewrite low_step by (tauto || discriminate). rewrite IH. reflexivity. }
  destruct (is_lower d); exact K.
Qed.

Lemma low_alnum : forall r, Low r -> Forall Alnum r.
Proof. intros r [F _]. eapply Forall_impl; [|exact F]. unfold Alnum. intros c H. tauto. Qed.

Lemma caps_alnum : forall ws, Forall Capitalised ws -> Forall Alnum (concat ws).
Proof.
  intros ws H. induction H as [|w ws (u & r & -> & Hu & Hr) H IH]; [constructor|]. cbn [concat]. apply Forall_app. split; [|exact IH].
  constructor; [left; exact Hu|apply low_alnum, Hr].
Qed.

Lemma low_down : forall r, Low r -> map down r = r.
Proof.
  intros r [F _]. induction F as [|c r Hc F IH]; [reflexivity|]. cbn [map]. rewrite IH. unfold down. rewrite (low_not_upper c Hc). reflexivity.
Qed.

Lemma caps_same : forall ws, Forall Capitalised ws -> flat_map capital ws = concat ws.
Proof.
  intros ws H. induction H as [|w ws (u & r & -> & Hu & Hr) H IH]; [reflexivity|]. cbn [flat_map concat capital]. rewrite IH, (low_down r Hr).
  unfold up. destruct (is_lower u) eqn:E; [|reflexivity]. apply between_spec in E. unfold Upper in Hu. lia.
Qed.

(** Names that are words in camel case are left alone; words have two letters, or one if they are the first. *)
Theorem C125_pascal : forall ws, Forall Capitalised ws -> case_check Pascal (concat ws) = None.
Proof.
  intros ws H. unfold case_check. destruct (exempt _); [reflexivity|]. cbn [convert]. unfold words.
  rewrite (parts_one _ (caps_alnum _ H)). cbn [flat_map]. rewrite app_nil_r, (cap_words _ H), (caps_same _ H).
  rewrite (proj2 (same_spec _ _) eq_refl). reflexivity.
Qed.

Theorem C125_camel : forall w ws, Low w -> Forall Capitalised ws -> case_check Camel (w ++ concat ws) = None.
Proof.
  intros w ws Hw H. unfold case_check. destruct (exempt _); [reflexivity|]. cbn [convert]. unfold words.
  rewrite parts_one by (apply Forall_app; split; [apply low_alnum, Hw|apply caps_alnum, H]). cbn [flat_map]. rewrite app_nil_r.
  assert (K : part_words Boundary [] (w ++ concat ws) = w :: ws).
  { pose proof (low_nonempty w Hw) as Nw. destruct H as [|x ws (v & q & -> & Hv & Hq) H].
    - cbn [concat]. rewrite app_nil_r. apply low_last; [apply Hw|exact Nw].
    - pose proof (cap_words ((v :: q) :: ws)) as C. change (concat ((v :: q) :: ws)) with (v :: (q ++ concat ws)) in *. rewrite low_step; [|apply Hw|right; apply Hw|exact Nw|exact Hv].
      rewrite C; [reflexivity|]. constructor; [exists v, q; tauto|exact H]. }
  rewrite K, (low_down w Hw), (caps_same _ H), (proj2 (same_spec _ _) eq_refl). reflexivity.
Qed.

(** Not so: a name that follows a suggestion is not warned about. *)
Theorem C125_settles_refuted : exists s f g, case_check Camel s = Some f /\ case_check Camel f = Some g /\ f <> g /\
  exists s' f' g', case_check Pascal s' = Some f' /\ case_check Pascal f' = Some g' /\ f' <> g'.
Proof.
  exists (t "a_b_c"), (t "aBC"), (t "aBc"). split; [vm_compute; reflexivity|]. split; [vm_compute; reflexivity|]. split; [discriminate|].
  exists (t "A_B"), (t "AB"), (t "Ab"). split; [vm_compute; reflexivity|]. split; [vm_compute; reflexivity|]. discriminate.
Qed.

(** Not so: the suggestions for two fields can both be followed. *)
Theorem C125_collision_refuted : exists a b f, a <> b /\ case_check Camel a = Some f /\ case_check Camel b = Some f /\ case_check Camel f = None.
Proof.
  exists (t "user_name"), (t "UserName"), (t "userName"). split; [discriminate|]. split; [vm_compute; reflexivity|]. split; vm_compute; reflexivity.
Qed.

(** Not so: a prefix is a word. *)
Theorem C125_prefix_refuted : exists s, words s = [s] /\ visit_field Query s = [Prefix (t "list")] /\ s <> t "list".
Proof. exists (t "listeners"). split; [vm_compute; reflexivity|]. split; [vm_compute; reflexivity|discriminate]. Qed.

(** * Fields *)

Lemma starts_spec : forall p s, starts p s = true <-> exists r, s = p ++ r.
Proof.
  induction p as [|a p IH]; intros s; cbn [starts].
  - split; [intros _; exists s; reflexivity|reflexivity].
  - destruct s as [|b s]; [split; [discriminate|intros (r & H); discriminate]|]. rewrite andb_true_iff, Ascii.eqb_eq, IH. cbn [app]. split.
    + intros [-> (r & ->)]. exists r. reflexivity.
    + intros (r & H). injection H as -> ->. split; [reflexivity|exists r; reflexivity].
Qed.

Lemma ends_spec : forall p s, ends p s = true <-> exists r, s = r ++ p.
Proof.
  intros p s. unfold ends. rewrite starts_spec. split; intros (r & H).
  - exists (rev r). apply (f_equal (@rev ascii)) in H. rewrite rev_involutive, rev_app_distr, rev_involutive in H. exact H.
  - exists (rev r). rewrite H, rev_app_distr. reflexivity.
Qed.

(** The warnings for prefixes and suffixes of fields: on the three root types by name, for one prefix at most, and never for
    fields of the system. *)
Definition prefixes (p : parent) : list text :=
  match p with
  | Query => [t "query"; t "get"; t "list"]
  | Mutation => [t "mutation"; t "put"; t "post"; t "patch"]
  | Subscription => [t "subscription"]
  | OtherType => []
  end.

Definition suffix (p : parent) : option text :=
  match p with
  | Query => Some (t "Query")
  | Mutation => Some (t "Mutation")
  | Subscription => Some (t "Subscription")
  | OtherType => None
  end.

Lemma first_prefix_spec : forall ps s w, In w (first_prefix ps s) -> exists p r, w = Prefix p /\ In p ps /\ s = p ++ r.
Proof.
  induction ps as [|p ps IH]; intros s w H; [destruct H|]. cbn [first_prefix] in H. destruct (starts p s) eqn:E.
  - apply starts_spec in E. destruct E as (r & ->). destruct H as [<-|[]]. exists p, r. split; [reflexivity|]. split; [left; reflexivity|reflexivity].
  - destruct (IH _ _ H) as (q & r & A & B & C). exists q, r. split; [exact A|]. split; [right; exact B|exact C].
Qed.

Lemma first_prefix_complete : forall ps s p r, In p ps -> s = p ++ r -> exists q, In (Prefix q) (first_prefix ps s).
Proof.
  induction ps as [|q ps IH]; intros s p r H E; [destruct H|]. cbn [first_prefix]. destruct (starts q s) eqn:X; [exists q; left; reflexivity|].
  destruct H as [->|H]; [|apply (IH s p r H E)]. rewrite (proj2 (starts_spec p s) (ex_intro _ r E)) in X. discriminate.
Qed.

Lemma visit_unfold : forall p s, starts (t "__") s = false -> visit_field p s =
  match case_check Camel s with Some f => [Rename f] | None => [] end ++ first_prefix (prefixes p) s ++
  match suffix p with Some x => if ends x s then [Suffix x] else [] | None => [] end.
Proof. intros p s E. unfold visit_field. rewrite E. destruct p; reflexivity. Qed.

Theorem C125_fields : forall p s, (forall r, s <> "_"%char :: "_"%char :: r) ->
  (forall f, In (Rename f) (visit_field p s) <-> case_check Camel s = Some f) /\
  (forall x, In (Prefix x) (visit_field p s) -> In x (prefixes p) /\ exists r, s = x ++ r) /\
  (forall x r, In x (prefixes p) -> s = x ++ r -> exists y, In (Prefix y) (visit_field p s)) /\
  (forall x, In (Suffix x) (visit_field p s) <-> suffix p = Some x /\ exists r, s = r ++ x).
Proof.
  intros p s N1. assert (E : starts (t "__") s = false).
  { apply not_true_iff_false. intros H. apply starts_spec in H. destruct H as (r & ->). apply (N1 r). reflexivity. }
  rewrite (visit_unfold p s E).
  assert (Pw : forall w, In w (first_prefix (prefixes p) s) -> exists q r, w = Prefix q /\ In q (prefixes p) /\ s = q ++ r) by (intros w; apply first_prefix_spec).
  assert (Sw : forall w, In w (match suffix p with Some x => if ends x s then [Suffix x] else [] | None => [] end) <->
               exists x, w = Suffix x /\ suffix p = Some x /\ exists r, s = r ++ x).
  { intros w. destruct (suffix p) as [x|]; [|split; [intros []|intros (x & _ & H & _); discriminate]].
    destruct (ends x s) eqn:X.
    - apply ends_spec in X. split; [intros [<-|[]]; exists x; tauto|]. intros (y & -> & H & _). injection H as ->. left. reflexivity.
    - split; [intros []|]. intros (y & _ & H & R). injection H as ->. apply ends_spec in R. congruence. }
  assert (Rw : forall w, In w (match case_check Camel s with Some f => [Rename f] | None => [] end) <->
               exists f, w = Rename f /\ case_check Camel s = Some f).
  { intros w. destruct (case_check Camel s) as [f|]; [|split; [intros []|intros (f & _ & H); discriminate]].
    split; [intros [<-|[]]; exists f; tauto|]. intros (g & -> & H). injection H as ->. left. reflexivity. }
  split; [|split; [|split]].
  - intros f. rewrite !in_app_iff, Rw, Sw. split.
    + intros [(g & H & K)|[H|(x & H & _)]]; [injection H as ->; exact K| |discriminate]. apply Pw in H. destruct H as (q & r & H & _). discriminate.
    + intros H. left. exists f. tauto.
  - intros x. rewrite !in_app_iff, Rw, Sw. intros [(g & H & _)|[H|(y & H & _)]]; [discriminate| |discriminate].
    apply Pw in H. destruct H as (q & r & H & A & B). injection H as ->. split; [exact A|exists r; exact B].
  - intros x r Hx Hs. destruct (first_prefix_complete _ _ _ _ Hx Hs) as (q & Hq). exists q. rewrite !in_app_iff. tauto.
  - intros x. rewrite !in_app_iff, Rw, Sw. split.
    + intros [(g & H & _)|[H|(y & H & K)]]; [discriminate| |injection H as ->; exact K]. apply Pw in H. destruct H as (q & r & H & _). discriminate.
    + intros H. right. right. exists x. tauto.
Qed.

Example ex_words : words (t "XMLHttpRequest2_v1Beta") = [t "XML"; t "Http"; t "Request2"; t "v1"; t "Beta"].
Proof. vm_compute. reflexivity. Qed.

Example ex_shouty : case_check ShoutySnake (t "inProgress") = Some (t "IN_PROGRESS") /\ case_check ShoutySnake (t "HTTP_2") = None.
Proof. split; vm_compute; reflexivity. Qed.

Example ex_exempt : case_check Camel (t "_entities") = None /\ case_check Pascal (t "join__Type") = None /\ case_check Pascal (t "join__") = Some (t "Join").
Proof. split; [|split]; vm_compute; reflexivity. Qed.

Example ex_field : visit_field Query (t "get_userQuery") = [Rename (t "getUserQuery"); Prefix (t "get"); Suffix (t "Query")].
Proof. vm_compute. reflexivity. Qed.

Example ex_camel : Low (t "user1") /\ Forall Capitalised [t "First"; t "Name2"] /\ case_check Camel (t "user1FirstName2") = None.
Proof.
  assert (D : forall c, between 97 122 c || between 48 57 c = true -> Lower c \/ Digit c).
  { intros c H. apply orb_true_iff in H. rewrite !between_spec in H. exact H. }
  assert (Lw : forall s, forallb (fun c => between 97 122 c || between 48 57 c) s = true -> existsb (between 97 122) s = true -> Low s).
  { intros s A B. split; [apply Forall_forall; intros c Hc; apply D; rewrite forallb_forall in A; apply A, Hc|].
    apply existsb_exists in B. destruct B as (c & Hc & B). apply Exists_exists. exists c. split; [exact Hc|apply between_spec, B]. }
  split; [apply Lw; reflexivity|]. split; [|vm_compute; reflexivity].
  constructor; [|constructor; [|constructor]]; eexists; eexists; (split; [reflexivity|]; split; [apply between_spec; reflexivity|apply Lw; reflexivity]).
Qed.
