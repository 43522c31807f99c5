(** Reading a value that was written. *)
From Coq Require Import Decimal DecimalN.
From Coq Require Import String List NArith ZArith Bool Lia.
From Verif Require Import Introspection.Render Introspection.Grammar.
Import ListNotations.
Local Open Scope list_scope.
Local Open Scope N_scope.

(** ** Strings *)
(** The number whose hexadecimal digits are the decimal digits of [c]. *)
Definition misread (c : N) : N := (c / 100) * 256 + ((c / 10) mod 10) * 16 + c mod 10.
Definition unquoted (c : N) : N :=
  if is_control c && negb ((c =? 9) || (c =? 10) || (c =? 13)) then misread c else c.

Definition controls : list N := map N.of_nat (seq 0 32 ++ seq 127 33).
Lemma control_in c : is_control c = true -> In c controls.
Proof.
  unfold is_control. rewrite orb_true_iff, andb_true_iff, N.ltb_lt, !N.leb_le. intros H.
  unfold controls. apply in_map_iff. exists (N.to_nat c). split; [apply N2Nat.id|].
  apply in_or_app. rewrite !in_seq. lia.
Qed.
Lemma read_unicode a b x y t : read_string (92 :: 117 :: a :: b :: x :: y :: t) =
  match hex a, hex b, hex x, hex y with
  | Some a, Some b, Some x, Some y => add_char (((a * 16 + b) * 16 + x) * 16 + y) (read_string t)
  | _, _, _, _ => None
  end.
Proof. reflexivity. Qed.
Lemma read_control : Forall (fun c => (c =? 9) || (c =? 10) || (c =? 13) = false ->
  exists a b x y ha hb hx hy, quote_char c = [92; 117; a; b; x; y] /\ hex a = Some ha /\ hex b = Some hb /\ hex x = Some hx /\
    hex y = Some hy /\ ((ha * 16 + hb) * 16 + hx) * 16 + hy = misread c) controls.
Proof.
  unfold controls. cbn [seq app map]. 
  repeat constructor; cbn; intros H; try discriminate H; do 8 eexists; (split; [reflexivity|]);
    repeat (split; [reflexivity|]); reflexivity.
Qed.
Lemma read_quoted_char c rest : read_string (quote_char c ++ rest) = add_char (unquoted c) (read_string rest).
Proof.
  unfold unquoted. destruct (is_control c) eqn:Ct; cbn [andb].
  - destruct ((c =? 9) || (c =? 10) || (c =? 13)) eqn:E; cbn [negb].
    + rewrite !orb_true_iff, !N.eqb_eq in E. destruct E as [[->| ->]| ->]; reflexivity.
    + pose proof (proj1 (Forall_forall _ _) read_control c (control_in c Ct) E)
        as (a & b & x & y & ha & hb & hx & hy & Q & Ha & Hb & Hx & Hy & M).
      rewrite Q. change ([92; 117; a; b; x; y] ++ rest) with (92 :: 117 :: a :: b :: x :: y :: rest). rewrite read_unicode, Ha, Hb, Hx, Hy, M. reflexivity.
  - unfold quote_char.
    destruct (N.eqb_spec c 13) as [->|N13]; [reflexivity|]. destruct (N.eqb_spec c 10) as [->|N10]; [reflexivity|].
    destruct (N.eqb_spec c 9) as [->|N9]; [reflexivity|].
    destruct (N.eqb_spec c 34) as [->|N34]; [reflexivity|]. destruct (N.eqb_spec c 92) as [->|N92]; [reflexivity|].
    rewrite Ct. cbn [app read_string]. rewrite (proj2 (N.eqb_neq c 34) N34), (proj2 (N.eqb_neq c 92) N92).
    unfold is_control in Ct. apply orb_false_iff in Ct as [Ct _]. rewrite Ct. reflexivity.
Qed.
Lemma read_quoted s rest : read_string (flat_map quote_char s ++ 34 :: rest) = Some (map unquoted s, rest).
Proof.
  induction s as [|c s IH]; cbn [flat_map map app]; [reflexivity|].
  rewrite <- app_assoc, read_quoted_char, IH. reflexivity.
Qed.
Lemma misread_control : Forall (fun c => (c =? 9) || (c =? 10) || (c =? 13) = false -> (misread c = c <-> c < 10)) controls.
Proof.
  unfold controls. cbn [seq app map]. repeat constructor; vm_compute; intros; try discriminate; auto; congruence.
Qed.
Lemma unquoted_plain c : unquoted c = c <-> plain c.
Proof.
  unfold unquoted, plain. destruct (is_control c) eqn:Ct; cbn [andb].
  - destruct ((c =? 9) || (c =? 10) || (c =? 13)) eqn:E; cbn [negb].
    + rewrite !orb_true_iff, !N.eqb_eq in E. split; [lia|reflexivity].
    + rewrite (proj1 (Forall_forall _ _) misread_control c (control_in c Ct) E).
      unfold is_control in Ct. rewrite orb_true_iff, andb_true_iff, N.ltb_lt, !N.leb_le in Ct.
      rewrite !orb_false_iff, !N.eqb_neq in E. split; [tauto|]. intros [H|[H|[H|[H|H]]]]; try lia.
  - unfold is_control in Ct. rewrite orb_false_iff, andb_false_iff, N.ltb_ge, !N.leb_gt in Ct. split; [lia|reflexivity].
Qed.
Lemma map_unquoted s : map unquoted s = s <-> Forall plain s.
Proof.
  induction s as [|c s IH]; cbn [map]; [split; constructor|]. split.
  - intros [= E1 E2]. constructor; [now apply unquoted_plain|now apply IH].
  - intros H. inversion H; subst. f_equal; [now apply unquoted_plain|now apply IH].
Qed.

(** ** Numbers *)
Lemma digits_digit u : Forall (fun c => is_digit c = true) (digits u).
Proof. induction u; cbn [digits]; constructor; auto. Qed.
Lemma horner_digits u acc : horner (Npos acc) (digits u) = Some (Npos (Pos.of_uint_acc u acc)).
Proof.
  revert acc. induction u; intros acc; cbn [digits horner]; [reflexivity|..];
    cbn [is_digit between N.leb N.compare Pos.compare Pos.compare_cont andb Pos.of_uint_acc]; rewrite <- IHu;
    f_equal; lia.
Qed.
Lemma horner_zero u : horner 0 (digits u) = Some (N.of_uint u).
Proof.
  unfold N.of_uint. induction u; cbn [digits horner Pos.of_uint]; [reflexivity|..];
    cbn [is_digit between N.leb N.compare Pos.compare Pos.compare_cont andb]; [exact IHu|..]; rewrite <- horner_digits; reflexivity.
Qed.
Lemma show_N_digits n : Forall (fun c => is_digit c = true) (show_N n).
Proof. apply digits_digit. Qed.
Lemma show_N_cons n : exists c r, show_N n = c :: r.
Proof.
  unfold show_N. pose proof (DecimalN.Unsigned.of_to n) as H. destruct (N.to_uint n) eqn:E; cbn [digits]; eauto.
  destruct n as [|p]; [discriminate|]. exfalso. cbn in H. discriminate.
Qed.
Lemma horner_show n : horner 0 (show_N n) = Some n.
Proof. unfold show_N. rewrite horner_zero. now rewrite DecimalN.Unsigned.of_to. Qed.
Lemma digit_range c : is_digit c = true -> 48 <= c <= 57.
Proof. unfold is_digit, between. rewrite andb_true_iff, !N.leb_le. auto. Qed.
Lemma int_show z : int_of (show_Z z) = Some z.
Proof.
  destruct z as [|p|p]; cbn [show_Z].
  - reflexivity.
  - pose proof (horner_show (Npos p)) as H. pose proof (show_N_digits (Npos p)) as D.
    destruct (show_N_cons (Npos p)) as (c & r & E). rewrite E in *. cbn [int_of].
    inversion D as [|? ? Dc _]; subst. apply digit_range in Dc.
    destruct (N.eqb_spec c 45) as [->|_]; [lia|]. rewrite H. reflexivity.
  - pose proof (horner_show (Npos p)) as H. destruct (show_N_cons (Npos p)) as (c & r & E). rewrite E in *.
    unfold int_of. change (45 =? 45) with true. cbn iota. rewrite H. reflexivity.
Qed.

(** ** Tokens *)
Definition stops (p : N -> bool) (t : text) : Prop := match t with [] => True | c :: _ => p c = false end.
Lemma span_app p a rest : Forall (fun c => p c = true) a -> stops p rest -> span p (a ++ rest) = (a, rest).
Proof.
  intros F St. induction F as [|c a Pc F IH]; cbn [app].
  - destruct rest as [|c rest]; [reflexivity|]. cbn [stops] in St. cbn [span]. now rewrite St.
  - cbn [span]. rewrite Pc, IH. reflexivity.
Qed.
Lemma text_eqb_eq a b : text_eqb a b = true -> a = b.
Proof.
  revert b. induction a as [|x a IH]; intros [|y b]; cbn [text_eqb]; try discriminate; [reflexivity|].
  rewrite andb_true_iff, N.eqb_eq. intros [-> H]. f_equal. auto.
Qed.

(** What may follow a value. *)
Definition follows (t : text) : Prop := match t with [] => True | c :: _ => c = 44 \/ c = 93 \/ c = 125 end.
Lemma follows_number t : follows t -> stops number_char t.
Proof. destruct t as [|c t]; cbn [follows stops]; [auto|]. intros [->|[->| ->]]; reflexivity. Qed.
Lemma follows_name t : follows t -> stops name_char t.
Proof. destruct t as [|c t]; cbn [follows stops]; [auto|]. intros [->|[->| ->]]; reflexivity. Qed.

Lemma name_start_range c : name_start c = true -> 65 <= c <= 122 /\ c <> 91 /\ c <> 93.
Proof.
  unfold name_start, between. rewrite !orb_true_iff, !andb_true_iff, !N.leb_le, N.eqb_eq. lia.
Qed.
Lemma skip_start c r : ignored c = false -> skip (c :: r) = c :: r.
Proof. intros H. cbn [skip]. now rewrite H. Qed.
Lemma name_not_ignored c : name_start c = true -> ignored c = false.
Proof.
  intros H. apply name_start_range in H. unfold ignored.
  repeat (rewrite orb_false_iff; split); apply N.eqb_neq; lia.
Qed.

(** The first character of a value. *)
Lemma word_value n t rest : name t -> follows rest -> exists c r, t = c :: r /\
  p_value (S n) (t ++ rest) = Some (word t, rest).
Proof.
  destruct t as [|c r]; cbn [name]; [easy|]. intros [Nc Fr] Fo. exists c, r. split; [reflexivity|].
  cbn [p_value app]. rewrite (skip_start c) by (now apply name_not_ignored).
  pose proof (name_start_range c Nc) as R.
  rewrite (proj2 (N.eqb_neq c 34)) by lia. rewrite (proj2 (N.eqb_neq c 91)) by lia.
  destruct (N.eqb_spec c 123) as [->|_]; [lia|].
  assert (D : is_digit c = false) by (unfold is_digit, between; apply andb_false_iff; rewrite !N.leb_gt; lia).
  rewrite D, (proj2 (N.eqb_neq c 45)) by lia. cbn [orb]. rewrite Nc.
  change (c :: r ++ rest) with ((c :: r) ++ rest). rewrite (span_app name_char (c :: r) rest).
  - reflexivity.
  - constructor; auto. unfold name_char. now rewrite Nc.
  - now apply follows_name.
Qed.
Lemma number_value n c t rest : (is_digit c = true \/ c = 45) -> Forall (fun c => number_char c = true) t -> follows rest ->
  p_value (S n) ((c :: t) ++ rest) = Some (PNum (c :: t), rest).
Proof.
  intros Hc Ft Fo. cbn [p_value app].
  assert (R : 48 <= c <= 57 \/ c = 45) by (destruct Hc as [H|H]; [left; now apply digit_range|auto]).
  rewrite (skip_start c).
  2:{ unfold ignored. repeat (rewrite orb_false_iff; split); apply N.eqb_neq; lia. }
  rewrite (proj2 (N.eqb_neq c 34)) by lia. rewrite (proj2 (N.eqb_neq c 91)) by lia. rewrite (proj2 (N.eqb_neq c 123)) by lia.
  assert (D : is_digit c || (c =? 45) = true) by (destruct Hc as [->| ->]; [reflexivity|apply orb_true_r]).
  rewrite D. change (c :: t ++ rest) with ((c :: t) ++ rest). rewrite (span_app number_char (c :: t) rest).
  - reflexivity.
  - constructor; auto. unfold number_char. destruct Hc as [->| ->]; reflexivity.
  - now apply follows_number.
Qed.
Lemma show_Z_number z : exists c t, show_Z z = c :: t /\ (is_digit c = true \/ c = 45) /\ Forall (fun c => number_char c = true) t.
Proof.
  assert (Dn : forall l, Forall (fun c => is_digit c = true) l -> Forall (fun c => number_char c = true) l).
  { intros l. apply Forall_impl. intros c H. unfold number_char. now rewrite H. }
  assert (Q : forall n, exists c t, show_N n = c :: t /\ is_digit c = true /\ Forall (fun c => number_char c = true) t).
  { intros n. destruct (show_N_cons n) as (c & t & E). pose proof (show_N_digits n) as D. rewrite E in D.
    inversion D; subst. exists c, t. auto. }
  destruct z as [|p|p]; cbn [show_Z].
  - destruct (Q 0) as (c & t & E & H & F). exists c, t. auto.
  - destruct (Q (Npos p)) as (c & t & E & H & F). exists c, t. auto.
  - exists 45, (show_N (Npos p)). split; [reflexivity|split; [auto|]]. apply Dn, show_N_digits.
Qed.

(** ** Values *)
Lemma value_start v : printable v -> exists c r, display v = c :: r /\ c <> 93 /\ ignored c = false.
Proof.
  assert (Nn : forall t, name t -> exists c r, t = c :: r /\ c <> 93 /\ ignored c = false).
  { intros [|c r]; cbn [name]; [easy|]. intros [Nc _]. exists c, r. split; [reflexivity|].
    split; [apply name_start_range in Nc; lia|now apply name_not_ignored]. }
  assert (Nu : forall c : N, (is_digit c = true \/ c = 45) -> c <> 93 /\ ignored c = false).
  { intros c H. assert (R : 48 <= c <= 57 \/ c = 45) by (destruct H as [H|H]; [left; now apply digit_range|auto]).
    split; [lia|]. unfold ignored. repeat (rewrite orb_false_iff; split); apply N.eqb_neq; lia. }
  intros P. destruct P as [|s F|z|c t Hc Ft|b|n Nm _ _ _|l F|l F]; cbn [display].
  - do 2 eexists. split; [reflexivity|split; [discriminate|reflexivity]].
  - do 2 eexists. split; [reflexivity|split; [discriminate|reflexivity]].
  - destruct (show_Z_number z) as (c & t & E & Hc & _). exists c, t. rewrite E. auto.
  - exists c, t. auto.
  - destruct b; do 2 eexists; (split; [reflexivity|split; [discriminate|reflexivity]]).
  - auto.
  - do 2 eexists. split; [reflexivity|split; [discriminate|reflexivity]].
  - do 2 eexists. split; [reflexivity|split; [discriminate|reflexivity]].
Qed.
Lemma p_value_skip n t : p_value n (44 :: t) = p_value n t.
Proof. destruct n; reflexivity. Qed.

Definition parses (k : nat) (v : svalue) : Prop := forall rest n, follows rest -> (k <= n)%nat ->
  exists p, p_value n (display v ++ rest) = Some (p, rest) /\ reads p v.

Lemma items_ok l : Forall printable l -> (forall v, In v l -> parses (S (List.length (display v))) v) ->
  forall rest n, (List.length (flat_map (fun t => 44%N :: t) (map display l)) + 1 <= n)%nat ->
  exists ps, p_items n (flat_map (fun t => 44 :: t) (map display l) ++ 93 :: rest) = Some (ps, rest) /\ Forall2 reads ps l.
Proof.
  induction l as [|v l IH]; intros Pl H rest n L; cbn [map flat_map] in *.
  - destruct n as [|n]; [cbn in L; lia|]. exists []. split; [reflexivity|constructor].
  - inversion Pl as [|? ? Pv Pl']; subst. cbn [List.length app] in L. rewrite app_length in L.
    destruct n as [|n]; [lia|].
    destruct (value_start v Pv) as (c & r & E & N93 & Ig).
    set (tail := (flat_map (fun t => 44 :: t) (map display l) ++ 93 :: rest)).
    destruct (H v (or_introl eq_refl) tail n) as (p & Ep & Rp).
    { unfold tail. destruct l; cbn [map flat_map app]; cbn [follows]; auto. }
    { lia. }
    destruct (IH Pl' (fun w I => H w (or_intror I)) rest n ltac:(lia)) as (ps & Es & Fs).
    exists (p :: ps). split; [|constructor; auto].
    cbn [app]. rewrite <- app_assoc. fold tail. cbn [p_items].
    assert (Sk : skip (44 :: display v ++ tail) = display v ++ tail).
    { rewrite E. cbn [app skip]. change (ignored 44) with true. cbn iota. now rewrite Ig. }
    rewrite Sk. rewrite E in *. cbn [app] in *. rewrite (proj2 (N.eqb_neq c 93) N93). rewrite Ep. unfold tail at 1. rewrite Es. reflexivity.
Qed.
Lemma fields_ok l : Forall (fun p => name (fst p) /\ printable (snd p)) l ->
  (forall p, In p l -> parses (S (List.length (display (snd p)))) (snd p)) ->
  forall rest n, (List.length (flat_map (fun t => 44%N :: t) (map (fun p => fst p ++ 58%N :: display (snd p)) l)) + 1 <= n)%nat ->
  exists ps, p_fields n (flat_map (fun t => 44 :: t) (map (fun p => fst p ++ 58 :: display (snd p)) l) ++ 125 :: rest) = Some (ps, rest) /\
    Forall2 (fun p v => fst p = fst v /\ reads (snd p) (snd v)) ps l.
Proof.
  induction l as [|[k v] l IH]; intros Pl H rest n L; cbn [map flat_map] in *.
  - destruct n as [|n]; [cbn in L; lia|]. exists []. split; [reflexivity|constructor].
  - inversion Pl as [|? ? [Pk Pv] Pl']; subst. cbn [fst snd] in *. cbn [List.length app] in L. rewrite !app_length in L. cbn [List.length] in L.
    destruct n as [|n]; [lia|].
    set (tail := (flat_map (fun t => 44 :: t) (map (fun p => fst p ++ 58 :: display (snd p)) l) ++ 125 :: rest)).
    destruct (H (k, v) (or_introl eq_refl) tail n) as (p & Ep & Rp).
    { unfold tail. destruct l; cbn [map flat_map app]; cbn [follows]; auto. }
    { cbn [snd]. lia. }
    destruct (IH Pl' (fun w I => H w (or_intror I)) rest n ltac:(lia)) as (ps & Es & Fs).
    exists ((k, p) :: ps). split; [|constructor; auto].
    cbn [app]. rewrite <- !app_assoc. cbn [app]. rewrite <- ?app_assoc. fold tail. cbn [p_fields].
    destruct k as [|c k]; [destruct Pk|]. destruct Pk as [Nc Fk].
    assert (Sk : skip (44 :: (c :: k) ++ 58 :: display v ++ tail) = c :: k ++ 58 :: display v ++ tail).
    { cbn [app skip]. change (ignored 44) with true. cbn iota. now rewrite (name_not_ignored c Nc). }
    rewrite Sk. pose proof (name_start_range c Nc) as R.
    rewrite (proj2 (N.eqb_neq c 125)) by lia. rewrite Nc.
    change (c :: k ++ 58 :: display v ++ tail) with ((c :: k) ++ 58 :: display v ++ tail).
    rewrite (span_app name_char (c :: k)); [|constructor; auto; unfold name_char; now rewrite Nc|reflexivity].
    change (skip (58 :: display v ++ tail)) with (58 :: display v ++ tail). cbn iota.
    change (58 =? 58) with true. cbn iota. cbn [snd] in Ep. rewrite Ep. unfold tail at 1. rewrite Es. reflexivity.
Qed.

Lemma separated_flat l : l <> [] -> 44 :: separated l = flat_map (fun t => 44 :: t) l.
Proof. destruct l as [|t l]; [congruence|]. reflexivity. Qed.
Lemma p_items_comma n t : p_items n (44 :: t) = p_items n t.
Proof. destruct n; reflexivity. Qed.
Lemma p_fields_comma n t : p_fields n (44 :: t) = p_fields n t.
Proof. destruct n; reflexivity. Qed.
Lemma in_separated (l : list text) t : In t l -> (List.length t <= List.length (separated l))%nat.
Proof.
  destruct l as [|a l]; [easy|]. cbn [separated]. rewrite app_length. intros [->|I]; [lia|].
  assert (List.length t <= List.length (flat_map (fun t : list N => 44%N :: t) l))%nat; [|lia].
  induction l as [|b l IH]; [easy|]. cbn [flat_map List.length app]. rewrite app_length. destruct I as [->|I]; [lia|].
  specialize (IH I). lia.
Qed.

Lemma value_ok : forall k v, (List.length (display v) < k)%nat -> printable v -> parses (S (List.length (display v))) v.
Proof.
  induction k as [|k IH]; intros v L P; [lia|]. intros rest n Fo Ln. destruct n as [|n]; [lia|].
  destruct P as [|s F|z|c t Hc Ft|b|m Nm N1 N2 N3|l F|l F].
  - destruct (word_value n (codes "null"%string) rest) as (c & r & _ & E); [repeat constructor|exact Fo|].
    exists PNull. split; [exact E|constructor].
  - exists (PString s). split; [|constructor]. cbn [display]. unfold write_quoted. cbn [app]. rewrite <- app_assoc. cbn [app].
    pose proof (read_quoted s rest) as R. rewrite (proj2 (map_unquoted s) F) in R.
    cbn [p_value]. change (skip (34 :: flat_map quote_char s ++ 34 :: rest)) with (34 :: flat_map quote_char s ++ 34 :: rest).
    cbn iota. change (34 =? 34) with true. cbn iota. rewrite R.
    destruct s as [|c s]; cbn [flat_map app].
    + destruct rest as [|q rest]; [reflexivity|]. cbn [follows] in Fo.
      destruct (N.eqb_spec q 34) as [->|_]; [lia|]. now rewrite andb_false_r.
    + remember (quote_char c) as q eqn:Eq.
      assert (Q : exists q1 q', q = q1 :: q' /\ q1 <> 34).
      { subst q. unfold quote_char.
        destruct (c =? 13); [do 2 eexists; split; [reflexivity|discriminate]|].
        destruct (c =? 10); [do 2 eexists; split; [reflexivity|discriminate]|].
        destruct (c =? 9); [do 2 eexists; split; [reflexivity|discriminate]|].
        destruct (N.eqb_spec c 34); [do 2 eexists; split; [reflexivity|discriminate]|].
        destruct (c =? 92); [do 2 eexists; split; [reflexivity|discriminate]|].
        destruct (is_control c); [do 2 eexists; split; [reflexivity|discriminate]|].
        do 2 eexists; split; [reflexivity|assumption]. }
      destruct Q as (q1 & q' & -> & N34). cbn [app].
      destruct ((q' ++ flat_map quote_char s) ++ 34 :: rest) as [|q2 tl]; [reflexivity|].
      rewrite (proj2 (N.eqb_neq q1 34) N34). reflexivity.
  - destruct (show_Z_number z) as (c & t & E & Hc & Ft). exists (PNum (show_Z z)). split; [|constructor; apply int_show].
    cbn [display]. rewrite E. now apply number_value.
  - exists (PNum (c :: t)). split; [|constructor]. cbn [display]. now apply number_value.
  - exists (PBool b). split; [|constructor].
    destruct (word_value n (codes (if b then "true" else "false")%string) rest) as (c & r & _ & E);
      [destruct b; repeat constructor|exact Fo|]. cbn [display]. rewrite E. destruct b; reflexivity.
  - exists (PEnum m). split; [|constructor]. destruct (word_value n m rest Nm Fo) as (c & r & _ & E). cbn [display]. rewrite E.
    unfold word.
    destruct (text_eqb m (codes "null"%string)) eqn:E1; [apply text_eqb_eq in E1; contradiction|].
    destruct (text_eqb m (codes "true"%string)) eqn:E2; [apply text_eqb_eq in E2; contradiction|].
    destruct (text_eqb m (codes "false"%string)) eqn:E3; [apply text_eqb_eq in E3; contradiction|]. reflexivity.
  - cbn [display] in *. cbn [List.length] in L, Ln. rewrite app_length in L, Ln. cbn [List.length] in L, Ln.
    destruct l as [|v0 l].
    + exists (PList []). split; [|constructor; constructor]. destruct n as [|n]; [lia|]. reflexivity.
    + set (w := v0 :: l) in *.
      assert (Ne : map display w <> []) by discriminate.
      pose proof (separated_flat (map display w) Ne) as Sf.
      destruct (items_ok w F) with (rest := rest) (n := n) as (ps & Es & Fs).
      * intros v I. apply IH; [|rewrite Forall_forall in F; auto].
        pose proof (in_separated (map display w) (display v) (in_map display w v I)). lia.
      * rewrite <- Sf. cbn [List.length]. lia.
      * exists (PList ps). split; [|now constructor].
        rewrite <- Sf in Es. cbn [app] in Es. rewrite p_items_comma in Es.
        cbn [app]. rewrite <- app_assoc. cbn [app p_value].
        change (skip (91 :: separated (map display w) ++ 93 :: rest)) with (91 :: separated (map display w) ++ 93 :: rest).
        cbn iota. change (91 =? 34) with false. change (91 =? 91) with true. cbn iota. rewrite Es. reflexivity.
  - cbn [display] in *. cbn [List.length] in L, Ln. rewrite app_length in L, Ln. cbn [List.length] in L, Ln.
    destruct l as [|v0 l].
    + exists (PObject []). split; [|constructor; constructor]. destruct n as [|n]; [lia|]. reflexivity.
    + set (w := v0 :: l) in *.
      set (sh := fun p : list N * svalue => fst p ++ 58 :: display (snd p)) in *.
      assert (Ne : map sh w <> []) by discriminate.
      pose proof (separated_flat (map sh w) Ne) as Sf.
      destruct (fields_ok w F) with (rest := rest) (n := n) as (ps & Es & Fs).
      * intros v I. apply IH; [|rewrite Forall_forall in F; apply F; auto].
        pose proof (in_separated (map sh w) (sh v) (in_map sh w v I)) as Q. change (sh v) with (fst v ++ 58 :: display (snd v)) in Q. rewrite app_length in Q. cbn [List.length] in Q. lia.
      * fold sh. rewrite <- Sf. cbn [List.length]. lia.
      * exists (PObject ps). split; [|now constructor].
        fold sh in Es. rewrite <- Sf in Es. cbn [app] in Es. rewrite p_fields_comma in Es.
        cbn [app]. rewrite <- app_assoc. cbn [app p_value].
        change (skip (123 :: separated (map sh w) ++ 125 :: rest)) with (123 :: separated (map sh w) ++ 125 :: rest).
        cbn iota. change (123 =? 34) with false. change (123 =? 91) with false. change (123 =? 123) with true. cbn iota. rewrite Es. reflexivity.
Qed.
Lemma parse_display v : printable v -> exists p, parse (display v) = Some p /\ reads p v.
Proof.
  intros P. destruct (value_ok (S (List.length (display v))) v ltac:(lia) P [] (S (List.length (display v))) Logic.I ltac:(lia)) as (p & E & R).
  exists p. split; [|exact R]. unfold parse. rewrite app_nil_r in E. rewrite E. reflexivity.
Qed.
