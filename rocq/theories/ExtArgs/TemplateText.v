(** Reading back what the template writes. *)
From Coq Require Import String Ascii List NArith Bool Lia PeanoNat.
From Verif Require Import ExtArgs.Template ExtArgs.TemplateSpec.
Import ListNotations.
Local Open Scope string_scope.
Local Open Scope list_scope.

Ltac bytes c := destruct c as [[] [] [] [] [] [] [] []].

Lemma app_assoc_s : forall a b c : string, ((a ++ b) ++ c = a ++ (b ++ c))%string.
Proof. induction a as [|x a IH]; intros b c; [reflexivity|]. cbn. now rewrite IH. Qed.

Lemma app_nil_s : forall a : string, (a ++ "" = a)%string.
Proof. induction a as [|x a IH]; [reflexivity|]. cbn. now rewrite IH. Qed.

Lemma chars_app : forall a b, chars (a ++ b)%string = chars a ++ chars b.
Proof. induction a as [|x a IH]; intro b; [reflexivity|]. cbn. unfold chars in IH. now rewrite IH. Qed.

(** *** URLs *)

Lemma kept_unreserved : forall c, kept c = existsb (Ascii.eqb c) unreserved.
Proof. intro c. bytes c; vm_compute; reflexivity. Qed.

Lemma kept_in : forall c, kept c = true -> In c unreserved.
Proof.
  intros c H. rewrite kept_unreserved in H. apply existsb_exists in H. destruct H as [d [I E]].
  apply Ascii.eqb_eq in E. now subst d.
Qed.

Lemma percent_inert : forall c, url_inert (percent c).
Proof.
  intros c d [E|[E|[E|[]]]].
  - right. now rewrite <- E.
  - left. apply kept_in. rewrite <- E. clear. bytes c; vm_compute; reflexivity.
  - left. apply kept_in. rewrite <- E. clear. bytes c; vm_compute; reflexivity.
Qed.

Lemma inert_app : forall a b, url_inert a -> url_inert b -> url_inert (a ++ b).
Proof. intros a b A C c I. rewrite chars_app in I. apply in_app_or in I. destruct I; auto. Qed.

Lemma urlencode_inert : forall s, url_inert (urlencode s).
Proof.
  induction s as [|c s IH]; [intros c []|]. cbn [urlencode]. apply inert_app; [|exact IH].
  destruct (kept c) eqn:K; [|apply percent_inert]. intros d [E|[]]. subst d. left. now apply kept_in.
Qed.

Lemma decode_plain : forall c s, kept c = true -> url_decode (String c s) = option_map (String c) (url_decode s).
Proof. intros c s K. bytes c; try reflexivity; vm_compute in K; discriminate K. Qed.

Lemma high_digit : forall c, digit_value (hex 65 (code c / 16)) = Some (code c / 16)%N.
Proof. intro c. bytes c; vm_compute; reflexivity. Qed.

Lemma low_digit : forall c, digit_value (hex 65 (code c mod 16)) = Some (code c mod 16)%N.
Proof. intro c. bytes c; vm_compute; reflexivity. Qed.

Lemma byte_of_digits : forall c, ascii_of_N (16 * (code c / 16) + code c mod 16) = c.
Proof. intro c. bytes c; vm_compute; reflexivity. Qed.

Lemma decode_percent : forall c s, url_decode (percent c ++ s) = option_map (String c) (url_decode s).
Proof.
  intros c s. transitivity (match digit_value (hex 65 (code c / 16)), digit_value (hex 65 (code c mod 16)), url_decode s with
    | Some h, Some l, Some s => Some (String (ascii_of_N (16 * h + l)) s) | _, _, _ => None end); [reflexivity|].
  rewrite high_digit, low_digit. destruct (url_decode s); [|reflexivity]. now rewrite byte_of_digits.
Qed.

Lemma decode_encode : forall s, url_decode (urlencode s) = Some s.
Proof.
  induction s as [|c s IH]; [reflexivity|]. cbn [urlencode]. destruct (kept c) eqn:K.
  - change (one c ++ urlencode s)%string with (String c (urlencode s)). rewrite decode_plain by exact K. now rewrite IH.
  - rewrite decode_percent. now rewrite IH.
Qed.

(** *** JSON *)

Lemma read_byte : forall c t,
  read_body (escape_byte c ++ t) = option_map (fun r => (String c (fst r), snd r)) (read_body t).
Proof. intros c t. bytes c; reflexivity. Qed.

Lemma read_escaped : forall s rest, read_body (escape_body s ++ String """" rest) = Some (s, rest).
Proof.
  induction s as [|c s IH]; intro rest; [reflexivity|]. cbn [escape_body]. rewrite app_assoc_s, read_byte, IH. reflexivity.
Qed.

Lemma quote_app : forall s rest, (quote s ++ rest)%string = String """" (escape_body s ++ String """" rest).
Proof. intros s rest. unfold quote. rewrite !app_assoc_s. reflexivity. Qed.

Fixpoint size (j : json) : nat :=
  match j with
  | JArr l => S (fold_right (fun j n => S (size j + n)) 0 l)
  | JObj fs => S (fold_right (fun f n => S (size (snd f) + n)) 0 fs)
  | _ => 1
  end.

Section Ind.
  Variable P : json -> Prop.
  Hypothesis H0 : P JNull.
  Hypothesis H1 : forall b, P (JBool b).
  Hypothesis H2 : forall t, P (JNum t).
  Hypothesis H3 : forall s, P (JStr s).
  Hypothesis H4 : forall l, Forall P l -> P (JArr l).
  Hypothesis H5 : forall fs, Forall (fun f => P (snd f)) fs -> P (JObj fs).
  Fixpoint json_ind' (j : json) : P j :=
    match j with
    | JNull => H0 | JBool b => H1 b | JNum t => H2 t | JStr s => H3 s
    | JArr l => H4 l ((fix go l : Forall P l := match l with [] => Forall_nil _ | j :: l => Forall_cons j (json_ind' j) (go l) end) l)
    | JObj fs => H5 fs ((fix go fs : Forall (fun f => P (snd f)) fs :=
        match fs with [] => Forall_nil _ | f :: fs => Forall_cons f (json_ind' (snd f)) (go fs) end) fs)
    end.
End Ind.

Lemma is_number_char_iff : forall c, is_number_char c = true <-> In c number_chars.
Proof.
  intro c. unfold is_number_char. rewrite existsb_exists. split.
  - intros [d [I E]]. apply Ascii.eqb_eq in E. now subst d.
  - intro I. exists c. split; [exact I|apply Ascii.eqb_refl].
Qed.

Lemma run_delimited : forall t rest, (forall c, In c (chars t) -> In c number_chars) -> delimited rest ->
  number_run (t ++ rest) = (t, rest).
Proof.
  induction t as [|c t IH]; intros rest A D.
  - destruct rest as [|c rest]; [reflexivity|]. cbn [append number_run]. destruct (is_number_char c) eqn:E; [|reflexivity].
    apply is_number_char_iff in E. contradiction (D E).
  - cbn [append number_run]. rewrite (proj2 (is_number_char_iff c)) by (apply A; now left).
    rewrite IH; [reflexivity| |exact D]. intros d I. apply A. now right.
Qed.

(** Characters that start a value. *)
Lemma number_start : forall c, In c number_chars ->
  Ascii.eqb c "n" = false /\ Ascii.eqb c "t" = false /\ Ascii.eqb c "f" = false /\ Ascii.eqb c """" = false
  /\ Ascii.eqb c "[" = false /\ Ascii.eqb c "{" = false /\ is_number_char c = true /\ Ascii.eqb "]" c = false.
Proof.
  intros c I. apply is_number_char_iff in I. bytes c; vm_compute in I; try discriminate I; vm_compute; repeat split.
Qed.

Lemma starts : forall j, json_ok j -> exists c t, to_string j = String c t /\ Ascii.eqb "]" c = false.
Proof.
  intros j K. destruct K as [|b|t [N A]|s|l _|fs _].
  - do 2 eexists. split; reflexivity.
  - destruct b; do 2 eexists; split; reflexivity.
  - destruct t as [|c t]; [congruence|]. exists c, t. split; [reflexivity|]. apply number_start. apply A. now left.
  - do 2 eexists. split; reflexivity.
  - do 2 eexists. split; reflexivity.
  - do 2 eexists. split; reflexivity.
Qed.

Lemma delimited_comma : forall s, delimited (String "," s).
Proof. intros s I. apply is_number_char_iff in I. discriminate I. Qed.
Lemma delimited_bracket : forall s, delimited (String "]" s).
Proof. intros s I. apply is_number_char_iff in I. discriminate I. Qed.
Lemma delimited_brace : forall s, delimited (String "}" s).
Proof. intros s I. apply is_number_char_iff in I. discriminate I. Qed.

Definition reads_back (j : json) : Prop :=
  json_ok j -> forall fuel rest, size j <= fuel -> delimited rest -> read_value fuel (to_string j ++ rest) = Some (j, rest).

Lemma elements_back : forall l, l <> [] -> Forall reads_back l -> Forall json_ok l ->
  forall fuel rest, fold_right (fun j n => S (size j + n)) 0 l <= fuel ->
  read_elements fuel (commas (map to_string l) ++ String "]" rest) = Some (l, rest).
Proof.
  induction l as [|j l IH]; [congruence|]. intros _ B K fuel rest F. inversion B as [|? ? B1 B2]. subst. inversion K as [|? ? K1 K2]. subst.
  cbn [fold_right] in F. destruct fuel as [|fuel]; [lia|].
  destruct l as [|j2 l].
  - cbn [map commas]. cbn [read_elements]. rewrite (B1 K1 fuel _) by (lia || apply delimited_bracket). reflexivity.
  - assert (E : commas (map to_string (j :: j2 :: l)) = (to_string j ++ "," ++ commas (map to_string (j2 :: l)))%string) by reflexivity.
    rewrite E. rewrite !app_assoc_s. cbn [append]. cbn [read_elements].
    rewrite (B1 K1 fuel _) by (lia || apply delimited_comma).
    change (strip "]" (String "," ?s)) with (@None string). change (strip "," (String "," ?s)) with (Some s).
    cbn iota. cbn [fold_right] in *. rewrite IH; [reflexivity|discriminate|exact B2|exact K2|cbn [fold_right]; lia].
Qed.

Lemma members_back : forall fs, fs <> [] -> Forall (fun f => reads_back (snd f)) fs -> Forall (fun f => json_ok (snd f)) fs ->
  forall fuel rest, fold_right (fun f n => S (size (snd f) + n)) 0 fs <= fuel ->
  read_members fuel (commas (map (fun f => quote (fst f) ++ ":" ++ to_string (snd f))%string fs) ++ String "}" rest) = Some (fs, rest).
Proof.
  induction fs as [|[k j] fs IH]; [congruence|]. intros _ B K fuel rest F. inversion B as [|? ? B1 B2]. subst. inversion K as [|? ? K1 K2]. subst.
  cbn [fold_right snd] in *. destruct fuel as [|fuel]; [lia|].
  assert (Q : forall t, read_members (S fuel) (quote k ++ ":" ++ to_string j ++ t) =
    match read_value fuel (to_string j ++ t) with
    | None => None
    | Some (j, s) =>
      match strip "}" s, strip "," s with
      | Some r, _ => Some ([(k, j)], r)
      | None, Some s => option_map (fun r => ((k, j) :: fst r, snd r)) (read_members fuel s)
      | None, None => None
      end
    end).
  { intro t. rewrite quote_app. cbn [read_members strip]. change (Ascii.eqb """" """") with true. cbn iota.
    rewrite read_escaped. reflexivity. }
  destruct fs as [|f2 fs].
  - cbn [map commas fst snd]. rewrite !app_assoc_s. rewrite Q. rewrite (B1 K1 fuel _) by (lia || apply delimited_brace). reflexivity.
  - set (w := fun f : string * json => (quote (fst f) ++ ":" ++ to_string (snd f))%string) in *.
    assert (E : commas (map w ((k, j) :: f2 :: fs)) = (quote k ++ ":" ++ to_string j ++ "," ++ commas (map w (f2 :: fs)))%string).
    { change (commas (map w ((k, j) :: f2 :: fs))) with (w (k, j) ++ "," ++ commas (map w (f2 :: fs)))%string.
      unfold w at 1. cbn [fst snd]. now rewrite !app_assoc_s. }
    rewrite E. rewrite !app_assoc_s. rewrite Q. cbn [append].
    rewrite (B1 K1 fuel _) by (lia || apply delimited_comma).
    change (strip "}" (String "," ?s)) with (@None string). change (strip "," (String "," ?s)) with (Some s).
    cbn iota. cbn [fold_right] in *. rewrite IH; [reflexivity|discriminate|exact B2|exact K2|lia].
Qed.

Lemma strip_other : forall a b s, Ascii.eqb a b = false -> strip (one a) (String b s) = None.
Proof. intros a b s E. cbn. now rewrite E. Qed.

Theorem back : forall j, reads_back j.
Proof.
  apply json_ind'.
  - intros _ fuel rest F D. destruct fuel; [cbn in F; lia|]. reflexivity.
  - intros b _ fuel rest F D. destruct fuel; [cbn in F; lia|]. destruct b; reflexivity.
  - intros t K fuel rest F D. inversion K as [| |? [N A]| | |]. subst. destruct fuel; [cbn in F; lia|]. clear F K.
    destruct t as [|c t]; [congruence|].
    destruct (number_start c (A c (or_introl eq_refl))) as (E1 & E2 & E3 & E4 & E5 & E6 & E7 & _).
    cbn [to_string]. pose proof (run_delimited (String c t) rest A D) as R.
    cbn [append] in *. cbn [read_value]. rewrite E1, E2, E3, E4, E5, E6, E7. rewrite R. reflexivity.
  - intros s _ fuel rest F D. destruct fuel; [cbn in F; lia|]. cbn [to_string]. rewrite quote_app.
    transitivity (option_map (fun r => (JStr (fst r), snd r)) (read_body (escape_body s ++ String """" rest))); [reflexivity|].
    now rewrite read_escaped.
  - intros l B K fuel rest F D. inversion K as [| | | |? K1|]. subst. destruct fuel; [cbn in F; lia|].
    cbn [to_string]. rewrite !app_assoc_s. cbn [append]. destruct l as [|j l]; [reflexivity|].
    transitivity (match strip "]" (commas (map to_string (j :: l)) ++ String "]" rest) with
      | Some r => Some (JArr [], r)
      | None => option_map (fun r => (JArr (fst r), snd r)) (read_elements fuel (commas (map to_string (j :: l)) ++ String "]" rest)) end); [reflexivity|].
    rewrite elements_back; [|discriminate|exact B|exact K1|cbn [size] in F; lia].
    inversion K1 as [|? ? K2 _]. subst. destruct (starts j K2) as (c & t & E & E2).
    assert (H : exists t', (commas (map to_string (j :: l)) ++ String "]" rest)%string = String c t').
    { destruct l; cbn [map commas]; rewrite E; cbn [append]; eauto. }
    destruct H as [t' H]. rewrite H. change "]" with (one "]"). rewrite strip_other by exact E2. reflexivity.
  - intros fs B K fuel rest F D. inversion K as [| | | | |? K1]. subst. destruct fuel; [cbn in F; lia|].
    cbn [to_string]. rewrite !app_assoc_s. cbn [append]. destruct fs as [|[k j] fs]; [reflexivity|].
    set (w := fun f : string * json => (quote (fst f) ++ ":" ++ to_string (snd f))%string) in *.
    transitivity (match strip "}" (commas (map w ((k, j) :: fs)) ++ String "}" rest) with
      | Some r => Some (JObj [], r)
      | None => option_map (fun r => (JObj (fst r), snd r)) (read_members fuel (commas (map w ((k, j) :: fs)) ++ String "}" rest)) end); [reflexivity|].
    unfold w. rewrite members_back; [|discriminate|exact B|exact K1|cbn [size] in F; lia]. fold w.
    assert (H : exists t', (commas (map w ((k, j) :: fs)) ++ String "}" rest)%string = String """" t').
    { destruct fs; cbn [map commas]; unfold w; cbn [fst]; unfold quote; cbn [append one]; eauto. }
    destruct H as [t' H]. rewrite H. reflexivity.
Qed.

Lemma to_string_reads : forall j rest, json_ok j -> delimited rest -> reads j (to_string j) rest.
Proof. intros j rest K D. exists (size j). intros fuel F. now apply back. Qed.

Lemma number_inert : forall c, In c number_chars -> In c unreserved.
Proof. intros c I. apply is_number_char_iff in I. apply kept_in. bytes c; vm_compute in I; try discriminate I; reflexivity. Qed.
