(* Properties of the texts of paths (C52). *)
From Coq Require Import String Ascii List Bool NArith Arith Lia DecimalString DecimalN.
Import ListNotations.
From Verif.SchemaDiff Require Import Ast Search Diff MapFacts DocFacts DiffProps Patch PatchFacts PatchProps PathText.
Local Open Scope string_scope.

(** The specification: the grammar of the texts (path.rs 12-36). *)

Definition is_digit_char (c : ascii) : bool := Nat.leb 48 (nat_of_ascii c) && Nat.leb (nat_of_ascii c) 57.

Fixpoint value (acc : N) (ds : string) : N :=
  match ds with
  | EmptyString => acc
  | String c r => value (acc * 10 + (N_of_ascii c - 48)) r
  end.

(* A number in brackets: leading zeros and a plus sign are allowed. *)
Inductive Index (i : N) : string -> Prop :=
| index_digits ds :
    ds <> "" -> all_chars is_digit_char ds = true -> value 0 ds = i -> (i < 2 ^ 64)%N -> Index i ("[" ++ ds ++ "]")
| index_plus ds :
    ds <> "" -> all_chars is_digit_char ds = true -> value 0 ds = i -> (i < 2 ^ 64)%N -> Index i ("[+" ++ ds ++ "]").

Inductive SpellsField : in_field -> string -> Prop :=
| spells_arg a : is_name a = true -> SpellsField (FArg a) a
| spells_field_directive n i x : is_name n = true -> Index i x -> SpellsField (FDirective n i) ("@" ++ n ++ x).

Inductive SpellsType : in_type -> string -> Prop :=
| spells_field f : is_name f = true -> SpellsType (TField f None) f
| spells_in_field f p s : is_name f = true -> SpellsField p s -> SpellsType (TField f (Some p)) (f ++ "." ++ s)
| spells_directive n i x : is_name n = true -> Index i x -> SpellsType (TDirective n i) ("@" ++ n ++ x)
| spells_impl n : is_name n = true -> SpellsType (TImpl n) ("&" ++ n).

Inductive SpellsIn : option in_type -> string -> Prop :=
| spells_here : SpellsIn None ""
| spells_inside p s : SpellsType p s -> SpellsIn (Some p) ("." ++ s).

Inductive Spells : gpath -> string -> Prop :=
| spells_schema : Spells GSchema ":schema"
| spells_schema_ext i x : Index i x -> Spells (GSchemaExt i) (":schema" ++ x)
| spells_type n p s : is_name n = true -> SpellsIn p s -> Spells (GType n p) (n ++ s)
| spells_type_ext n i x p s : is_name n = true -> Index i x -> SpellsIn p s -> Spells (GTypeExt n i p) (n ++ x ++ s)
| spells_directive_def n : is_name n = true -> Spells (GDirective n) ("@" ++ n).

(* The paths that can be written: names are names, indices are of 64 bits. *)
Definition ok_field (p : in_field) : Prop :=
  match p with FArg a => is_name a = true | FDirective n i => is_name n = true /\ (i < 2 ^ 64)%N end.
Definition ok_type (p : in_type) : Prop :=
  match p with
  | TField f None => is_name f = true
  | TField f (Some q) => is_name f = true /\ ok_field q
  | TDirective n i => is_name n = true /\ (i < 2 ^ 64)%N
  | TImpl n => is_name n = true
  end.
Definition ok_in (p : option in_type) : Prop := match p with None => True | Some q => ok_type q end.
Definition ok_path (p : gpath) : Prop :=
  match p with
  | GSchema => True
  | GSchemaExt i => (i < 2 ^ 64)%N
  | GType n q => is_name n = true /\ ok_in q
  | GTypeExt n i q => is_name n = true /\ (i < 2 ^ 64)%N /\ ok_in q
  | GDirective n => is_name n = true
  end.

(** Texts *)
Lemma app_assoc_s : forall a b c : string, a ++ (b ++ c) = (a ++ b) ++ c.
Proof. induction a; intros; cbn; f_equal; auto. Qed.

Lemma app_nil_s : forall a : string, a ++ "" = a.
Proof. induction a; cbn; f_equal; auto. Qed.

Lemma all_chars_of : forall p s, all_chars p s = all_of p s.
Proof. induction s; cbn; congruence. Qed.

Lemma all_chars_app : forall p a b, all_chars p (a ++ b) = all_chars p a && all_chars p b.
Proof. induction a; intros; cbn; [reflexivity|]. rewrite IHa. apply andb_assoc. Qed.

Lemma all_chars_impl : forall (p q : ascii -> bool) s, (forall c, p c = true -> q c = true) -> all_chars p s = true -> all_chars q s = true.
Proof.
  intros p q s H. induction s as [|c s IH]; cbn; [reflexivity|]. rewrite !andb_true_iff. intros [C E]. auto.
Qed.

Lemma name_valid : forall s, is_valid_graphql_name s = is_name s.
Proof.
  assert (W : forall c, is_alphabetic c || is_digit c || Ascii.eqb c "_" = word_char c)
    by (intros [[] [] [] [] [] [] [] []]; reflexivity).
  assert (F : forall c, is_alphabetic c || Ascii.eqb c "_" = first_char c)
    by (intros [[] [] [] [] [] [] [] []]; reflexivity).
  intros [|c s]; [reflexivity|]. cbn [is_valid_graphql_name is_name]. rewrite F. f_equal.
  induction s as [|d s IH]; [reflexivity|]. cbn. rewrite W. congruence.
Qed.

(* Not a dot or a bracket, and ASCII. *)
Definition plain (c : ascii) : bool := negb (Ascii.eqb c ".") && negb (Ascii.eqb c "[") && negb (continuation c).

Lemma word_plain : forall c, word_char c = true -> plain c = true.
Proof. intros [[] [] [] [] [] [] [] []]; cbv; congruence. Qed.

Lemma first_word : forall c, first_char c = true -> word_char c = true /\ c <> "@"%char /\ c <> "&"%char /\ c <> ":"%char.
Proof.
  intros [[] [] [] [] [] [] [] []] H; try (cbv in H; discriminate H); (split; [reflexivity|]); repeat split; discriminate.
Qed.

Lemma name_plain : forall s, is_name s = true -> all_chars plain s = true.
Proof.
  intros [|c s] H; [discriminate|]. cbn [is_name] in H. apply andb_true_iff in H. destruct H as [F W].
  cbn [all_chars]. rewrite (word_plain c) by (apply first_word; exact F). cbn.
  eapply all_chars_impl; [|exact W]. intros x X. exact (word_plain x X).
Qed.

Definition no_dot (s : string) : Prop := all_chars (fun c => negb (Ascii.eqb c ".")) s = true.

Lemma plain_no_dot : forall s, all_chars plain s = true -> no_dot s.
Proof.
  intros s. apply all_chars_impl. intros c H. unfold plain in H. apply andb_true_iff in H. destruct H as [H _].
  apply andb_true_iff in H. tauto.
Qed.

Lemma name_no_dot : forall s, is_name s = true -> no_dot s.
Proof. intros. apply plain_no_dot, name_plain. auto. Qed.

Lemma no_dot_app : forall a b, no_dot a -> no_dot b -> no_dot (a ++ b).
Proof. unfold no_dot. intros. rewrite all_chars_app. apply andb_true_iff. auto. Qed.

Lemma split_plain : forall s, no_dot s -> split "." s = (s, nil).
Proof.
  induction s as [|c s IH]; intros H; [reflexivity|]. unfold no_dot in H. cbn [all_chars] in H. apply andb_true_iff in H.
  destruct H as [C H]. cbn [split]. rewrite (IH H). apply negb_true_iff in C. rewrite C. reflexivity.
Qed.

Lemma split_dot : forall a b, no_dot a ->
  split "." (a ++ "." ++ b) = (a, fst (split "." b) :: snd (split "." b)).
Proof.
  induction a as [|c a IH]; intros b H.
  - cbn. destruct (split "." b). reflexivity.
  - unfold no_dot in H. cbn [all_chars] in H. apply andb_true_iff in H. destruct H as [C H].
    change (String c a ++ "." ++ b) with (String c (a ++ "." ++ b)). cbn [split]. rewrite (IH b H).
    apply negb_true_iff in C. rewrite C. reflexivity.
Qed.

(* The text from its segments. *)
Fixpoint joined (t : list string) : string :=
  match t with
  | nil => ""
  | x :: r => "." ++ x ++ joined r
  end.

Lemma split_joined : forall s h t, split "." s = (h, t) -> s = h ++ joined t /\ no_dot h /\ Forall no_dot t.
Proof.
  induction s as [|c s IH]; intros h t E; cbn [split] in E.
  - injection E as <- <-. repeat split; constructor.
  - destruct (split "." s) as [h' t'] eqn:E'. destruct (IH h' t' eq_refl) as (-> & H1 & H2).
    destruct (Ascii.eqb c ".") eqn:C; injection E as <- <-.
    + apply Ascii.eqb_eq in C. subst c. split; [reflexivity|]. split; [reflexivity|]. constructor; auto.
    + split; [reflexivity|]. split; [|exact H2]. unfold no_dot. cbn. rewrite C. exact H1.
Qed.

(** Numbers *)
Lemma read_digits_spec : forall s acc v, (acc < 2 ^ 64)%N ->
  (read_digits acc s = Some v <-> all_chars is_digit_char s = true /\ value acc s = v /\ (v < 2 ^ 64)%N).
Proof.
  assert (M : forall s acc, (acc <= value acc s)%N).
  { induction s as [|c s IH]; intros acc; cbn [value]; [lia|]. specialize (IH (acc * 10 + (N_of_ascii c - 48))%N). lia. }
  induction s as [|c s IH]; intros acc v L; cbn [read_digits all_chars value].
  - split; [intros E; injection E as <-; auto|intros (_ & -> & _); reflexivity].
  - unfold digit_value. change (is_digit c) with (is_digit_char c). destruct (is_digit_char c); cbn [andb].
    + destruct (N.ltb_spec (acc * 10 + (N_of_ascii c - 48)) usize_bound) as [B|B].
      * apply IH. exact B.
      * split; [discriminate|]. intros (_ & E & U). exfalso.
        specialize (M s (acc * 10 + (N_of_ascii c - 48))%N). change usize_bound with (2 ^ 64)%N in B. lia.
    + split; [discriminate|]. intros (? & _); discriminate.
Qed.

Lemma snoc_last : forall s, s <> "" -> exists m l, s = m ++ String l "".
Proof.
  induction s as [|c s IH]; intros NE; [contradiction|]. destruct s as [|d s].
  - exists "", c. reflexivity.
  - destruct IH as (m & l & E); [discriminate|]. exists (String c m), l. rewrite E. reflexivity.
Qed.

Lemma unsnoc_spec : forall s m l, unsnoc s = Some (m, l) <-> s = m ++ String l "".
Proof.
  induction s as [|c s IH]; intros m l; cbn [unsnoc].
  - split; [discriminate|]. destruct m; discriminate.
  - destruct (unsnoc s) as [[m' l']|].
    + pose proof (proj1 (IH m' l') eq_refl) as E. split.
      * intros H. injection H as <- <-. subst s. reflexivity.
      * intros H. destruct m as [|x m]; cbn in H.
        -- injection H as -> ->. destruct m'; discriminate E.
        -- injection H as -> H. apply IH in H. congruence.
    + split.
      * intros H. injection H as <- <-. destruct s as [|d s]; [reflexivity|]. exfalso.
        destruct (snoc_last (String d s) ltac:(discriminate)) as (m & l & E). apply IH in E. discriminate.
      * intros H. destruct m as [|x m]; cbn in H.
        -- injection H as -> ->. reflexivity.
        -- injection H as -> H. apply IH in H. discriminate.
Qed.

Lemma digit_any : forall s, s <> "" -> all_chars is_digit_char s = true -> any_of is_digit s = true.
Proof.
  intros [|c s] NE H; [contradiction|]. cbn in *. apply andb_true_iff in H. change (is_digit c) with (is_digit_char c).
  destruct H as [-> _]. reflexivity.
Qed.

Lemma parse_index_spec : forall s i, parse_index s = Parsed i <-> Index i s.
Proof.
  intros s i. split.
  - destruct s as [|c r]; [discriminate|]. cbn [parse_index].
    destruct (Ascii.eqb c "[") eqn:C; [|discriminate]. apply Ascii.eqb_eq in C. subst c.
    destruct (unsnoc r) as [[m l]|] eqn:U; [|discriminate]. apply unsnoc_spec in U. subst r.
    destruct (Ascii.eqb l "]") eqn:L; [|discriminate]. apply Ascii.eqb_eq in L. subst l.
    destruct (any_of is_digit m) eqn:AN; [|discriminate].
    destruct (parse_usize m) as [n|] eqn:P; [|discriminate]. intros E. injection E as ->.
    destruct m as [|c m]; [discriminate|]. cbn [parse_usize] in P.
    destruct (Ascii.eqb c "+") eqn:C.
    + apply Ascii.eqb_eq in C. subst c. destruct m as [|d m]; [discriminate|].
      apply read_digits_spec in P; [|reflexivity]. destruct P as (H1 & H2 & H3).
      change (String "[" (String "+" (String d m) ++ String "]" "")) with ("[+" ++ String d m ++ "]").
      constructor; auto; discriminate.
    + apply read_digits_spec in P; [|reflexivity]. destruct P as (H1 & H2 & H3).
      change (String "[" (String c m ++ String "]" "")) with ("[" ++ String c m ++ "]").
      constructor; auto; discriminate.
  - intros [ds NE H1 H2 H3|ds NE H1 H2 H3].
    + change ("[" ++ ds ++ "]") with (String "[" (ds ++ String "]" "")). cbn [parse_index].
      assert (U : unsnoc (ds ++ String "]" "") = Some (ds, "]"%char)) by (apply unsnoc_spec; reflexivity).
      rewrite U. cbn -[any_of parse_usize]. rewrite (digit_any ds NE H1).
      assert (P : parse_usize ds = Some i).
      { destruct ds as [|c ds]; [contradiction|]. cbn [parse_usize].
        destruct (Ascii.eqb c "+") eqn:C; [apply Ascii.eqb_eq in C; subst c; discriminate H1|].
        apply read_digits_spec; [reflexivity|auto]. }
      rewrite P. reflexivity.
    + change ("[+" ++ ds ++ "]") with (String "[" (String "+" ds ++ String "]" "")). cbn [parse_index].
      assert (U : unsnoc (String "+" ds ++ String "]" "") = Some (String "+" ds, "]"%char)) by (apply unsnoc_spec; reflexivity).
      rewrite U. cbn -[any_of parse_usize]. cbn [any_of]. rewrite (digit_any ds NE H1), orb_true_r.
      assert (P : parse_usize (String "+" ds) = Some i).
      { destruct ds as [|c ds]; [contradiction|]. cbn [parse_usize Ascii.eqb Bool.eqb]. 
        apply read_digits_spec; [reflexivity|auto]. }
      rewrite P. reflexivity.
Qed.

Lemma parse_index_panic : forall s, parse_index s <> Panicked.
Proof.
  intros [|c r]; [discriminate|]. cbn [parse_index]. destruct (Ascii.eqb c "["); [|discriminate].
  destruct (unsnoc r) as [[m l]|]; [|discriminate]. destruct (Ascii.eqb l "]"); [|discriminate].
  destruct (any_of is_digit m); [|discriminate]. destruct (parse_usize m); discriminate.
Qed.

(** Names and their indices *)
Lemma position_name : forall n r, all_chars plain n = true -> char_position "[" (n ++ String "[" r) = Some (String.length n).
Proof.
  induction n as [|c n IH]; intros r H; [reflexivity|]. cbn [all_chars] in H. apply andb_true_iff in H. destruct H as [C H].
  change (String c n ++ String "[" r) with (String c (n ++ String "[" r)). cbn [char_position].
  unfold plain in C. rewrite !andb_true_iff, !negb_true_iff in C. destruct C as [[_ ->] C]. rewrite (IH r H). cbn. rewrite C. reflexivity.
Qed.

Lemma position_none : forall n, all_chars plain n = true -> char_position "[" n = None.
Proof.
  induction n as [|c n IH]; intros H; [reflexivity|]. cbn [all_chars] in H. apply andb_true_iff in H. destruct H as [C H].
  cbn [char_position]. unfold plain in C. rewrite !andb_true_iff, !negb_true_iff in C. destruct C as [[_ ->] C]. rewrite (IH H). reflexivity.
Qed.

Lemma slice_name : forall n r, slice (String.length n) (n ++ String "[" r) = Parsed (n, String "[" r).
Proof. induction n as [|c n IH]; intros r; [reflexivity|]. cbn. rewrite IH. reflexivity. Qed.

Lemma slice_app : forall i s p q, slice i s = Parsed (p, q) -> s = p ++ q /\ String.length p = i /\ 
  match q with String x _ => continuation x = false | _ => True end.
Proof.
  induction i as [|i IH]; intros s p q E; destruct s as [|x s]; cbn in E; try discriminate.
  - injection E as <- <-. auto.
  - destruct (continuation x) eqn:C; [discriminate|]. injection E as <- <-. auto.
  - destruct (slice i s) as [[p' q']| |] eqn:E'; cbn in E; try discriminate. injection E as <- <-.
    destruct (IH s p' q' E') as (-> & <- & H). auto.
Qed.

Lemma index_bracket : forall i x, Index i x -> exists r, x = String "[" r.
Proof. intros i x []; eexists; reflexivity. Qed.

Lemma noi_spec : forall s n o, parse_name_and_optional_index s = Parsed (n, o) <->
  is_name n = true /\ match o with None => s = n | Some i => exists x, Index i x /\ s = n ++ x end.
Proof.
  intros s n o. unfold parse_name_and_optional_index. split.
  - destruct (char_position "[" s) as [j|] eqn:CP.
    + destruct (slice j s) as [[p q]| |] eqn:SL; cbn [bind fst snd]; try discriminate.
      rewrite name_valid. destruct (is_name p) eqn:NP; [|discriminate].
      destruct (parse_index q) as [i| |] eqn:PI; cbn [bind]; try discriminate.
      intros E. injection E as <- <-. apply slice_app in SL. destruct SL as (-> & _ & _).
      split; [exact NP|]. exists q. split; [apply parse_index_spec; exact PI|reflexivity].
    + rewrite name_valid. destruct (is_name s) eqn:NS; [|discriminate]. intros E. injection E as <- <-. auto.
  - intros [N H]. destruct o as [i|].
    + destruct H as (x & X & ->). destruct (index_bracket i x X) as (r & ->).
      rewrite (position_name n r (name_plain n N)), slice_name. cbn [bind fst snd]. rewrite name_valid, N.
      apply parse_index_spec in X. rewrite X. reflexivity.
    + subst s. rewrite (position_none n (name_plain n N)), name_valid, N. reflexivity.
Qed.

Lemma index_no_dot : forall i x, Index i x -> no_dot x.
Proof.
  assert (G : forall ds, all_chars is_digit_char ds = true -> no_dot ds).
  { intros ds. apply all_chars_impl. intros [[] [] [] [] [] [] [] []]; cbv; congruence. }
  intros i x [ds _ H _ _|ds _ H _ _]; repeat apply no_dot_app; auto; reflexivity.
Qed.

(** Prefixes *)
Lemma strip_spec : forall p s r, strip_prefix p s = Some r <-> s = p ++ r.
Proof.
  induction p as [|c p IH]; intros s r; cbn [strip_prefix].
  - split; [intros E; injection E as ->; reflexivity|intros ->; reflexivity].
  - destruct s as [|d s]; [split; discriminate|]. destruct (Ascii.eqb c d) eqn:C.
    + apply Ascii.eqb_eq in C. subst d. rewrite IH. cbn. split; congruence.
    + split; [discriminate|]. cbn. intros E. injection E as -> _. rewrite Ascii.eqb_refl in C. discriminate.
Qed.

Lemma strip_name : forall c p n r, is_name n = true -> In c ["@"%char; "&"%char; ":"%char] -> strip_prefix (String c p) (n ++ r) = None.
Proof.
  intros c p [|d n] r N H; [discriminate|]. cbn [is_name] in N. apply andb_true_iff in N. destruct N as [F _].
  destruct (first_word d F) as (_ & N1 & N2 & N3). cbn [append strip_prefix].
  destruct (Ascii.eqb c d) eqn:C; [|reflexivity]. apply Ascii.eqb_eq in C. subst d.
  destruct H as [<-|[<-|[<-|[]]]]; contradiction.
Qed.

Lemma name_not_empty : forall n r, is_name n = true -> String.eqb (n ++ r) "" = false.
Proof. intros [|c n] r N; [discriminate|reflexivity]. Qed.

(** The parts of a path *)
Lemma field_spec : forall segs o, Forall no_dot segs ->
  (parse_path_in_field segs = Parsed o <->
   match o with None => segs = nil | Some p => exists s, segs = [s] /\ SpellsField p s end).
Proof.
  intros segs o ND. unfold parse_path_in_field. split.
  - destruct segs as [|s [|s' segs]]; [intros E; injection E as <-; reflexivity| |discriminate].
    destruct (String.eqb s ""); [discriminate|].
    destruct (strip_prefix "@" s) as [x|] eqn:P.
    + apply strip_spec in P. subst s. destruct (parse_name_and_optional_index x) as [[n [i|]]| |] eqn:Q; cbn [bind]; try discriminate.
      apply noi_spec in Q. destruct Q as (N & y & Y & ->). intros E. injection E as <-. eexists. split; [reflexivity|].
      constructor; auto.
    + rewrite name_valid. destruct (is_name s) eqn:N; [|discriminate]. intros E. injection E as <-.
      eexists. split; [reflexivity|]. constructor; auto.
  - destruct o as [p|]; [|intros ->; reflexivity]. intros (s & -> & [a N|n i x N X]).
    + pose proof (name_not_empty a "" N) as H. rewrite app_nil_s in H. rewrite H.
      pose proof (strip_name "@" "" a "" N (or_introl eq_refl)) as H2. rewrite app_nil_s in H2. rewrite H2, name_valid, N. reflexivity.
    + cbn [append String.eqb]. assert (P : strip_prefix "@" (String "@" (n ++ x)) = Some (n ++ x)) by (apply strip_spec; reflexivity).
      change ("@" ++ n ++ x) with (String "@" (n ++ x)). cbn [String.eqb]. rewrite P.
      assert (Q : parse_name_and_optional_index (n ++ x) = Parsed (n, Some i)) by (apply noi_spec; eauto). rewrite Q. reflexivity.
Qed.

(* The segments of a text after a name. *)
Definition segments_of (o : option in_type) (segs : list string) : Prop :=
  match o with None => segs = nil | Some p => exists s, SpellsType p s /\ segs = fst (split "." s) :: snd (split "." s) end.

Lemma spells_field_no_dot : forall p s, SpellsField p s -> no_dot s.
Proof.
  intros p s [a N|n i x N X]; [apply name_no_dot; exact N|].
  apply no_dot_app; [reflexivity|]. apply no_dot_app; [apply name_no_dot; exact N|exact (index_no_dot i x X)].
Qed.

Lemma type_spec : forall segs o, Forall no_dot segs -> (parse_path_in_type segs = Parsed o <-> segments_of o segs).
Proof.
  intros segs o ND. unfold parse_path_in_type. split.
  - destruct segs as [|s rest]; [intros E; injection E as <-; reflexivity|].
    inversion ND as [|? ? NS NR]; subst.
    destruct (String.eqb s ""); [discriminate|].
    destruct (strip_prefix "@" s) as [x|] eqn:P.
    + apply strip_spec in P. subst s. destruct (parse_name_and_optional_index x) as [[n [i|]]| |] eqn:Q; cbn [bind]; try discriminate;
        destruct rest; try discriminate.
      apply noi_spec in Q. destruct Q as (N & y & Y & ->). intros E. injection E as <-.
      cbn [segments_of]. exists ("@" ++ n ++ y). split; [constructor; auto|]. rewrite (split_plain _ NS). reflexivity.
    + destruct (strip_prefix "&" s) as [x|] eqn:P2.
      * apply strip_spec in P2. subst s. rewrite name_valid. destruct (is_name x) eqn:N; [|discriminate].
        destruct rest; [|discriminate]. intros E. injection E as <-.
        cbn [segments_of]. exists ("&" ++ x). split; [constructor; auto|]. rewrite (split_plain _ NS). reflexivity.
      * rewrite name_valid. destruct (is_name s) eqn:N; [|discriminate].
        destruct (parse_path_in_field rest) as [q| |] eqn:Q; cbn [bind]; try discriminate. intros E. injection E as <-.
        apply (field_spec rest q NR) in Q. cbn [segments_of]. destruct q as [p|].
        -- destruct Q as (y & -> & SP). exists (s ++ "." ++ y). split; [constructor; auto|]. rewrite (split_dot s y NS).
           cbn [fst snd]. rewrite (split_plain y) by exact (spells_field_no_dot p y SP). reflexivity.
        -- subst rest. exists s. split; [constructor; auto|]. rewrite (split_plain s NS). reflexivity.
  - destruct o as [p|]; cbn [segments_of]; [|intros ->; reflexivity]. intros (s & [f N|f q y N SP|n i x N X|n N] & ->).
    + rewrite (split_plain f (name_no_dot f N)). cbn [fst snd].
      pose proof (name_not_empty f "" N) as H. rewrite app_nil_s in H. rewrite H.
      pose proof (strip_name "@" "" f "" N ltac:(cbn; auto)) as H2. pose proof (strip_name "&" "" f "" N ltac:(cbn; auto)) as H3.
      rewrite app_nil_s in H2, H3. rewrite H2, H3, name_valid, N. reflexivity.
    + rewrite (split_dot f y (name_no_dot f N)). cbn [fst snd]. rewrite (split_plain y) by exact (spells_field_no_dot q y SP). cbn [fst snd].
      pose proof (name_not_empty f "" N) as H. rewrite app_nil_s in H. rewrite H.
      pose proof (strip_name "@" "" f "" N ltac:(cbn; auto)) as H2. pose proof (strip_name "&" "" f "" N ltac:(cbn; auto)) as H3.
      rewrite app_nil_s in H2, H3. rewrite H2, H3, name_valid, N.
      assert (Q : parse_path_in_field [y] = Parsed (Some q)).
      { apply field_spec; [constructor; [exact (spells_field_no_dot q y SP)|constructor]|]. eauto. }
      rewrite Q. reflexivity.
    + rewrite split_plain by (apply no_dot_app; [reflexivity|apply no_dot_app; [apply name_no_dot; exact N|exact (index_no_dot i x X)]]).
      cbn [fst snd]. change ("@" ++ n ++ x) with (String "@" (n ++ x)). cbn [String.eqb].
      assert (P : strip_prefix "@" (String "@" (n ++ x)) = Some (n ++ x)) by (apply strip_spec; reflexivity). rewrite P.
      assert (Q : parse_name_and_optional_index (n ++ x) = Parsed (n, Some i)) by (apply noi_spec; eauto). rewrite Q. reflexivity.
    + rewrite split_plain by (apply no_dot_app; [reflexivity|apply name_no_dot; exact N]).
      cbn [fst snd]. change ("&" ++ n) with (String "&" n). cbn [String.eqb].
      assert (P : strip_prefix "&" (String "&" n) = Some n) by (apply strip_spec; reflexivity). rewrite P.
      assert (P2 : strip_prefix "@" (String "&" n) = None) by reflexivity. rewrite P2, name_valid, N. reflexivity.
Qed.

Lemma joined_inj : forall t, Forall no_dot t -> t <> nil ->
  exists s, joined t = "." ++ s /\ split "." s = (hd "" t, tl t).
Proof.
  induction t as [|x t IH]; intros ND NE; [contradiction|]. inversion ND as [|? ? NX NT]; subst.
  exists (x ++ joined t). split; [reflexivity|]. destruct t as [|y t].
  - cbn [joined]. rewrite app_nil_s. apply split_plain. exact NX.
  - destruct (IH NT ltac:(discriminate)) as (s & E & SP). rewrite E, (split_dot x s NX), SP. reflexivity.
Qed.

Lemma spells_in_segments : forall o t, Forall no_dot t -> (segments_of o t <-> SpellsIn o (joined t)).
Proof.
  intros o t ND. split.
  - destruct o as [p|]; cbn [segments_of].
    + intros (s & SP & ->). destruct (joined_inj _ ND ltac:(discriminate)) as (s' & E & SE). cbn [hd tl] in SE.
      assert (s' = s).
      { destruct (split_joined s _ _ (surjective_pairing _)) as (-> & _ & _).
        destruct (split_joined s' _ _ SE) as (-> & _ & _). reflexivity. }
      subst s'. rewrite E. constructor. exact SP.
    + intros ->. constructor.
  - intros H. destruct t as [|x t].
    + cbn [joined] in H. inversion H. reflexivity.
    + destruct (joined_inj _ ND ltac:(discriminate)) as (s & E & SE). rewrite E in H.
      inversion H as [E0|p y SP EO EY]; subst. cbn [segments_of].
      exists s. split; [exact SP|]. rewrite SE. reflexivity.
Qed.

(* The segments of a text that begins with a text without dot. *)
Lemma split_in : forall h o s, no_dot h -> SpellsIn o s -> exists t, split "." (h ++ s) = (h, t) /\ Forall no_dot t /\ joined t = s.
Proof.
  intros h o s NH [|p y SP].
  - exists nil. rewrite app_nil_s. split; [apply split_plain; exact NH|]. split; [constructor|reflexivity].
  - exists (fst (split "." y) :: snd (split "." y)). rewrite (split_dot h y NH). split; [reflexivity|].
    destruct (split_joined y _ _ (surjective_pairing _)) as (E & H1 & H2). split; [constructor; auto|].
    cbn [joined]. rewrite <- E. reflexivity.
Qed.

(** C52: the texts that are read as a path are exactly those of the grammar. *)
Theorem C52_parse : forall s p, parse s = Parsed p <-> Spells p s.
Proof.
  intros s p. unfold parse. split.
  - destruct (split "." s) as [h t] eqn:SE. apply split_joined in SE. destruct SE as (-> & NH & NT).
    destruct (String.eqb h ""); [discriminate|].
    destruct (strip_prefix ":schema" h) as [x|] eqn:P1.
    + apply strip_spec in P1. subst h. destruct t; [|discriminate]. cbn [joined]. rewrite app_nil_s.
      destruct (String.eqb x "") eqn:X.
      * apply String.eqb_eq in X. subst x. intros E. injection E as <-. constructor.
      * destruct (parse_index x) as [i| |] eqn:PI; cbn [bind]; try discriminate. intros E. injection E as <-.
        constructor. apply parse_index_spec. exact PI.
    + destruct (strip_prefix "@" h) as [x|] eqn:P2.
      * apply strip_spec in P2. subst h. rewrite name_valid. destruct (is_name x) eqn:N; [|discriminate].
        destruct t; [|discriminate]. cbn [joined]. rewrite app_nil_s. intros E. injection E as <-. constructor. exact N.
      * destruct (parse_name_and_optional_index h) as [[n o]| |] eqn:Q; cbn [bind]; try discriminate.
        apply noi_spec in Q. destruct Q as (N & Q).
        destruct o as [i|]; destruct (parse_path_in_type t) as [q| |] eqn:T; cbn [bind]; try discriminate;
          intros E; injection E as <-; apply (type_spec t q NT) in T; apply (spells_in_segments q t NT) in T.
        -- destruct Q as (x & X & ->). rewrite <- app_assoc_s. constructor; auto.
        -- subst h. constructor; auto.
  - intros [|i x X|n o y N SI|n i x o y N X SI|n N].
    + reflexivity.
    + assert (NX : no_dot (":schema" ++ x)) by (apply no_dot_app; [reflexivity|exact (index_no_dot i x X)]).
      rewrite (split_plain _ NX). change (String.eqb (":schema" ++ x) "") with false.
      assert (P : strip_prefix ":schema" (":schema" ++ x) = Some x) by (apply strip_spec; reflexivity). rewrite P.
      assert (XE : String.eqb x "" = false) by (destruct X; reflexivity). rewrite XE.
      apply parse_index_spec in X. rewrite X. reflexivity.
    + destruct (split_in n o y (name_no_dot n N) SI) as (t & SE & NT & J). rewrite SE.
      pose proof (name_not_empty n "" N) as H. rewrite app_nil_s in H. rewrite H.
      pose proof (strip_name ":" "schema" n "" N ltac:(cbn; auto)) as H1. pose proof (strip_name "@" "" n "" N ltac:(cbn; auto)) as H2.
      rewrite app_nil_s in H1, H2. rewrite H1, H2.
      assert (Q : parse_name_and_optional_index n = Parsed (n, None)) by (apply noi_spec; auto). rewrite Q. cbn [bind].
      assert (T : parse_path_in_type t = Parsed o) by (apply (type_spec t o NT), (spells_in_segments o t NT); rewrite J; exact SI).
      rewrite T. reflexivity.
    + rewrite app_assoc_s. assert (NX : no_dot (n ++ x)) by (apply no_dot_app; [apply name_no_dot; exact N|exact (index_no_dot i x X)]).
      destruct (split_in (n ++ x) o y NX SI) as (t & SE & NT & J). rewrite SE.
      rewrite (name_not_empty n x N), (strip_name ":" "schema" n x N ltac:(cbn; auto)), (strip_name "@" "" n x N ltac:(cbn; auto)).
      assert (Q : parse_name_and_optional_index (n ++ x) = Parsed (n, Some i)) by (apply noi_spec; eauto). rewrite Q. cbn [bind].
      assert (T : parse_path_in_type t = Parsed o) by (apply (type_spec t o NT), (spells_in_segments o t NT); rewrite J; exact SI).
      rewrite T. reflexivity.
    + rewrite split_plain by (apply no_dot_app; [reflexivity|apply name_no_dot; exact N]).
      change ("@" ++ n) with (String "@" n). cbn [String.eqb].
      assert (P1 : strip_prefix ":schema" (String "@" n) = None) by reflexivity.
      assert (P2 : strip_prefix "@" (String "@" n) = Some n) by (apply strip_spec; reflexivity).
      rewrite P1, P2, name_valid, N. reflexivity.
Qed.

(** The text that is written of a path is one of its texts. *)
Lemma value_digits : forall d acc, value (N.pos acc) (NilEmpty.string_of_uint d) = N.pos (Pos.of_uint_acc d acc).
Proof.
  induction d; intros acc; cbn [NilEmpty.string_of_uint value Pos.of_uint_acc]; [reflexivity|..]; rewrite <- IHd; f_equal;
    match goal with |- context [(N_of_ascii ?c - 48)%N] =>
      let v := eval vm_compute in (N_of_ascii c - 48)%N in change (N_of_ascii c - 48)%N with v end; lia.
Qed.

Lemma value_uint : forall d, value 0 (NilEmpty.string_of_uint d) = N.of_uint d.
Proof.
  induction d; cbn [NilEmpty.string_of_uint value N.of_uint Pos.of_uint]; [reflexivity| |..];
    try (rewrite <- value_digits; reflexivity).
  exact IHd.
Qed.

Lemma digits_uint : forall d, all_chars is_digit_char (NilEmpty.string_of_uint d) = true.
Proof. induction d; cbn; auto. Qed.

Lemma write_index_spec : forall i, (i < 2 ^ 64)%N -> Index i (write_index i).
Proof.
  intros i L. unfold write_index. constructor.
  - assert (NZ : N.to_uint i <> Decimal.Nil).
    { destruct i as [|q]; [discriminate|]. cbn. apply DecimalPos.Unsigned.to_uint_nonnil. }
    destruct (N.to_uint i); [contradiction|..]; discriminate.
  - apply digits_uint.
  - rewrite value_uint. apply DecimalN.Unsigned.of_to.
  - exact L.
Qed.

Lemma display_spells : forall p, ok_path p -> Spells p (display p).
Proof.
  assert (F : forall q, ok_field q -> SpellsField q (display_field q)).
  { intros [a|n i] H; [constructor; exact H|]. destruct H as [N L]. constructor; [exact N|apply write_index_spec; exact L]. }
  assert (T : forall q, ok_in q -> SpellsIn q (display_in q)).
  { intros [q|] H; [|constructor]. cbn [display_in]. constructor. destruct q as [f [p|]|n i|n]; cbn -[N.pow] in H; cbn [display_type].
    - destruct H. constructor; auto.
    - constructor; auto.
    - destruct H. apply spells_directive; [auto|apply write_index_spec; auto].
    - apply spells_impl; auto. }
  intros [|i|n q|n i q|n] H; cbn -[N.pow] in H; cbn [display].
  - constructor.
  - exact (spells_schema_ext i (write_index i) (write_index_spec i H)).
  - destruct H. constructor; auto.
  - destruct H as (N & L & Q). constructor; auto using write_index_spec.
  - exact (spells_directive_def n H).
Qed.

Theorem C52_round_trip : forall p, ok_path p -> parse (display p) = Parsed p.
Proof. intros p H. apply C52_parse, display_spells, H. Qed.

(* Only these paths are read. *)
Theorem C52_ok : forall s p, parse s = Parsed p -> ok_path p.
Proof.
  intros s p H. apply C52_parse in H.
  assert (F : forall q y, SpellsField q y -> ok_field q).
  { intros q y [a N|n i x N X]; [exact N|]. split; [exact N|]. destruct X; assumption. }
  assert (T : forall q y, SpellsIn q y -> ok_in q).
  { intros q y [|r z [f N|f r' y' N SP|n i x N X|n N]]; cbn; eauto. split; [exact N|]. destruct X; assumption. }
  destruct H as [|i x X|n o y N SI|n i x o y N X SI|n N]; cbn; eauto; try (destruct X; assumption).
  split; [exact N|]. split; [destruct X; assumption|eauto].
Qed.

Corollary C52_distinct : forall p q, ok_path p -> ok_path q -> display p = display q -> p = q.
Proof. intros p q P Q E. apply C52_round_trip in P, Q. rewrite E in P. congruence. Qed.

(** No text of ASCII characters makes the parser panic. *)
Lemma char_position_le : forall c s i, all_chars (fun x => negb (continuation x)) s = true -> char_position c s = Some i -> i < String.length s.
Proof.
  induction s as [|x s IH]; intros i H E; [discriminate|]. cbn [all_chars] in H. apply andb_true_iff in H. destruct H as [X H].
  cbn [char_position] in E. destruct (Ascii.eqb x c); [injection E as <-; cbn; lia|].
  destruct (char_position c s) as [j|] eqn:J; [|discriminate]. cbn in E. apply negb_true_iff in X. rewrite X in E. injection E as <-.
  specialize (IH j H eq_refl). cbn. lia.
Qed.

Lemma slice_ascii : forall i s, all_chars (fun x => negb (continuation x)) s = true -> i < String.length s -> slice i s <> Panicked.
Proof.
  induction i as [|i IH]; intros [|x s] H L; cbn in L; try lia; cbn [all_chars] in H; apply andb_true_iff in H; destruct H as [X H]; cbn [slice].
  - apply negb_true_iff in X. rewrite X. discriminate.
  - specialize (IH s H ltac:(lia)). destruct (slice i s); cbn [bind]; [discriminate|discriminate|contradiction].
Qed.

Lemma noi_ascii : forall s, all_chars (fun x => negb (continuation x)) s = true -> parse_name_and_optional_index s <> Panicked.
Proof.
  intros s H. unfold parse_name_and_optional_index. destruct (char_position "[" s) as [i|] eqn:E.
  - pose proof (slice_ascii i s H (char_position_le _ s i H E)) as P. destruct (slice i s) as [[p q]| |]; cbn [bind fst snd]; [|discriminate|contradiction].
    destruct (is_valid_graphql_name p); [|discriminate]. pose proof (parse_index_panic q) as Q.
    destruct (parse_index q); cbn [bind]; [discriminate|discriminate|contradiction].
  - destruct (is_valid_graphql_name s); discriminate.
Qed.

Theorem C52_no_panic : forall s, all_chars (fun c => Nat.ltb (nat_of_ascii c) 128) s = true -> parse s <> Panicked.
Proof.
  intros s H.
  assert (A : all_chars (fun x => negb (continuation x)) s = true).
  { eapply all_chars_impl; [|exact H]. intros c C. apply Nat.ltb_lt in C. apply negb_true_iff. unfold continuation, between.
    apply andb_false_iff. left. apply Nat.leb_gt. exact C. }
  clear H. unfold parse. destruct (split "." s) as [h t] eqn:SE. apply split_joined in SE. destruct SE as (-> & _ & _).
  rewrite all_chars_app in A. apply andb_true_iff in A. destruct A as [AH AT].
  assert (AS : forall x, In x t -> all_chars (fun x => negb (continuation x)) x = true).
  { induction t as [|y t IH]; [contradiction|]. cbn [joined] in AT. rewrite !all_chars_app, !andb_true_iff in AT.
    destruct AT as (_ & A1 & A2). intros x [<-|X]; auto. }
  assert (SP : forall c x r, all_chars (fun x => negb (continuation x)) x = true -> strip_prefix (String c "") x = Some r ->
                 all_chars (fun x => negb (continuation x)) r = true).
  { intros c x r X E. apply strip_spec in E. subst x. rewrite all_chars_app in X. apply andb_true_iff in X. tauto. }
  assert (PF : forall q, (forall x, In x q -> all_chars (fun x => negb (continuation x)) x = true) -> parse_path_in_field q <> Panicked).
  { intros q Q. unfold parse_path_in_field. destruct q as [|x [|y q]]; try discriminate. destruct (String.eqb x ""); [discriminate|].
    destruct (strip_prefix "@" x) as [r|] eqn:E; [|destruct (is_valid_graphql_name x); discriminate].
    pose proof (noi_ascii r (SP _ _ _ (Q x (or_introl eq_refl)) E)) as P.
    destruct (parse_name_and_optional_index r) as [[n [i|]]| |]; cbn [bind]; try discriminate; contradiction. }
  assert (PT : forall q, (forall x, In x q -> all_chars (fun x => negb (continuation x)) x = true) -> parse_path_in_type q <> Panicked).
  { intros q Q. unfold parse_path_in_type. destruct q as [|x q]; try discriminate. destruct (String.eqb x ""); [discriminate|].
    destruct (strip_prefix "@" x) as [r|] eqn:E.
    - pose proof (noi_ascii r (SP _ _ _ (Q x (or_introl eq_refl)) E)) as P.
      destruct (parse_name_and_optional_index r) as [[n [i|]]| |]; cbn [bind]; try (destruct q; discriminate); try discriminate; contradiction.
    - destruct (strip_prefix "&" x) as [r|]; [destruct (is_valid_graphql_name r), q; discriminate|].
      destruct (is_valid_graphql_name x); [|discriminate]. pose proof (PF q (fun y Y => Q y (or_intror Y))) as P.
      destruct (parse_path_in_field q); cbn [bind]; try discriminate; contradiction. }
  destruct (String.eqb h ""); [discriminate|]. destruct (strip_prefix ":schema" h) as [x|].
  - destruct t; [|discriminate]. destruct (String.eqb x ""); [discriminate|]. pose proof (parse_index_panic x) as P.
    destruct (parse_index x); cbn [bind]; try discriminate; contradiction.
  - destruct (strip_prefix "@" h) as [x|]; [destruct (is_valid_graphql_name x), t; discriminate|].
    pose proof (noi_ascii h AH) as P. pose proof (PT t AS) as P'.
    destruct (parse_name_and_optional_index h) as [[n [i|]]| |]; cbn [bind]; try discriminate; try contradiction;
      destruct (parse_path_in_type t); cbn [bind]; try discriminate; contradiction.
Qed.

(* "é[0]": the position of the bracket among the characters is taken for its
   position in the text, which is in the middle of the first character. *)
Theorem C52_panic_refuted : exists c d, parse (String c (String d "[0]")) = Panicked /\ nat_of_ascii c = 195 /\ nat_of_ascii d = 169.
Proof. exists (ascii_of_nat 195), (ascii_of_nat 169). repeat split. Qed.

(** The paths of changes: the patch splits their texts into the segments by
    which the model orders and searches them. *)

Lemma owner_name : forall d n f t p, names_ok d -> Member d n f t p -> is_name n = true.
Proof.
  intros d n f t p OK M. apply (names_in d n OK).
  destruct M as [im fs x T|im fs x T|fs x T|vs T|vs T]; eapply type_names; try exact T; left; reflexivity.
Qed.

Lemma arg_owner : forall d n f x, names_ok d -> HasArg d n f x -> is_name n = true /\ is_name f = true.
Proof.
  intros d n f x OK H.
  assert (M : exists t p, Member d n f t p).
  { destruct H as [im fs z y T Z E K|im fs z y T Z E K]; eexists; eexists;
      [eapply member_object|eapply member_interface]; eauto. }
  destruct M as (t & p & M). split; [eapply owner_name; eauto|eapply member_name; eauto].
Qed.

Lemma field_member : forall d n f t, HasField d n f t -> exists q p, Member d n f q p.
Proof.
  intros d n f t [im fs x T X E|im fs x T X E|fs x T X E]; eexists; eexists;
    [eapply member_object|eapply member_interface|eapply member_input]; eauto.
Qed.

Lemma impl_owner : forall d n i, names_ok d -> Implements d n i -> is_name n = true.
Proof.
  intros d n i OK H. apply (names_in d n OK). destruct H as [im fs T K|im fs T K]; eapply type_names; try exact T; left; reflexivity.
Qed.

Lemma changed_path_ok : forall a b c, names_ok a -> names_ok b -> Changed a b c -> ok_path (gpath_of (c_path c)).
Proof.
  intros a b c NA NB C.
  destruct C as [x y X Y NE|x y X Y NE|x y X Y NE|y NX Y|x X NY|i y Y L|L|n k x IX NX KX ND|n k DA ND|n i CA CB N I|n i CA CB I N|n f k t p DA DB N M|n f k DA DB M N|n f k t u DA DB T U NE|n f y M N Y|n f x M X N|n f x y X Y E NE|n f x y v X Y E DX DY|n f x y v X Y E DX DY|n f x y u v X Y E DX DY NE];
    cbn; try exact (or_introl eq_refl); try reflexivity; try (split; [|exact (fun H => H)]); auto.
  all: try (exact (conj (defines_name _ _ _ NA DA) (member_name _ _ _ _ _ NB M))).
  all: try (pose proof (arg_owner _ _ _ _ NB Y) as [? ?]; pose proof (arg_name _ _ _ _ NB Y); tauto).
  all: try (pose proof (arg_owner _ _ _ _ NA X) as [? ?]; pose proof (arg_name _ _ _ _ NA X); tauto).
  - split; [|exact Logic.I]. apply (names_in b n NB). apply in_flat_map. exists x. split; [exact IX|].
    destruct x as [r|r|m|q|q]; cbn in NX; try contradiction; destruct NX as [<-|[]]; left; reflexivity.
  - split; [exact (defines_name _ _ _ NA DA)|exact Logic.I].
  - split; [exact (impl_owner _ _ _ NB I)|exact (impl_name _ _ _ NB I)].
  - split; [exact (impl_owner _ _ _ NA I)|exact (impl_name _ _ _ NA I)].
  - destruct M as (t & p & M). exact (conj (defines_name _ _ _ NA DA) (member_name _ _ _ _ _ NA M)).
  - destruct (field_member _ _ _ _ T) as (q & p & M). exact (conj (defines_name _ _ _ NA DA) (member_name _ _ _ _ _ NA M)).
Qed.

Lemma split_path_segments : forall p, ok_path (gpath_of p) -> split_path (display (gpath_of p)) = segments p.
Proof.
  intros p H. unfold split_path. destruct p as [| |n|n f|n i|n f x]; cbn in H; cbn [gpath_of display display_in display_type display_field segments].
  - reflexivity.
  - reflexivity.
  - destruct H as [N _]. rewrite app_nil_s, (split_plain n (name_no_dot n N)). reflexivity.
  - destruct H as [N F]. rewrite (split_dot n f (name_no_dot n N)), (split_plain f (name_no_dot f F)). reflexivity.
  - destruct H as [N F]. rewrite (split_dot n _ (name_no_dot n N)), split_plain; [reflexivity|].
    apply no_dot_app; [reflexivity|apply name_no_dot; exact F].
  - destruct H as [N [F X]]. rewrite (split_dot n _ (name_no_dot n N)), (split_dot f x (name_no_dot f F)), (split_plain x (name_no_dot x X)).
    reflexivity.
Qed.

(* The order of texts is that of their segments. *)
Definition after_dot (c : ascii) : bool := Nat.ltb 46 (nat_of_ascii c).

Definition tail_ok (r : string) : Prop := match r with EmptyString => True | String c _ => c = "."%char end.

Lemma compare_parts : forall a a' r r', all_chars after_dot a = true -> all_chars after_dot a' = true -> tail_ok r -> tail_ok r' ->
  String.compare (a ++ r) (a' ++ r') = match String.compare a a' with Eq => String.compare r r' | c => c end.
Proof.
  assert (LT : forall c, after_dot c = true -> Ascii.compare "." c = Lt).
  { intros c H. apply Nat.ltb_lt in H. unfold Ascii.compare. apply N.compare_lt_iff. unfold nat_of_ascii in H.
    change (N_of_ascii ".") with 46%N. lia. }
  assert (GT : forall c, after_dot c = true -> Ascii.compare c "." = Gt).
  { intros c H. apply Nat.ltb_lt in H. unfold Ascii.compare. apply N.compare_gt_iff. unfold nat_of_ascii in H.
    change (N_of_ascii ".") with 46%N. lia. }
  induction a as [|c a IH]; intros [|d a'] r r' A A' R R'; cbn [all_chars] in A, A';
    try (apply andb_true_iff in A; destruct A as [C A]); try (apply andb_true_iff in A'; destruct A' as [D A']).
  - reflexivity.
  - destruct r as [|x r]; [reflexivity|]. cbn in R. subst x. cbn [append String.compare]. rewrite (LT d D). reflexivity.
  - destruct r' as [|x r']; [reflexivity|]. cbn in R'. subst x. cbn [append String.compare]. rewrite (GT c C). reflexivity.
  - cbn [append String.compare]. destruct (Ascii.compare c d); auto.
Qed.

Lemma name_after : forall n, is_name n = true -> all_chars after_dot n = true.
Proof.
  intros n N. assert (W : forall c, word_char c = true -> after_dot c = true) by (intros [[] [] [] [] [] [] [] []]; cbv; congruence).
  destruct n as [|c n]; [discriminate|]. cbn [is_name] in N. apply andb_true_iff in N. destruct N as [F R].
  cbn [all_chars]. rewrite (W c) by (apply first_word; exact F). cbn. eapply all_chars_impl; [|exact R]. exact W.
Qed.

(* The second segment is a name, maybe with an ampersand, with what follows. *)
Definition tail_of (p : string * string * string) : string :=
  let '(_, y, z) := p in
  match y with EmptyString => "" | _ => "." ++ y ++ match z with EmptyString => "" | _ => "." ++ z end end.

Definition seg_name (y : string) : Prop := y = "" \/ is_name y = true \/ exists n, is_name n = true /\ y = String "&" n.

Lemma compare_seg : forall y y' r r', y <> "" -> y' <> "" -> seg_name y -> seg_name y' -> tail_ok r -> tail_ok r' ->
  String.compare (y ++ r) (y' ++ r') = match String.compare y y' with Eq => String.compare r r' | c => c end.
Proof.
  assert (LT : forall c, after_dot c = true -> Ascii.compare "&" c = Lt).
  { intros c H. apply Nat.ltb_lt in H. unfold Ascii.compare. apply N.compare_lt_iff. unfold nat_of_ascii in H.
    change (N_of_ascii "&") with 38%N. lia. }
  assert (GT : forall c, after_dot c = true -> Ascii.compare c "&" = Gt).
  { intros c H. apply Nat.ltb_lt in H. unfold Ascii.compare. apply N.compare_gt_iff. unfold nat_of_ascii in H.
    change (N_of_ascii "&") with 38%N. lia. }
  intros y y' r r' N N' [->|[Y|(n & Y & ->)]] [->|[Y'|(n' & Y' & ->)]] R R'; try contradiction.
  - apply compare_parts; auto using name_after.
  - apply name_after in Y. destruct y as [|c y]; [contradiction|]. cbn [all_chars] in Y. apply andb_true_iff in Y. destruct Y as [C _].
    cbn [append String.compare]. rewrite (GT c C). reflexivity.
  - apply name_after in Y'. destruct y' as [|c y']; [contradiction|]. cbn [all_chars] in Y'. apply andb_true_iff in Y'. destruct Y' as [C _].
    cbn [append String.compare]. rewrite (LT c C). reflexivity.
  - cbn [append String.compare]. change (Ascii.compare "&" "&") with Eq. apply compare_parts; auto using name_after.
Qed.

Lemma display_segments : forall p, ok_path (gpath_of p) ->
  display (gpath_of p) = fst (fst (segments p)) ++ tail_of (segments p) /\
  all_chars after_dot (fst (fst (segments p))) = true /\ seg_name (snd (fst (segments p))) /\ (snd (fst (segments p)) = "" -> snd (segments p) = "").
Proof.
  unfold seg_name.
  intros p H. destruct p as [| |n|n f|n i|n f x]; cbn in H; cbn [gpath_of display display_in display_type display_field segments fst snd tail_of].
  - cbn. auto.
  - cbn. auto.
  - destruct H as [N _]. auto using name_after.
  - destruct H as [N F]. split; [|auto using name_after]. destruct f as [|c f]; [discriminate|]. rewrite app_nil_s. reflexivity.
  - destruct H as [N F]. split; [cbn; rewrite app_nil_s; reflexivity|]. split; [auto using name_after|]. split; [right; right; eauto|discriminate].
  - destruct H as [N [F X]]. destruct f as [|c f]; [discriminate|]. destruct x as [|d x]; [discriminate|]. split; [reflexivity|].
    split; [auto using name_after|]. split; [auto|discriminate].
Qed.

Lemma compare_empty : forall s, String.compare "" s = match s with EmptyString => Eq | _ => Lt end.
Proof. intros [|c s]; reflexivity. Qed.

Theorem C52_order : forall p q, ok_path (gpath_of p) -> ok_path (gpath_of q) ->
  String.compare (display (gpath_of p)) (display (gpath_of q)) = cmp3 (segments p) (segments q).
Proof.
  intros p q P Q. destruct (display_segments p P) as (-> & P1 & P2 & P3). destruct (display_segments q Q) as (-> & Q1 & Q2 & Q3).
  destruct (segments p) as [[x y] z], (segments q) as [[x' y'] z']. unfold cmp3. cbn [fst snd tail_of] in *.
  assert (TO : forall w v, tail_ok (match w with EmptyString => "" | _ => "." ++ w ++ v end)) by (intros [|? ?] ?; cbn; auto).
  rewrite (compare_parts x x' _ _ P1 Q1 (TO y _) (TO y' _)). destruct (String.compare x x'); auto.
  assert (TO' : forall w, tail_ok (match w with EmptyString => "" | _ => "." ++ w end)) by (intros [|? ?]; cbn; auto).
  destruct y as [|c y], y' as [|c' y'].
  - rewrite (P3 eq_refl), (Q3 eq_refl). reflexivity.
  - reflexivity.
  - reflexivity.
  - set (w := String c y) in *. set (w' := String c' y') in *.
    change (String.compare ("." ++ w ++ match z with EmptyString => "" | _ => "." ++ z end) ("." ++ w' ++ match z' with EmptyString => "" | _ => "." ++ z' end))
      with (String.compare (w ++ match z with EmptyString => "" | _ => "." ++ z end) (w' ++ match z' with EmptyString => "" | _ => "." ++ z' end)).
    rewrite (compare_seg w w' _ _ ltac:(discriminate) ltac:(discriminate) P2 Q2 (TO' z) (TO' z')).
    destruct (String.compare w w'); auto. destruct z, z'; reflexivity.
Qed.

(** The texts of the paths in a list of changes: they are read as these paths,
    the patch splits them into the segments, and they are in order. *)
Theorem C52_changes : forall a b l, doc_ok a -> doc_ok b -> names_ok a -> names_ok b -> diff a b = Some l ->
  Forall (fun c => parse (display (gpath_of (c_path c))) = Parsed (gpath_of (c_path c)) /\
                   split_path (display (gpath_of (c_path c))) = segments (c_path c)) l /\
  Sorted.StronglySorted (fun x y => String.compare (display (gpath_of (c_path x))) (display (gpath_of (c_path y))) <> Gt) l.
Proof.
  intros a b l A B NA NB D.
  assert (OK : forall c, In c l -> ok_path (gpath_of (c_path c))).
  { intros c C. apply (changed_path_ok a b); auto. destruct (C50_exact a b A B) as (l' & D' & H). rewrite D in D'. injection D' as <-.
    apply H. exact C. }
  split.
  - apply Forall_forall. intros c C. split; [apply C52_round_trip; auto|apply split_path_segments; auto].
  - pose proof (C50_order a b l D) as S0. clear D. induction S0 as [|c r S0 IH F]; constructor.
    + apply IH. intros x X. apply OK. right. exact X.
    + rewrite Forall_forall in *. intros x X. rewrite (C52_order _ _ (OK c (or_introl eq_refl)) (OK x (or_intror X))).
      destruct (F x X) as [E|[E _]]; rewrite E; [discriminate|]. rewrite cmp3_refl. discriminate.
Qed.

Example C52_example :
  parse "myObject._abc1.@requires[+007]" = Parsed (GType "myObject" (Some (TField "_abc1" (Some (FDirective "requires" 7))))) /\
  display (GTypeExt "myObject" 10 (Some (TImpl "Node"))) = "myObject[10].&Node" /\
  parse "a[18446744073709551615]" = Parsed (GTypeExt "a" 18446744073709551615 None) /\
  parse "a[18446744073709551616]" = Refused.
Proof. vm_compute. auto. Qed.
