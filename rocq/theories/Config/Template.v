(** Configuration strings with {{ env.NAME }} (C36).

    Modelled code: crates/serde-dynamic-string/src/lib.rs 43-100 with T = String (its only
    use), and crates/gateway-config/src/lib.rs 100-148. A text is the list of its
    characters (code points), offsets count characters; matches never cut one. The
    environment is a function: None when the variable is missing or isn't Unicode.
    The class \s is Unicode's White_Space, [[:alnum:]] is ASCII. *)

From Coq Require Import String Ascii List NArith Bool Arith Lia.
Import ListNotations.
Local Open Scope N_scope.

Definition text := list N.

Fixpoint chars (s : string) : text := match s with EmptyString => [] | String c r => N_of_ascii c :: chars r end.

(** ** Model *)

Definition between (lo hi c : N) : bool := (lo <=? c) && (c <=? hi).

Definition is_space (c : N) : bool :=
  between 9 13 c || (c =? 32) || (c =? 133) || (c =? 160) || (c =? 5760) || between 8192 8202 c || (c =? 8232) || (c =? 8233)
  || (c =? 8239) || (c =? 8287) || (c =? 12288).

Definition is_key (c : N) : bool := between 48 57 c || between 65 90 c || between 97 122 c || (c =? 95) || (c =? 46).

Fixpoint span (p : N -> bool) (s : text) : text * text :=
  match s with
  | [] => ([], [])
  | c :: r => if p c then let (a, b) := span p r in (c :: a, b) else ([], s)
  end.

(** One attempt of the regular expression \{\{\s*([[[:alnum:]]_.]+)\s*\}\} at the start of a
    text: the key and what follows. The classes are disjoint, so that greedy
    repetitions never have to give anything back. *)
Definition match_at (s : text) : option (text * text) :=
  match s with
  | 123 :: 123 :: r =>
      let r := snd (span is_space r) in
      let (key, r) := span is_key r in
      match key with
      | [] => None
      | _ => match snd (span is_space r) with 125 :: 125 :: r => Some (key, r) | _ => None end
      end
  | _ => None
  end.

Record capture := mkcapture { c_start : nat; c_end : nat; c_key : text }.

(** Regex::captures_iter: leftmost matches that don't overlap. [pos] is the offset of [s]. *)
Fixpoint captures_iter (fuel pos : nat) (s : text) : list capture :=
  match fuel with
  | O => []
  | S fuel =>
      match s with
      | [] => []
      | _ :: t =>
          match match_at s with
          | Some (key, r) => let e := (pos + (List.length s - List.length r))%nat in mkcapture pos e key :: captures_iter fuel e r
          | None => captures_iter fuel (S pos) t
          end
      end
  end.

(** str::split('.'). *)
Fixpoint split_dot (s : text) : list text :=
  match s with
  | [] => [[]]
  | c :: r => if c =? 46 then [] :: split_dot r else match split_dot r with p :: q => (c :: p) :: q | [] => [[c]] end
  end.

Definition env_word : text := [101; 110; 118].

Definition text_eqb (a b : text) : bool := if list_eq_dec N.eq_dec a b then true else false.

Inductive error := Missing (variable : text) | Unsupported (key : text).

Record acc := mkacc { result : text; errors : list error; last_end : nat }.

Definition slice (s : text) (a b : nat) : text := firstn (b - a) (skipn a s).

(** lib.rs 55-86, the body of the fold. *)
Definition substitute (env : text -> option text) (s : text) (a : acc) (c : capture) : acc :=
  match split_dot (c_key c) with
  | [first; variable_name] =>
      if text_eqb first env_word then
        let r := if Nat.ltb (last_end a) (c_start c) then result a ++ slice s (last_end a) (c_start c) else result a in
        match env variable_name with
        | Some v => mkacc (r ++ v) (errors a) (c_end c)
        | None => mkacc r (errors a ++ [Missing variable_name]) (c_end c)
        end
      else mkacc (result a) (errors a ++ [Unsupported (c_key c)]) (c_end c)
  | _ => mkacc (result a) (errors a ++ [Unsupported (c_key c)]) (c_end c)
  end.

(** lib.rs 43-100. The error returned is the last one. *)
Definition from_str (env : text -> option text) (s : text) : text + error :=
  let a := fold_left (substitute env s) (captures_iter (List.length s) 0 s) (mkacc [] [] 0) in
  let r := if (negb (Nat.eqb (last_end a) (List.length s)) || match s with [] => true | _ => false end)%bool
           then result a ++ skipn (last_end a) s else result a in
  match rev (errors a) with
  | e :: _ => inr e
  | [] => inl r
  end.

(** ** Specification *)

(** The characters of a key: digits, letters of ASCII, the underscore, the dot. *)
Definition key_char (c : N) : Prop := 48 <= c <= 57 \/ 65 <= c <= 90 \/ 97 <= c <= 122 \/ c = 95 \/ c = 46.

(** White space by Unicode: the control characters of ASCII for it, the space, and
    the others with the property White_Space. *)
Definition space_char (c : N) : Prop :=
  9 <= c <= 13 \/ 8192 <= c <= 8202 \/ In c [32; 133; 160; 5760; 8232; 8233; 8239; 8287; 12288].

(** A reference: braces around a key, with white space. *)
Inductive placeholder : text -> text -> Prop :=
| ph : forall w1 key w2, Forall space_char w1 -> key <> [] -> Forall key_char key ->
    Forall space_char w2 -> placeholder ([123; 123] ++ w1 ++ key ++ w2 ++ [125; 125]) key.

Inductive part := Plain (c : N) | Ref (key : text).

(** How a text is read, from the left. *)
Inductive reads : text -> list part -> Prop :=
| reads_end : reads [] []
| reads_ref : forall p key r parts, placeholder p key -> reads r parts -> reads (p ++ r) (Ref key :: parts)
| reads_plain : forall c r parts, (forall p key q, placeholder p key -> c :: r <> p ++ q) -> reads r parts ->
    reads (c :: r) (Plain c :: parts).

(** What a part stands for: itself, or the value of the variable it names. *)
Definition no_dot (name : text) : Prop := ~ In 46 name.

Inductive stands (env : text -> option text) : part -> text -> Prop :=
| s_plain : forall c, stands env (Plain c) [c]
| s_ref : forall name v, no_dot name -> env name = Some v -> stands env (Ref (env_word ++ 46 :: name)) v.

Inductive expands (env : text -> option text) (s : text) (out : text) : Prop :=
| ex : forall parts vs, reads s parts -> Forall2 (stands env) parts vs -> out = concat vs -> expands env s out.

(** ** Reading *)

Lemma span_spec : forall p s a b, span p s = (a, b) ->
  s = a ++ b /\ Forall (fun c => p c = true) a /\ match b with [] => True | c :: _ => p c = false end.
Proof.
  intros p. induction s as [|c s IH]; intros a b E; cbn in E; [injection E as <- <-; auto|].
  destruct (p c) eqn:P.
  - destruct (span p s) as [a' b'] eqn:E'. injection E as <- <-. destruct (IH _ _ eq_refl) as (-> & F & H). auto.
  - injection E as <- <-. auto.
Qed.

Lemma span_app : forall p a b, Forall (fun c => p c = true) a -> match b with [] => True | c :: _ => p c = false end ->
  span p (a ++ b) = (a, b).
Proof.
  intros p a b F H. induction F as [|c a P F IH]; cbn.
  - destruct b as [|c b]; [reflexivity|]. cbn. rewrite H. reflexivity.
  - rewrite P, IH. reflexivity.
Qed.

Lemma is_key_spec : forall c, is_key c = true <-> key_char c.
Proof. intro c. unfold is_key, key_char, between. rewrite !orb_true_iff, !andb_true_iff, !N.leb_le, !N.eqb_eq. tauto. Qed.
Lemma is_space_spec : forall c, is_space c = true <-> space_char c.
Proof.
  intro c. unfold is_space, space_char, between. rewrite !orb_true_iff, !andb_true_iff, !N.leb_le, !N.eqb_eq. cbn [In].
  intuition auto.
Qed.
Lemma keys_spec : forall l, Forall (fun c => is_key c = true) l <-> Forall key_char l.
Proof. intro l. split; apply Forall_impl; intro c; apply is_key_spec. Qed.
Lemma spaces_spec : forall l, Forall (fun c => is_space c = true) l <-> Forall space_char l.
Proof. intro l. split; apply Forall_impl; intro c; apply is_space_spec. Qed.

Lemma key_not_space : forall c, is_key c = true -> is_space c = false.
Proof.
  intros c H. unfold is_key, is_space, between in *. rewrite !orb_true_iff, !andb_true_iff, !N.leb_le, !N.eqb_eq in H.
  rewrite !orb_false_iff, !andb_false_iff, !N.leb_gt, !N.eqb_neq. lia.
Qed.

Lemma brace_not : is_space 125 = false /\ is_key 125 = false.
Proof. split; reflexivity. Qed.

Lemma space_not_key : forall c, is_space c = true -> is_key c = false.
Proof. intros c H. destruct (is_key c) eqn:K; [|reflexivity]. apply key_not_space in K. congruence. Qed.

Lemma match_at_complete : forall p key r, placeholder p key -> match_at (p ++ r) = Some (key, r).
Proof.
  intros p key r [w1 k w2 F1 N K F2]. apply spaces_spec in F1, F2. apply keys_spec in K. unfold match_at. cbn [app].
  assert (B : span is_space ((w1 ++ k ++ w2 ++ [125; 125]) ++ r) = (w1, k ++ w2 ++ [125; 125] ++ r)).
  { rewrite <- !app_assoc. apply span_app; [exact F1|]. destruct k as [|c k]; [contradiction|]. cbn.
    inversion K; subst. apply key_not_space. assumption. }
  rewrite B. cbn [snd].
  assert (C : span is_key (k ++ w2 ++ [125; 125] ++ r) = (k, w2 ++ [125; 125] ++ r)).
  { apply span_app; [exact K|]. destruct w2 as [|c w2]; cbn; [reflexivity|]. inversion F2; subst. apply space_not_key. assumption. }
  rewrite C. destruct k as [|c k]; [contradiction|].
  assert (D : span is_space (w2 ++ [125; 125] ++ r) = (w2, [125; 125] ++ r)) by (apply span_app; [exact F2|reflexivity]).
  rewrite D. reflexivity.
Qed.

Lemma match_at_sound : forall s key r, match_at s = Some (key, r) -> exists p, s = p ++ r /\ placeholder p key.
Proof.
  intros s key r H. unfold match_at in H.
  destruct s as [|a s]; [discriminate|]. destruct (N.eq_dec a 123) as [->|A].
  2: { exfalso. clear - H A. destruct a as [|a]; [discriminate|]. do 7 (destruct a as [a|a|]; try discriminate). contradiction. }
  destruct s as [|b s]; [discriminate|]. destruct (N.eq_dec b 123) as [->|B].
  2: { exfalso. clear - H B. destruct b as [|b]; [discriminate|]. do 7 (destruct b as [b|b|]; try discriminate). contradiction. }
  destruct (span is_space s) as [w1 s1] eqn:S1. cbn [snd] in H. destruct (span is_key s1) as [k s2] eqn:S2.
  destruct (span_spec _ _ _ _ S1) as (-> & F1 & _). destruct (span_spec _ _ _ _ S2) as (-> & F2 & _).
  destruct k as [|c k]; [discriminate|]. destruct (span is_space s2) as [w2 s3] eqn:S3. cbn [snd] in H.
  destruct (span_spec _ _ _ _ S3) as (-> & F3 & _).
  destruct s3 as [|x s3]; [discriminate|]. destruct (N.eq_dec x 125) as [->|X].
  2: { exfalso. clear - H X. destruct x as [|x]; [discriminate|]. do 7 (destruct x as [x|x|]; try discriminate). contradiction. }
  destruct s3 as [|y s3]; [discriminate|]. destruct (N.eq_dec y 125) as [->|Y].
  2: { exfalso. clear - H Y. destruct y as [|y]; [discriminate|]. do 7 (destruct y as [y|y|]; try discriminate). contradiction. }
  injection H as <- <-. exists ([123; 123] ++ w1 ++ (c :: k) ++ w2 ++ [125; 125]). split.
  - cbn. rewrite <- !app_assoc. cbn. rewrite <- !app_assoc. reflexivity.
  - constructor; [apply spaces_spec; exact F1 | discriminate | apply keys_spec; exact F2 | apply spaces_spec; exact F3].
Qed.

Lemma match_at_none : forall s, match_at s = None <-> forall p key q, placeholder p key -> s <> p ++ q.
Proof.
  intros s. split.
  - intros H p key q P ->. rewrite (match_at_complete p key q P) in H. discriminate.
  - intros H. destruct (match_at s) as [[key r]|] eqn:M; [|reflexivity]. apply match_at_sound in M. destruct M as (p & -> & P).
    exfalso. eapply H; [exact P|reflexivity].
Qed.

Lemma placeholder_long : forall p key, placeholder p key -> (5 <= List.length p)%nat.
Proof. intros p key [w1 k w2 _ N _ _]. rewrite !app_length. destruct k; [contradiction|]. cbn. lia. Qed.

(** A text is read in exactly one way. *)
Lemma reads_total : forall n s, (List.length s <= n)%nat -> exists parts, reads s parts.
Proof.
  induction n as [|n IH]; intros s L.
  - destruct s; [|cbn in L; lia]. exists []. constructor.
  - destruct s as [|c s]; [exists []; constructor|]. destruct (match_at (c :: s)) as [[key r]|] eqn:M.
    + apply match_at_sound in M. destruct M as (p & E & P). destruct (IH r) as (parts & R).
      { apply placeholder_long in P. apply (f_equal (@List.length N)) in E. rewrite app_length in E. cbn in *. lia. }
      exists (Ref key :: parts). rewrite E. constructor; assumption.
    + destruct (IH s) as (parts & R); [cbn in L; lia|]. exists (Plain c :: parts). constructor; [|exact R]. apply match_at_none. exact M.
Qed.

Lemma reads_unique : forall s parts, reads s parts -> forall parts', reads s parts' -> parts = parts'.
Proof.
  intros s parts R. induction R as [|p key r parts P R IH|c r parts N R IH]; intros parts' R'.
  - inversion R' as [|p key r q P R Q|]; subst; [reflexivity|]. apply app_eq_nil in Q. destruct Q as [-> _].
    apply placeholder_long in P. cbn in P. lia.
  - assert (M := match_at_complete p key r P). inversion R' as [Q|p' key' r' q P' R'' Q|c r' q N R'' Q]; subst.
    + symmetry in Q. apply app_eq_nil in Q. destruct Q as [-> _]. apply placeholder_long in P. cbn in P. lia.
    + rewrite <- Q in M. rewrite (match_at_complete p' key' r' P') in M. injection M as -> ->. f_equal. apply IH. exact R''.
    + exfalso. eapply N; [exact P|exact Q].
  - inversion R' as [|p' key' r' q P' R'' Q|c' r' q N' R'']; subst.
    + exfalso. eapply N; [exact P'|]. symmetry. exact Q.
    + f_equal. apply IH. assumption.
Qed.

(** ** Keys *)

Lemma split_dot_no_dot : forall a, no_dot a -> split_dot a = [a].
Proof.
  unfold no_dot. induction a as [|c a IH]; intros H; [reflexivity|]. cbn. cbn in H. destruct (N.eqb_spec c 46); [tauto|].
  rewrite IH by tauto. reflexivity.
Qed.

Lemma split_dot_dot : forall a r, no_dot a -> split_dot (a ++ 46 :: r) = a :: split_dot r.
Proof.
  unfold no_dot. induction a as [|c a IH]; intros r H; [reflexivity|]. cbn. cbn in H. destruct (N.eqb_spec c 46); [tauto|].
  rewrite IH by tauto. reflexivity.
Qed.

Lemma cut_dot : forall s, no_dot s \/ exists a r, s = a ++ 46 :: r /\ no_dot a.
Proof.
  unfold no_dot. induction s as [|c s IH]; [left; auto|]. destruct (N.eq_dec c 46) as [->|N].
  - right. exists [], s. split; [reflexivity|intros []].
  - destruct IH as [H|(a & r & -> & H)].
    + left. intros [E|I]; auto.
    + right. exists (c :: a), r. split; [reflexivity|]. intros [E|I]; auto.
Qed.

Lemma split_dot_nonempty : forall s, split_dot s <> [].
Proof. destruct s as [|c s]; cbn; [discriminate|]. destruct (c =? 46); [discriminate|]. destruct (split_dot s); discriminate. Qed.

Lemma split_two : forall key first name, split_dot key = [first; name] <-> key = first ++ 46 :: name /\ no_dot first /\ no_dot name.
Proof.
  intros key first name. split.
  - intros H. destruct (cut_dot key) as [N|(a & r & -> & N)].
    + rewrite split_dot_no_dot in H by exact N. discriminate.
    + rewrite split_dot_dot in H by exact N. injection H as -> H. destruct (cut_dot r) as [N'|(b & q & -> & N')].
      * rewrite split_dot_no_dot in H by exact N'. injection H as ->. auto.
      * rewrite split_dot_dot in H by exact N'. injection H as _ H. exfalso. eapply split_dot_nonempty; exact H.
  - intros (-> & F & N). rewrite split_dot_dot by exact F. rewrite split_dot_no_dot by exact N. reflexivity.
Qed.

(** The reference is understood and its variable is there. *)
Definition fulfilled (env : text -> option text) (key : text) : option text :=
  match split_dot key with
  | [first; name] => if text_eqb first env_word then env name else None
  | _ => None
  end.

Lemma text_eqb_eq : forall a b, text_eqb a b = true <-> a = b.
Proof. intros a b. unfold text_eqb. destruct (list_eq_dec N.eq_dec a b); split; congruence. Qed.

Lemma fulfilled_stands : forall env key v, fulfilled env key = Some v <-> stands env (Ref key) v.
Proof.
  intros env key v. unfold fulfilled. split.
  - intros H. destruct (split_dot key) as [|a [|b [|c l]]] eqn:S; try discriminate.
    destruct (text_eqb a env_word) eqn:E; [|discriminate]. apply text_eqb_eq in E. subst.
    apply split_two in S. destruct S as (-> & _ & N). constructor; assumption.
  - intros H. inversion H as [|name v' N E K]; subst.
    assert (S : split_dot (env_word ++ 46 :: name) = [env_word; name]).
    { apply split_two. split; [reflexivity|]. split; [|exact N]. unfold no_dot. cbn. intros [H1|[H1|[H1|[]]]]; discriminate. }
    change (fulfilled env (env_word ++ 46 :: name) = Some v). unfold fulfilled.
    rewrite S. assert (T : text_eqb env_word env_word = true) by (apply text_eqb_eq; reflexivity). rewrite T. exact E.
Qed.

(** The error for a reference that is not fulfilled. *)
Definition blame (env : text -> option text) (key : text) (e : error) : Prop :=
  match e with
  | Missing name => key = env_word ++ 46 :: name /\ no_dot name /\ env name = None
  | Unsupported k => k = key /\ forall name, no_dot name -> key <> env_word ++ 46 :: name
  end.

Lemma substitute_spec : forall env s a c,
  match fulfilled env (c_key c) with
  | Some v => substitute env s a c =
      mkacc ((if Nat.ltb (last_end a) (c_start c) then result a ++ slice s (last_end a) (c_start c) else result a) ++ v) (errors a) (c_end c)
  | None => exists r e, substitute env s a c = mkacc r (errors a ++ [e]) (c_end c) /\ blame env (c_key c) e
  end.
Proof.
  intros env s a c. unfold substitute, fulfilled. destruct (split_dot (c_key c)) as [|x [|y [|z l]]] eqn:S.
  - exfalso. eapply split_dot_nonempty; exact S.
  - eexists. eexists. split; [reflexivity|]. split; [reflexivity|]. intros name N E. rewrite E in S.
    rewrite split_dot_dot in S by (cbv; intuition discriminate). injection S as _ S. eapply split_dot_nonempty; exact S.
  - destruct (text_eqb x env_word) eqn:E.
    + apply text_eqb_eq in E. subst. apply split_two in S. destruct S as (K & _ & N). destruct (env y) eqn:V; [reflexivity|].
      eexists. eexists. split; [reflexivity|]. cbn. auto.
    + eexists. eexists. split; [reflexivity|]. split; [reflexivity|]. intros name N K. apply split_two in S. destruct S as (S & D & _).
      assert (x = env_word).
      { assert (A : split_dot (x ++ 46 :: y) = x :: split_dot y) by (apply split_dot_dot; exact D).
        assert (B : split_dot (env_word ++ 46 :: name) = env_word :: split_dot name) by (apply split_dot_dot; cbv; intuition discriminate).
        rewrite <- K, S, A in B. injection B as -> _. reflexivity. }
      subst. assert (T : text_eqb env_word env_word = true) by (apply text_eqb_eq; reflexivity). congruence.
  - eexists. eexists. split; [reflexivity|]. split; [reflexivity|]. intros name N K. rewrite K in S.
    rewrite split_dot_dot in S by (cbv; intuition discriminate). rewrite split_dot_no_dot in S by exact N. discriminate.
Qed.

(** ** The fold *)

Lemma skipn_app_len : forall (a b : text), skipn (List.length a) (a ++ b) = b.
Proof. intros. rewrite skipn_app, skipn_all, Nat.sub_diag. reflexivity. Qed.

(** [done] is the part of the text already read, [lit] its end that was not copied yet. *)
Lemma fold_spec : forall env s parts, reads s parts -> forall fuel done lit a,
  (List.length s <= fuel)%nat -> last_end a = List.length done ->
  let whole := done ++ lit ++ s in
  let a' := fold_left (substitute env whole) (captures_iter fuel (List.length (done ++ lit)) s) a in
  (last_end a' <= List.length whole)%nat /\
  ((exists vs, Forall2 (stands env) parts vs /\ errors a' = errors a /\
      result a' ++ skipn (last_end a') whole = result a ++ lit ++ concat vs) \/
   (exists es key e, errors a' = errors a ++ es ++ [e] /\ In (Ref key) parts /\ blame env key e /\
      fulfilled env key = None)).
Proof.
  intros env s parts R. induction R as [|p key r parts P R IH|c r parts N R IH]; intros fuel done lit a L E whole a'.
  - assert (A : a' = a) by (unfold a'; destruct fuel; reflexivity). rewrite A. split.
    + rewrite E. unfold whole. rewrite !app_length. lia.
    + left. exists []. split; [constructor|]. split; [reflexivity|]. rewrite E. unfold whole. rewrite skipn_app_len. cbn. reflexivity.
  - assert (PL := placeholder_long p key P). destruct fuel as [|fuel]; [rewrite app_length in L; lia|].
    destruct (p ++ r) as [|c0 t] eqn:PR. { apply app_eq_nil in PR. destruct PR as [-> _]. cbn in PL. lia. }
    assert (M : match_at (c0 :: t) = Some (key, r)) by (rewrite <- PR; apply match_at_complete; exact P).
    unfold a'. cbn [captures_iter]. rewrite M. cbv zeta. cbn [fold_left].
    set (e := (List.length (done ++ lit) + (List.length (c0 :: t) - List.length r))%nat).
    assert (EL : e = List.length (done ++ lit ++ p)).
    { unfold e. rewrite <- PR. rewrite !app_length. lia. }
    set (cap := mkcapture (List.length (done ++ lit)) e key).
    assert (S := substitute_spec env whole a cap). cbn [c_key cap] in S.
    assert (W : whole = (done ++ lit ++ p) ++ [] ++ r).
    { unfold whole. rewrite <- PR. rewrite <- !app_assoc. reflexivity. }
    assert (L' : (List.length r <= fuel)%nat).
    { rewrite <- PR in L. rewrite app_length in L. lia. }
    set (a1 := substitute env whole a cap) in *.
    assert (E1 : last_end a1 = List.length (done ++ lit ++ p)).
    { destruct (fulfilled env key); [rewrite S; cbn; exact EL|]. destruct S as (x & y & S & _). rewrite S. cbn. exact EL. }
    specialize (IH fuel (done ++ lit ++ p) [] a1 L' E1). rewrite app_nil_r in IH.
    cbv zeta in IH. rewrite <- W in IH. rewrite <- EL in IH.
    destruct IH as [B [(vs & F & Er & Re)|(es & k & x & Er & I & Bl & Fu)]]; (split; [exact B|]).
    + destruct (fulfilled env key) as [v|] eqn:Fu.
      * left. exists (v :: vs). split; [constructor; [apply fulfilled_stands; exact Fu|exact F]|].
        assert (RL : (if Nat.ltb (last_end a) (List.length (done ++ lit)) then result a ++ slice whole (last_end a) (List.length (done ++ lit))
          else result a) = result a ++ lit).
        { rewrite E. rewrite app_length. destruct (Nat.ltb_spec (List.length done) (List.length done + List.length lit)) as [H|H].
          - f_equal. unfold slice, whole. rewrite skipn_app_len.
            replace (List.length done + List.length lit - List.length done)%nat with (List.length lit) by lia.
            rewrite firstn_app, firstn_all, Nat.sub_diag. cbn. apply app_nil_r.
          - destruct lit; [rewrite app_nil_r; reflexivity|cbn in H; lia]. }
        cbn [c_start cap] in S. rewrite RL in S.
        rewrite S in Er, Re. cbn [errors result] in Er, Re. split; [rewrite S; exact Er|]. rewrite S.
        rewrite Re. cbn. rewrite <- !app_assoc. reflexivity.
      * destruct S as (y & x & S & Bl). right. exists [], key, x. rewrite S in Er. cbn [errors] in Er. rewrite S, Er.
        split; [reflexivity|]. split; [left; reflexivity|]. auto.
    + right. destruct (fulfilled env key) as [v|] eqn:Fk.
      * exists es, k, x. rewrite S in Er. cbn [errors] in Er. rewrite S, Er. split; [reflexivity|]. split; [right; exact I|]. auto.
      * destruct S as (y & z & S & Bz). exists (z :: es), k, x. rewrite S in Er. cbn [errors] in Er. rewrite S, Er.
        rewrite <- !app_assoc. split; [reflexivity|]. split; [right; exact I|]. auto.
  - destruct fuel as [|fuel]; [cbn in L; lia|]. assert (M := proj2 (match_at_none (c :: r)) N).
    unfold a'. cbn [captures_iter]. rewrite M.
    assert (W : whole = done ++ (lit ++ [c]) ++ r) by (unfold whole; rewrite <- !app_assoc; reflexivity).
    specialize (IH fuel done (lit ++ [c]) a ltac:(cbn in L; lia) E). cbv zeta in IH. rewrite <- W in IH.
    replace (List.length (done ++ lit ++ [c])) with (S (List.length (done ++ lit))) in IH by (rewrite !app_length; cbn; lia).
    destruct IH as [B [(vs & F & Er & Re)|(es & k & x & Er & I & Bl & Fu)]]; (split; [exact B|]).
    + left. exists ([c] :: vs). split; [constructor; [constructor|exact F]|]. split; [exact Er|]. rewrite Re. cbn. rewrite <- !app_assoc. reflexivity.
    + right. exists es, k, x. split; [exact Er|]. split; [right; exact I|]. auto.
Qed.

Lemma from_str_cases : forall env s parts, reads s parts ->
  (exists vs, Forall2 (stands env) parts vs /\ from_str env s = inl (concat vs)) \/
  (exists key e, from_str env s = inr e /\ In (Ref key) parts /\ blame env key e /\ fulfilled env key = None).
Proof.
  intros env s parts R. assert (H := fold_spec env s parts R (List.length s) [] [] (mkacc [] [] 0) (le_n _) eq_refl).
  cbv zeta in H. cbn [app List.length] in H. unfold from_str.
  set (a := fold_left (substitute env s) (captures_iter (List.length s) 0 s) (mkacc [] [] 0)) in *. cbv zeta.
  destruct H as [B [(vs & F & Er & Re)|(es & k & x & Er & I & Bl & Fu)]]; cbn [errors result app] in *.
  - left. exists vs. split; [exact F|]. rewrite Er. cbn [rev]. f_equal. rewrite <- Re.
    destruct (Nat.eqb_spec (last_end a) (List.length s)) as [Q|Q]; cbn [negb orb]; [|reflexivity].
    destruct s as [|c s]; [reflexivity|]. rewrite Q, skipn_all, app_nil_r. reflexivity.
  - right. exists k, x. rewrite Er, rev_app_distr. cbn [rev app]. auto.
Qed.

(** ** C36 *)

(** Loading gives a text exactly when every reference names a variable that is set,
    and then each reference is replaced by the value, as it is, and the rest kept. *)
Theorem C36_substitution : forall env s out, from_str env s = inl out <-> expands env s out.
Proof.
  intros env s out. split.
  - intros H. destruct (reads_total (List.length s) s (le_n _)) as (parts & R).
    destruct (from_str_cases env s parts R) as [(vs & F & E)|(k & e & E & _)]; rewrite E in H; [|discriminate].
    injection H as <-. econstructor; [exact R|exact F|reflexivity].
  - intros [parts vs R F ->]. destruct (from_str_cases env s parts R) as [(ws & G & E)|(k & e & _ & I & _ & N)].
    + rewrite E. f_equal. f_equal. clear - F G. revert ws G. induction F as [|p v parts vs S F IH]; intros ws G; inversion G as [|? w ? ws' S' G']; subst; [reflexivity|].
      f_equal; [|apply IH; exact G']. destruct p as [c|key].
      * inversion S; inversion S'; subst; reflexivity.
      * apply fulfilled_stands in S. apply fulfilled_stands in S'. congruence.
    + exfalso. clear - F I N. induction F as [|p v parts vs S F IH]; [destruct I|]. destruct I as [->|I]; [|auto].
      apply fulfilled_stands in S. congruence.
Qed.

(** An error is about a reference of the text that cannot be resolved, and names it. *)
Theorem C36_errors : forall env s e, from_str env s = inr e ->
  exists parts key, reads s parts /\ In (Ref key) parts /\ blame env key e.
Proof.
  intros env s e H. destruct (reads_total (List.length s) s (le_n _)) as (parts & R). exists parts.
  destruct (from_str_cases env s parts R) as [(vs & F & E)|(k & e' & E & I & B & _)]; rewrite E in H; [discriminate|].
  injection H as <-. exists k. auto.
Qed.

(** Every text is read in one way; in particular [expands] determines the result. *)
Theorem C36_deterministic : forall s, exists parts, reads s parts /\ forall parts', reads s parts' -> parts' = parts.
Proof.
  intros s. destruct (reads_total (List.length s) s (le_n _)) as (parts & R). exists parts. split; [exact R|].
  intros parts' R'. symmetry. eapply reads_unique; eassumption.
Qed.

(** Text without two opening braces in a row is never changed. *)
Theorem C36_plain : forall env s, (forall a b, s <> a ++ [123; 123] ++ b) -> from_str env s = inl s.
Proof.
  intros env s H. apply C36_substitution. apply ex with (parts := map Plain s) (vs := map (fun c => [c]) s).
  - induction s as [|c s IH]; [constructor|]. cbn. constructor.
    + intros p key q [w1 k w2 _ _ _ _] E. apply (H [] ((w1 ++ k ++ w2 ++ [125; 125]) ++ q)). rewrite E. cbn. reflexivity.
    + apply IH. intros a b E. apply (H (c :: a) b). rewrite E. reflexivity.
  - clear. induction s; cbn; constructor; [constructor|assumption].
  - clear. induction s as [|c s IH]; cbn; [reflexivity|]. rewrite <- IH. reflexivity.
Qed.

(** Expressions with any other character are not noticed: the text is loaded with the braces in it. *)
Theorem C36_unknown_expression_refuted : exists name, let s := chars "{{ env." ++ name ++ chars " }}" in
  from_str (fun _ => None) s = inl s.
Proof. exists (chars "MY-TOKEN"). vm_compute. reflexivity. Qed.

Example C36_example :
  let env := fun n => if text_eqb n (chars "A") then Some (chars "{{ env.B }}") else if text_eqb n (chars "B") then Some [] else None in
  from_str env (chars "x{{{env.A  }}-{{ env.B}}{{ env . A }}") = inl (chars "x{{{ env.B }}-{{ env . A }}") /\
  from_str env (chars "{{ env.C }} {{ vars.A }}") = inr (Unsupported (chars "vars.A")) /\
  from_str env (chars "{{ env.A }} {{ env.C }}") = inr (Missing (chars "C")) /\
  from_str env (chars "{{ env.A.B }}") = inr (Unsupported (chars "env.A.B")) /\
  from_str env (chars "{{ env. }}") = inr (Missing []).
Proof. vm_compute. repeat split. Qed.
