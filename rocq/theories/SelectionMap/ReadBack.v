(** The parser reads exactly the texts of the grammar. *)
From Coq Require Import List NArith Bool Lia.
From Verif Require Import SelectionMap.Model SelectionMap.Spec.
Import ListNotations.
Local Open Scope list_scope.
Local Open Scope N_scope.

(** ** Characters *)
Lemma is_ws_spec c : is_ws c = true <-> In c [32; 9; 10; 13].
Proof.
  unfold is_ws. rewrite !orb_true_iff, !N.eqb_eq. cbn [In]. intuition.
Qed.
Lemma name_start_spec c : name_start c = true <-> letter c.
Proof.
  unfold name_start, between, letter. rewrite !orb_true_iff, !andb_true_iff, !N.leb_le, N.eqb_eq. intuition.
Qed.
Lemma name_char_spec c : name_char c = true <-> letter c \/ 48 <= c <= 57.
Proof.
  unfold name_char, between. rewrite orb_true_iff, andb_true_iff, !N.leb_le, name_start_spec. intuition.
Qed.
Lemma letter_not_ws c : letter c -> is_ws c = false.
Proof.
  intros L. destruct (is_ws c) eqn:W; [|reflexivity]. apply is_ws_spec in W. cbn [In] in W. unfold letter in L. lia.
Qed.

Lemma skip_blank a t : blank a -> multispace0 (a ++ t) = multispace0 t.
Proof.
  induction 1 as [|c a C _ IH]; [reflexivity|]. cbn [app multispace0]. apply is_ws_spec in C. rewrite C. exact IH.
Qed.
Lemma skip_split t : exists a, blank a /\ t = a ++ multispace0 t.
Proof.
  induction t as [|c t (a & B & E)]; [exists []; split; [constructor|reflexivity]|].
  cbn [multispace0]. destruct (is_ws c) eqn:W; [|exists []; split; [constructor|reflexivity]].
  exists (c :: a). split; [constructor; [apply is_ws_spec; exact W|exact B]|]. cbn [app]. rewrite <- E. reflexivity.
Qed.
Lemma skip_blank_all a : blank a -> multispace0 a = [].
Proof. intros B. rewrite <- (app_nil_r a), (skip_blank a [] B). reflexivity. Qed.
Lemma blank_app a b : blank a -> blank b -> blank (a ++ b).
Proof. intros A B. apply Forall_app. split; assumption. Qed.
Lemma multispace1_split t r : multispace1 t = Some r -> exists c a, blank (c :: a) /\ t = (c :: a) ++ r.
Proof.
  destruct t as [|c t]; [discriminate|]. cbn [multispace1]. destruct (is_ws c) eqn:W; [|discriminate]. intros [= <-].
  destruct (skip_split t) as (a & B & E). exists c, a.
  split; [constructor; [apply is_ws_spec; exact W|exact B]|]. cbn [app]. rewrite <- E. reflexivity.
Qed.
Lemma char_split x t r : char x t = Some r <-> t = x :: r.
Proof.
  destruct t as [|c t]; cbn [char]; [split; discriminate|]. destruct (N.eqb_spec c x) as [->|E].
  - split; [intros [= ->]|intros [= ->]]; reflexivity.
  - split; [discriminate|intros [= -> _]; congruence].
Qed.
Lemma ws_char_split x t r : ws_char x t = Some r -> exists d, around x d /\ t = d ++ r.
Proof.
  unfold ws_char. destruct (skip_split t) as (a & A & E). destruct (char x (multispace0 t)) as [u|] eqn:C; cbn [bind]; [|discriminate].
  apply char_split in C. intros [= <-]. destruct (skip_split u) as (b & B & F). exists (a ++ x :: b).
  split; [exists a, b; split; [exact A|split; [exact B|reflexivity]]|].
  rewrite E, C. rewrite F at 1. rewrite <- ?app_assoc. reflexivity.
Qed.
Lemma take_while_split t a r :
  take_while name_char t = (a, r) -> Forall (fun c => letter c \/ 48 <= c <= 57) a /\ t = a ++ r.
Proof.
  revert a r. induction t as [|c t IH]; intros a r; cbn [take_while]; [intros [= <- <-]; split; [constructor|reflexivity]|].
  destruct (name_char c) eqn:W; [|intros [= <- <-]; split; [constructor|reflexivity]].
  destruct (take_while name_char t) as [b u]. intros [= <- <-]. destruct (IH _ _ eq_refl) as [F ->].
  split; [constructor; [apply name_char_spec; exact W|exact F]|reflexivity].
Qed.
Lemma p_name_split t n r : p_name t = Some (n, r) -> is_name n /\ t = n ++ r.
Proof.
  destruct t as [|c t]; [discriminate|]. cbn [p_name]. destruct (name_start c) eqn:W; [|discriminate].
  destruct (take_while name_char t) as [a u] eqn:T. intros [= <- <-]. destruct (take_while_split _ _ _ T) as [F ->].
  split; [split; [apply name_start_spec; exact W|exact F]|reflexivity].
Qed.

(** ** What is read is spelled *)
Lemma p_condition_split t n r : p_condition t = Some (n, r) ->
  exists a b c, is_name n /\ blank a /\ blank b /\ blank c /\ t = a ++ [60] ++ b ++ n ++ c ++ [62] ++ r.
Proof.
  unfold p_condition. destruct (skip_split t) as (a & A & Ea).
  destruct (char 60 (multispace0 t)) as [u|] eqn:C1; cbn [bind]; [|discriminate]. apply char_split in C1.
  destruct (skip_split u) as (b & B & Eb).
  destruct (p_name (multispace0 u)) as [[m v]|] eqn:P; cbn [bind]; [|discriminate]. apply p_name_split in P. destruct P as [M P].
  destruct (skip_split v) as (c & C & Ec).
  destruct (char 62 (multispace0 v)) as [w|] eqn:C2; cbn [bind]; [|discriminate]. apply char_split in C2. intros [= <- <-].
  exists a, b, c. split; [exact M|]. split; [exact A|]. split; [exact B|]. split; [exact C|].
  rewrite Ea at 1. rewrite C1. rewrite Eb at 1. rewrite P. rewrite Ec at 1. rewrite C2. rewrite <- ?app_assoc. reflexivity.
Qed.
Lemma p_segment_split t s r : p_segment t = Some (s, r) -> exists u, spells_segment s u /\ t = u ++ r.
Proof.
  unfold p_segment. destruct (p_name t) as [[n u]|] eqn:P; cbn [bind]; [|discriminate].
  apply p_name_split in P. destruct P as [Hn ->].
  destruct (p_condition u) as [[m w]|] eqn:C; cbn [opt].
  - intros [= <- <-]. destruct (p_condition_split _ _ _ C) as (a & b & c & Hm & A & B & D & ->).
    exists (n ++ a ++ [60] ++ b ++ m ++ c ++ [62]). split; [constructor; assumption|]. rewrite <- ?app_assoc. reflexivity.
  - intros [= <- <-]. exists n. split; [constructor; exact Hn|reflexivity].
Qed.
Lemma p_more_split : forall n t l r, p_more_segments n t = (l, r) ->
  (l = [] /\ r = t) \/ (exists d u, around 46 d /\ spells_segments l u /\ t = d ++ u ++ r).
Proof.
  induction n as [|n IH]; intros t l r; cbn [p_more_segments]; [intros [= <- <-]; left; split; reflexivity|].
  destruct (ws_char 46 t) as [u|] eqn:W; cbn [bind]; [|intros [= <- <-]; left; split; reflexivity].
  destruct (p_segment u) as [[s v]|] eqn:P; [|intros [= <- <-]; left; split; reflexivity].
  apply ws_char_split in W. destruct W as (d & D & ->). apply p_segment_split in P. destruct P as (x & X & ->).
  destruct (p_more_segments n v) as [l' r'] eqn:Q. intros [= <- <-]. right. exists d.
  destruct (IH _ _ _ Q) as [(-> & ->)|(d' & u' & D' & U' & ->)].
  - exists x. split; [exact D|]. split; [constructor; exact X|reflexivity].
  - exists (x ++ d' ++ u'). split; [exact D|]. split; [constructor; assumption|]. rewrite <- ?app_assoc. reflexivity.
Qed.
Lemma p_type_split t n r : p_type t = Some (n, r) ->
  exists a b c, is_name n /\ blank a /\ blank b /\ blank c /\ t = [60] ++ a ++ n ++ b ++ [62] ++ c ++ [46] ++ r.
Proof.
  unfold p_type. destruct (char 60 t) as [u|] eqn:C1; cbn [bind]; [|discriminate]. apply char_split in C1.
  destruct (skip_split u) as (b & B & Eb).
  destruct (p_name (multispace0 u)) as [[m v]|] eqn:P; cbn [bind]; [|discriminate]. apply p_name_split in P. destruct P as [M P].
  destruct (skip_split v) as (c & C & Ec).
  destruct (char 62 (multispace0 v)) as [w|] eqn:C2; cbn [bind]; [|discriminate]. apply char_split in C2.
  destruct (skip_split w) as (d & D & Ed).
  destruct (char 46 (multispace0 w)) as [x|] eqn:C3; cbn [bind]; [|discriminate]. apply char_split in C3. intros [= <- <-].
  exists b, c, d. split; [exact M|]. split; [exact B|]. split; [exact C|]. split; [exact D|].
  rewrite C1. rewrite Eb at 1. rewrite P. rewrite Ec at 1. rewrite C2. rewrite Ed at 1. rewrite C3. rewrite <- ?app_assoc. reflexivity.
Qed.
Lemma p_path_split n t p r : p_path n t = Some (p, r) -> exists u, spells_path p u /\ t = u ++ r.
Proof.
  assert (K : forall x, bind (p_segment x) (fun '(s, r) => let (l, r) := p_more_segments n r in Some (s :: l, r)) = None \/
              exists l y u, bind (p_segment x) (fun '(s, r) => let (l, r) := p_more_segments n r in Some (s :: l, r)) = Some (l, y) /\
                spells_segments l u /\ x = u ++ y).
  { intros x. destruct (p_segment x) as [[s y]|] eqn:P; cbn [bind]; [|left; reflexivity]. right.
    apply p_segment_split in P. destruct P as (u & U & ->). destruct (p_more_segments n y) as [l z] eqn:Q.
    exists (s :: l), z. destruct (p_more_split _ _ _ _ Q) as [(-> & ->)|(d & w & D & W & ->)].
    - exists u. split; [reflexivity|]. split; [constructor; exact U|reflexivity].
    - exists (u ++ d ++ w). split; [reflexivity|]. split; [constructor; assumption|]. rewrite <- ?app_assoc. reflexivity. }
  unfold p_path. destruct (p_type t) as [[m w]|] eqn:T; cbn [opt].
  - destruct (p_type_split _ _ _ T) as (a & b & c & Hm & A & B & C & ->). specialize (K w).
    destruct (p_segment w) as [[s y]|]; cbn [bind] in *; [|discriminate].
    destruct (p_more_segments n y) as [l z]. intros [= <- <-].
    destruct K as [K|(l' & y' & u & [= <- <-] & U & ->)]; [discriminate|].
    exists ([60] ++ a ++ m ++ b ++ [62] ++ c ++ [46] ++ u). split; [constructor; assumption|]. rewrite <- ?app_assoc. reflexivity.
  - specialize (K t). destruct (p_segment t) as [[s y]|]; cbn [bind] in *; [|discriminate].
    destruct (p_more_segments n y) as [l z]. intros [= <- <-].
    destruct K as [K|(l' & y' & u & [= <- <-] & U & ->)]; [discriminate|].
    exists u. split; [constructor; exact U|reflexivity].
Qed.

Definition sound n : Prop :=
  (forall t v r, p_value n t = Some (v, r) -> exists u, spells v u /\ t = u ++ r) /\
  (forall t l r, p_alternatives n t = (l, r) ->
     (l = [] /\ r = t) \/ exists d u, around 124 d /\ spells_alternatives l u /\ t = d ++ u ++ r) /\
  (forall t e r, p_entry n t = Some (e, r) -> exists u, spells_entry e u /\ t = u ++ r) /\
  (forall t l r, p_object n t = Some (l, r) -> exists u, spells_object l u /\ t = u ++ r) /\
  (forall t l r, p_fields n t = (l, r) ->
     (l = [] /\ r = t) \/ exists c a u, blank (c :: a) /\ spells_fields l u /\ t = (c :: a) ++ u ++ r) /\
  (forall t f r, p_field n t = Some (f, r) -> exists u, spells_field f u /\ t = u ++ r) /\
  (forall t v r, p_list n t = Some (v, r) -> exists u, spells_list v u /\ t = u ++ r).
Lemma sound_all : forall n, sound n.
Proof.
  induction n as [|n (IHv & IHa & IHe & IHo & IHs & IHf & IHl)].
  { repeat (split; [try (intros; discriminate); intros t l r [= <- <-]; left; split; reflexivity|]). intros; discriminate. }
  split; [|split; [|split; [|split; [|split; [|split]]]]].
  - intros t v r. cbn [p_value]. destruct (p_entry n t) as [[e y]|] eqn:E; cbn [bind]; [|discriminate].
    destruct (IHe _ _ _ E) as (u & U & ->). destruct (p_alternatives n y) as [l z] eqn:A. intros [= <- <-].
    destruct (IHa _ _ _ A) as [(-> & ->)|(d & w & D & W & ->)].
    + exists u. split; [constructor; constructor; exact U|reflexivity].
    + exists (u ++ d ++ w). split; [constructor; constructor; assumption|]. rewrite <- ?app_assoc. reflexivity.
  - intros t l r. cbn [p_alternatives]. destruct (ws_char 124 t) as [x|] eqn:W; cbn [bind]; [|intros [= <- <-]; left; split; reflexivity].
    destruct (p_entry n x) as [[e y]|] eqn:E; [|intros [= <- <-]; left; split; reflexivity].
    apply ws_char_split in W. destruct W as (d & D & ->). destruct (IHe _ _ _ E) as (u & U & ->).
    destruct (p_alternatives n y) as [l' z] eqn:A. intros [= <- <-]. right. exists d.
    destruct (IHa _ _ _ A) as [(-> & ->)|(d' & w & D' & W & ->)].
    + exists u. split; [exact D|]. split; [constructor; exact U|reflexivity].
    + exists (u ++ d' ++ w). split; [exact D|]. split; [constructor; assumption|]. rewrite <- ?app_assoc. reflexivity.
  - intros t e r. cbn [p_entry]. destruct t as [|c t]; [discriminate|].
    destruct (c =? 123) eqn:C1.
    { destruct (p_object n (c :: t)) as [[o y]|] eqn:O; cbn [bind]; [|discriminate]. intros [= <- <-].
      destruct (IHo _ _ _ O) as (u & U & ->). exists u. split; [constructor; exact U|reflexivity]. }
    destruct (c =? 91) eqn:C2.
    { destruct (p_list n (c :: t)) as [[o y]|] eqn:O; cbn [bind]; [|discriminate]. intros [= <- <-].
      destruct (IHl _ _ _ O) as (u & U & ->). exists u. split; [constructor; exact U|reflexivity]. }
    destruct (N.eqb_spec c 46) as [->|C3]; [intros [= <- <-]; exists [46]; split; [constructor|reflexivity]|].
    destruct (p_path n (c :: t)) as [[p y]|] eqn:P; cbn [bind]; [|discriminate].
    destruct (p_path_split _ _ _ _ P) as (u & U & ->).
    destruct (skip_split y) as (a & A & Ea).
    destruct (multispace0 y) as [|d z] eqn:M; [intros [= <- <-]; exists u; split; [constructor; exact U|reflexivity]|].
    destruct (d =? 46) eqn:D1.
    { destruct (ws_char 46 y) as [x|] eqn:W; cbn [bind]; [|discriminate]. apply ws_char_split in W. destruct W as (e' & D & ->).
      destruct (p_object n x) as [[o w]|] eqn:O; cbn [bind]; [|discriminate]. intros [= <- <-].
      destruct (IHo _ _ _ O) as (v & V & ->). exists (u ++ e' ++ v). split; [constructor; assumption|].
      rewrite <- ?app_assoc. reflexivity. }
    destruct (d =? 91) eqn:D2.
    { destruct (p_list n (d :: z)) as [[o w]|] eqn:O; cbn [bind]; [|discriminate]. intros [= <- <-].
      destruct (IHl _ _ _ O) as (v & V & X). exists (u ++ a ++ v). split; [constructor; assumption|].
      rewrite Ea, X, <- ?app_assoc. reflexivity. }
    intros [= <- <-]. exists u. split; [constructor; exact U|reflexivity].
  - intros t l r. cbn [p_object]. destruct (char 123 t) as [x|] eqn:C; cbn [bind]; [|discriminate].
    apply char_split in C. subst t. destruct (skip_split x) as (a & A & Ea).
    assert (J : exists l' y, (match p_field n (multispace0 x) with
                    | Some (f, r) => let (l, r) := p_fields n r in (f :: l, r)
                    | None => ([], multispace0 x)
                    end) = (l', y) /\
                ((l' = [] /\ y = multispace0 x) \/ exists u, spells_fields l' u /\ multispace0 x = u ++ y)).
    { destruct (p_field n (multispace0 x)) as [[f y]|] eqn:F; [|eexists _, _; split; [reflexivity|left; split; reflexivity]].
      destruct (p_fields n y) as [l' z] eqn:Q. exists (f :: l'), z. split; [reflexivity|]. right.
      destruct (IHf _ _ _ F) as (u & U & E). rewrite E.
      destruct (IHs _ _ _ Q) as [(-> & ->)|(c & b & w & B & W & ->)].
      - exists u. split; [constructor; exact U|reflexivity].
      - exists (u ++ (c :: b) ++ w). split; [constructor; assumption|]. rewrite <- ?app_assoc. reflexivity. }
    destruct J as (l' & y & -> & J). destruct (skip_split y) as (b & B & Eb).
    destruct (char 125 (multispace0 y)) as [z|] eqn:C; cbn [bind]; [|discriminate]. apply char_split in C. intros [= <- <-].
    destruct J as [(-> & ->)|(u & U & E)].
    + exists ([123] ++ a ++ [125]). split; [constructor; exact A|].
      assert (b = []) as ->.
      { destruct b as [|c b]; [reflexivity|]. exfalso. inversion B as [|? ? Hc _]. apply is_ws_spec in Hc.
        revert Eb Hc. clear. generalize (multispace0 (multispace0 x)). intros t. revert c b t.
        induction x as [|d x IH]; cbn [multispace0]; [discriminate|]. intros c b t.
        destruct (is_ws d) eqn:W; [apply IH|]. intros [= <- _] H. congruence. }
      cbn [app] in Eb. rewrite Ea at 1. rewrite Eb, C. rewrite <- ?app_assoc. reflexivity.
    + exists ([123] ++ a ++ u ++ b ++ [125]). split; [constructor; assumption|].
      rewrite Ea at 1. rewrite E. rewrite Eb at 1. rewrite C. rewrite <- ?app_assoc. reflexivity.
  - intros t l r. cbn [p_fields]. destruct (multispace1 t) as [x|] eqn:W; cbn [bind]; [|intros [= <- <-]; left; split; reflexivity].
    destruct (p_field n x) as [[f y]|] eqn:F; [|intros [= <- <-]; left; split; reflexivity].
    apply multispace1_split in W. destruct W as (c & a & A & ->). destruct (IHf _ _ _ F) as (u & U & ->).
    destruct (p_fields n y) as [l' z] eqn:Q. intros [= <- <-]. right. exists c, a.
    destruct (IHs _ _ _ Q) as [(-> & ->)|(c' & b & w & B & W & ->)].
    + exists u. split; [exact A|]. split; [constructor; exact U|reflexivity].
    + exists (u ++ (c' :: b) ++ w). split; [exact A|]. split; [constructor; assumption|]. rewrite <- ?app_assoc. reflexivity.
  - intros t f r. cbn [p_field]. destruct (p_name t) as [[k y]|] eqn:P; cbn [bind]; [|discriminate].
    apply p_name_split in P. destruct P as [Hk ->].
    destruct (ws_char 58 y) as [x|] eqn:W; cbn [bind opt]; [|intros [= <- <-]; exists k; split; [constructor; exact Hk|reflexivity]].
    destruct (p_value n x) as [[v z]|] eqn:V; cbn [opt]; [|intros [= <- <-]; exists k; split; [constructor; exact Hk|reflexivity]].
    intros [= <- <-]. apply ws_char_split in W. destruct W as (d & D & ->). destruct (IHv _ _ _ V) as (u & U & ->).
    exists (k ++ d ++ u). split; [constructor; assumption|]. rewrite <- ?app_assoc. reflexivity.
  - intros t v r. cbn [p_list]. destruct (char 91 t) as [x|] eqn:C; cbn [bind]; [|discriminate]. apply char_split in C. subst t.
    destruct (skip_split x) as (a & A & Ea).
    destruct (p_value n (multispace0 x)) as [[w y]|] eqn:V; cbn [bind]; [|discriminate]. destruct (IHv _ _ _ V) as (u & U & E).
    destruct (skip_split y) as (b & B & Eb).
    destruct (char 93 (multispace0 y)) as [z|] eqn:C; cbn [bind]; [|discriminate]. apply char_split in C. intros [= <- <-].
    exists ([91] ++ a ++ u ++ b ++ [93]). split; [constructor; assumption|].
    rewrite Ea at 1. rewrite E. rewrite Eb at 1. rewrite C. rewrite <- ?app_assoc. reflexivity.
Qed.

(** ** What is spelled is read *)
Definition starts (P : N -> Prop) (t : text) : Prop := match t with c :: _ => P c | [] => False end.
Definition no_name (t : text) : Prop := match t with c :: _ => name_char c = false | [] => True end.
Definition next_not (l : list N) (t : text) : Prop := match multispace0 t with c :: _ => ~ In c l | [] => True end.

Lemma starts_app P t u : starts P t -> starts P (t ++ u).
Proof. destruct t; cbn; intuition. Qed.
Lemma starts_impl (P Q : N -> Prop) t : (forall c, P c -> Q c) -> starts P t -> starts Q t.
Proof. destruct t; cbn; intuition. Qed.
Lemma skip_stay t : starts (fun c => is_ws c = false) t -> multispace0 t = t.
Proof. destruct t as [|c t]; cbn [starts multispace0]; [intros []|]. intros ->. reflexivity. Qed.
Lemma skip_to a t : blank a -> starts (fun c => is_ws c = false) t -> multispace0 (a ++ t) = t.
Proof. intros A T. rewrite (skip_blank a t A). apply skip_stay, T. Qed.
Lemma ws_char_ok x d t : is_ws x = false -> around x d -> starts (fun c => is_ws c = false) t -> ws_char x (d ++ t) = Some t.
Proof.
  intros X (a & b & A & B & ->) T. unfold ws_char. rewrite <- app_assoc. cbn [app].
  rewrite (skip_to a _ A); [|exact X]. cbn [char]. rewrite N.eqb_refl. cbn [bind]. rewrite (skip_to b t B T). reflexivity.
Qed.
Lemma ws_char_no x l t : next_not l t -> In x l -> ws_char x t = None.
Proof.
  unfold next_not, ws_char. intros H I. destruct (multispace0 t) as [|c r]; cbn [char]; [reflexivity|].
  destruct (N.eqb_spec c x) as [->|_]; [contradiction|reflexivity].
Qed.
Lemma next_not_incl l l' t : incl l l' -> next_not l' t -> next_not l t.
Proof. unfold next_not. intros I. destruct (multispace0 t); [auto|]. intros H J. apply H, I, J. Qed.
Lemma next_not_blank l a t : blank a -> next_not l t -> next_not l (a ++ t).
Proof. unfold next_not. intros A. rewrite (skip_blank a t A). auto. Qed.
Lemma next_not_start l t : starts (fun c => is_ws c = false /\ ~ In c l) t -> next_not l t.
Proof.
  unfold next_not. intros H. rewrite (skip_stay t (starts_impl _ _ t (fun c K => proj1 K) H)).
  destruct t; [exact Logic.I|exact (proj2 H)].
Qed.
Lemma next_not_around l x d t : is_ws x = false -> ~ In x l -> around x d -> next_not l (d ++ t).
Proof.
  intros W X (a & b & A & B & ->). rewrite <- app_assoc. apply (next_not_blank _ _ _ A), next_not_start. split; assumption.
Qed.
Lemma no_name_blank a t : blank a -> no_name t -> no_name (a ++ t).
Proof.
  intros A. destruct A as [|c a C _]; [auto|]. intros _. cbn [app no_name].
  destruct (name_char c) eqn:W; [|reflexivity]. apply name_char_spec in W. unfold letter in W. cbn [In] in C. lia.
Qed.
Lemma no_name_around x d t : name_char x = false -> around x d -> no_name (d ++ t).
Proof. intros X (a & b & A & B & ->). rewrite <- app_assoc. apply (no_name_blank _ _ A). exact X. Qed.

Lemma take_while_ok a t : Forall (fun c => letter c \/ 48 <= c <= 57) a -> no_name t -> take_while name_char (a ++ t) = (a, t).
Proof.
  intros A T. induction A as [|c a C _ IH]; cbn [app take_while].
  - destruct t as [|c t]; cbn [take_while]; [reflexivity|]. cbn [no_name] in T. rewrite T. reflexivity.
  - apply name_char_spec in C. rewrite C, IH. reflexivity.
Qed.
Lemma p_name_ok n t : is_name n -> no_name t -> p_name (n ++ t) = Some (n, t).
Proof.
  destruct n as [|c n]; [intros []|]. intros [C A] T. cbn [app p_name]. apply name_start_spec in C. rewrite C.
  rewrite (take_while_ok n t A T). reflexivity.
Qed.
Lemma p_name_no t : starts (fun c => name_start c = false) t -> p_name t = None.
Proof. destruct t as [|c t]; [intros []|]. cbn [starts p_name]. intros ->. reflexivity. Qed.
Lemma name_starts n : is_name n -> starts letter n.
Proof. destruct n; cbn; intuition. Qed.
Lemma name_starts_ws n t : is_name n -> starts (fun c => is_ws c = false) (n ++ t).
Proof. intros H. apply starts_app, (starts_impl letter); [exact letter_not_ws|apply name_starts, H]. Qed.
Lemma p_condition_no t : next_not [60] t -> p_condition t = None.
Proof.
  unfold next_not, p_condition. destruct (multispace0 t) as [|c r]; cbn [char]; [reflexivity|].
  destruct (N.eqb_spec c 60) as [->|_]; [cbn [In]; intuition|reflexivity].
Qed.
Lemma segment_starts s t : spells_segment s t -> starts letter t.
Proof. destruct 1; [apply name_starts; assumption|apply starts_app, name_starts; assumption]. Qed.
Lemma p_segment_ok s t r : spells_segment s t -> no_name r -> next_not [60] r -> p_segment (t ++ r) = Some (s, r).
Proof.
  intros S H K. destruct S as [n Hn|n m a b c Hn Hm A B C]; unfold p_segment.
  - rewrite (p_name_ok n r Hn H). cbn [bind]. rewrite (p_condition_no r K). reflexivity.
  - rewrite <- app_assoc. rewrite (p_name_ok n); [|exact Hn|rewrite <- app_assoc; apply (no_name_blank _ _ A); reflexivity].
    cbn [bind]. unfold p_condition. rewrite <- ?app_assoc. rewrite (skip_to a _ A); [|reflexivity]. cbn [app char N.eqb Pos.eqb bind].
    rewrite (skip_to b _ B); [|apply name_starts_ws, Hm].
    rewrite (p_name_ok m); [|exact Hm|apply (no_name_blank _ _ C); reflexivity]. cbn [bind].
    rewrite (skip_to c _ C); [|reflexivity]. cbn [char N.eqb Pos.eqb bind opt]. reflexivity.
Qed.
Lemma segments_starts l t : spells_segments l t -> starts letter t.
Proof. destruct 1; [eapply segment_starts; eassumption|apply starts_app; eapply segment_starts; eassumption]. Qed.
Lemma p_more_step n t : p_more_segments (S n) t =
  match bind (ws_char 46 t) p_segment with
  | Some (s, r) => let (l, r) := p_more_segments n r in (s :: l, r)
  | None => ([], t)
  end.
Proof. reflexivity. Qed.
Lemma segments_ok l t : spells_segments l t -> forall n r, (List.length t <= n)%nat -> no_name r -> next_not [60] r ->
  bind (ws_char 46 r) p_segment = None ->
  bind (p_segment (t ++ r)) (fun '(s, r) => let (l, r) := p_more_segments n r in Some (s :: l, r)) = Some (l, r) /\
  (forall d, around 46 d -> p_more_segments (S n) (d ++ t ++ r) = (l, r)).
Proof.
  induction 1 as [s t S|s t d l u S D U IH]; intros n r L H K Z.
  - assert (M : p_more_segments n r = ([], r)) by (destruct n; cbn [p_more_segments]; [reflexivity|rewrite Z; reflexivity]).
    split; [rewrite (p_segment_ok s t r S H K); cbn [bind]; rewrite M; reflexivity|].
    intros d D. cbn [p_more_segments].
    rewrite (ws_char_ok 46 d (t ++ r) eq_refl D); cbn [bind].
    2: { apply starts_app, (starts_impl letter); [exact letter_not_ws|eapply segment_starts; eassumption]. }
    rewrite (p_segment_ok s t r S H K), M. reflexivity.
  - rewrite !app_length in L. destruct n as [|n]; [destruct D as (? & ? & _ & _ & ->); rewrite app_length in L; cbn in L; lia|].
    assert (Ln : (List.length u <= n)%nat) by (destruct D as (? & ? & _ & _ & ->); rewrite app_length in L; cbn in L; lia).
    destruct (IH n r Ln H K Z) as [_ J]. rewrite <- ?app_assoc.
    assert (P : p_segment (t ++ d ++ u ++ r) = Some (s, d ++ u ++ r)).
    { apply p_segment_ok; [exact S|eapply no_name_around; [|exact D]; reflexivity|].
      eapply next_not_around; [| |exact D]; [reflexivity|cbn; intuition discriminate]. }
    split; [rewrite P; cbn [bind]; rewrite (J d D); reflexivity|]. intros d' D'. rewrite p_more_step.
    rewrite (ws_char_ok 46 d' _ eq_refl D').
    2: { apply starts_app, (starts_impl letter); [exact letter_not_ws|eapply segment_starts; eassumption]. }
    cbn [bind]. rewrite P, (J d D). reflexivity.
Qed.
Lemma path_starts p t : spells_path p t -> starts (fun c => letter c \/ c = 60) t.
Proof.
  destruct 1; [|right; reflexivity]. eapply starts_impl; [|eapply segments_starts; eassumption]. intuition.
Qed.
Lemma p_type_no t : starts letter t -> p_type t = None.
Proof.
  destruct t as [|c t]; [intros []|]. cbn [starts]. intros L. unfold p_type. cbn [char].
  destruct (N.eqb_spec c 60) as [->|_]; [|reflexivity]. unfold letter in L. lia.
Qed.
Lemma p_path_ok p t n r : spells_path p t -> (List.length t <= n)%nat -> no_name r -> next_not [60] r ->
  bind (ws_char 46 r) p_segment = None -> p_path n (t ++ r) = Some (p, r).
Proof.
  intros S L H K Z. destruct S as [l t S|m a b c l t Hm A B C S].
  - unfold p_path. rewrite (p_type_no (t ++ r)); [|apply starts_app; eapply segments_starts; eassumption]. cbn [opt].
    destruct (segments_ok l t S n r L H K Z) as [J _]. destruct (p_segment (t ++ r)) as [[s y]|]; cbn [bind] in *; [|discriminate].
    destruct (p_more_segments n y). injection J as <- <-. reflexivity.
  - rewrite !app_length in L. assert (Ln : (List.length t <= n)%nat) by lia.
    unfold p_path, p_type. rewrite <- ?app_assoc. cbn [app char N.eqb Pos.eqb bind].
    rewrite (skip_to a _ A); [|apply name_starts_ws, Hm].
    rewrite (p_name_ok m); [|exact Hm|apply (no_name_blank _ _ B); reflexivity]. cbn [bind].
    rewrite (skip_to b _ B); [|reflexivity]. cbn [char N.eqb Pos.eqb bind].
    rewrite (skip_to c _ C); [|reflexivity]. cbn [char N.eqb Pos.eqb bind opt].
    destruct (segments_ok l t S n r Ln H K Z) as [J _]. destruct (p_segment (t ++ r)) as [[s y]|]; cbn [bind] in *; [|discriminate].
    destruct (p_more_segments n y). injection J as <- <-. reflexivity.
Qed.

Scheme spells_ind_ := Minimality for spells Sort Prop
with spells_alternatives_ind_ := Minimality for spells_alternatives Sort Prop
with spells_entry_ind_ := Minimality for spells_entry Sort Prop
with spells_object_ind_ := Minimality for spells_object Sort Prop
with spells_fields_ind_ := Minimality for spells_fields Sort Prop
with spells_field_ind_ := Minimality for spells_field Sort Prop
with spells_list_ind_ := Minimality for spells_list Sort Prop.
Combined Scheme spells_mut from spells_ind_, spells_alternatives_ind_, spells_entry_ind_, spells_object_ind_,
  spells_fields_ind_, spells_field_ind_, spells_list_ind_.

Definition head_ok (c : N) : Prop := is_ws c = false.
Definition stop_entry (r : text) : Prop := no_name r /\ next_not [46; 91; 60] r.
Definition stop_value (r : text) : Prop := no_name r /\ next_not [46; 91; 60; 124] r.
Definition stop_field (r : text) : Prop := no_name r /\ next_not [46; 91; 60; 124; 58] r.
Definition ends (r : text) : Prop := exists b x, blank b /\ r = b ++ 125 :: x.

Lemma stop_entry_value r : stop_value r -> stop_entry r.
Proof. intros [A B]. split; [exact A|]. eapply next_not_incl; [|exact B]. intros c. cbn; intuition. Qed.
Lemma stop_value_field r : stop_field r -> stop_value r.
Proof. intros [A B]. split; [exact A|]. eapply next_not_incl; [|exact B]. intros c. cbn; intuition. Qed.
Lemma ends_stop r : ends r -> stop_field r.
Proof.
  intros (b & x & B & ->). split; [apply (no_name_blank _ _ B); reflexivity|].
  apply (next_not_blank _ _ _ B), next_not_start. split; [reflexivity|]. cbn. intuition discriminate.
Qed.
Lemma next_stop c a t r : blank (c :: a) -> starts letter t -> stop_field ((c :: a) ++ t ++ r).
Proof.
  intros B T. split.
  - cbn [app no_name]. inversion B as [|? ? C _]. destruct (name_char c) eqn:W; [|reflexivity].
    apply name_char_spec in W. unfold letter in W. cbn [In] in C. lia.
  - apply (next_not_blank _ _ _ B), next_not_start, starts_app. eapply starts_impl; [|exact T]. intros x X. split; [apply letter_not_ws, X|].
    unfold letter in X. cbn [In]. lia.
Qed.

Lemma complete_all :
  (forall v t, spells v t -> starts head_ok t /\ forall n r, (4 * List.length t + 3 <= n)%nat -> stop_value r -> p_value n (t ++ r) = Some (v, r)) /\
  (forall l t, spells_alternatives l t -> starts head_ok t /\ forall n r, (4 * List.length t + 3 <= n)%nat -> stop_value r ->
     p_value n (t ++ r) = Some (Value l, r) /\ forall d, around 124 d -> p_alternatives n (d ++ t ++ r) = (l, r)) /\
  (forall e t, spells_entry e t -> starts head_ok t /\ forall n r, (4 * List.length t + 2 <= n)%nat -> stop_entry r -> p_entry n (t ++ r) = Some (e, r)) /\
  (forall l t, spells_object l t -> starts (eq 123) t /\ forall n r, (4 * List.length t + 1 <= n)%nat -> p_object n (t ++ r) = Some (l, r)) /\
  (forall l t, spells_fields l t -> starts letter t /\ forall n r, (4 * List.length t + 2 <= n)%nat -> ends r ->
     (match p_field n (t ++ r) with Some (f, r) => let (l, r) := p_fields n r in (f :: l, r) | None => ([], t ++ r) end) = (l, r) /\
     forall c a, blank (c :: a) -> p_fields n ((c :: a) ++ t ++ r) = (l, r)) /\
  (forall f t, spells_field f t -> starts letter t /\ forall n r, (4 * List.length t + 1 <= n)%nat -> stop_field r -> p_field n (t ++ r) = Some (f, r)) /\
  (forall v t, spells_list v t -> starts (eq 91) t /\ forall n r, (4 * List.length t + 1 <= n)%nat -> p_list n (t ++ r) = Some (v, r)).
Proof.
  assert (NA : forall n r, stop_value r -> p_alternatives n r = ([], r)).
  { intros n r [_ R]. destruct n; cbn [p_alternatives]; [reflexivity|]. rewrite (ws_char_no 124 _ r R); [reflexivity|cbn; intuition]. }
  assert (NF : forall n r, ends r -> p_fields n r = ([], r)).
  { intros n r (b & x & B & ->). destruct n; cbn [p_fields]; [reflexivity|].
    destruct B as [|c b C B]; [reflexivity|]. cbn [app multispace1]. apply is_ws_spec in C. rewrite C. cbn [bind].
    rewrite (skip_to b _ B); [|reflexivity]. destruct n; reflexivity. }
  apply spells_mut.
  - (* value *) intros l t _ [H IH]. split; [exact H|]. intros n r L R. apply (IH n r L R).
  - intros e t _ [H IH]. split; [exact H|]. intros n r L R. destruct n as [|n]; [lia|].
    assert (E : p_entry n (t ++ r) = Some (e, r)) by (apply IH; [lia|apply stop_entry_value, R]).
    split; [cbn [p_value]; rewrite E; cbn [bind]; rewrite (NA n r R); reflexivity|].
    intros d D. cbn [p_alternatives]. rewrite (ws_char_ok 124 d _ eq_refl D (starts_app _ _ _ H)). cbn [bind].
    rewrite E, (NA n r R). reflexivity.
  - intros e t d l u _ [H IH] D _ [Hu IHu]. split; [apply starts_app, H|]. intros n r L R.
    rewrite !app_length in L. destruct n as [|n]; [lia|].
    assert (Ld : (1 <= List.length d)%nat) by (destruct D as (? & ? & _ & _ & ->); rewrite app_length; cbn; lia).
    destruct (IHu n r ltac:(lia) R) as [_ J]. rewrite <- ?app_assoc.
    assert (E : p_entry n (t ++ d ++ u ++ r) = Some (e, d ++ u ++ r)).
    { apply IH; [lia|]. split; [eapply no_name_around; [|exact D]; reflexivity|].
      eapply next_not_around; [| |exact D]; [reflexivity|cbn; intuition discriminate]. }
    split; [cbn [p_value]; rewrite E; cbn [bind]; rewrite (J d D); reflexivity|].
    intros d' D'. cbn [p_alternatives]. rewrite (ws_char_ok 124 d' _ eq_refl D' (starts_app _ _ _ H)). cbn [bind].
    rewrite E, (J d D). reflexivity.
  - (* entries *) split; [reflexivity|]. intros n r L _. destruct n as [|n]; [cbn in L; lia|]. reflexivity.
  - intros p t P. pose proof (path_starts p t P) as Hp.
    split; [eapply starts_impl; [|exact Hp]; intros c [C| ->]; [apply letter_not_ws, C|reflexivity]|].
    intros n r L [R1 R2]. destruct n as [|n]; [lia|]. cbn [p_entry].
    assert (Q : p_path n (t ++ r) = Some (p, r)).
    { apply p_path_ok; [exact P|lia|exact R1|eapply next_not_incl; [|exact R2]; intros c; cbn; intuition|].
      rewrite (ws_char_no 46 _ r R2); [reflexivity|cbn; intuition]. }
    destruct t as [|c t]; [destruct Hp|]. cbn [app] in *. cbn [starts] in Hp. unfold letter in Hp.
    destruct (N.eqb_spec c 123) as [->|_]; [lia|]. destruct (N.eqb_spec c 91) as [->|_]; [lia|].
    destruct (N.eqb_spec c 46) as [->|_]; [lia|]. rewrite Q. cbn [bind]. unfold next_not in R2.
    destruct (multispace0 r) as [|x y]; [reflexivity|]. cbn [In] in R2.
    destruct (N.eqb_spec x 46) as [->|_]; [intuition|]. destruct (N.eqb_spec x 91) as [->|_]; [intuition|]. reflexivity.
  - intros l t _ [H IH]. split; [eapply starts_impl; [|exact H]; intros c <-; reflexivity|].
    intros n r L _. destruct n as [|n]; [lia|]. cbn [p_entry]. specialize (IH n r ltac:(lia)).
    destruct t as [|c t]; [destruct H|]. cbn [app] in *. cbn [starts] in H. subst c. cbn [N.eqb Pos.eqb].
    rewrite IH. reflexivity.
  - intros p t d l u P D _ [H IH]. pose proof (path_starts p t P) as Hp.
    split; [apply starts_app; eapply starts_impl; [|exact Hp]; intros c [C| ->]; [apply letter_not_ws, C|reflexivity]|].
    intros n r L _. rewrite !app_length in L. destruct n as [|n]; [lia|]. cbn [p_entry]. rewrite <- ?app_assoc.
    assert (W : ws_char 46 (d ++ u ++ r) = Some (u ++ r)).
    { apply ws_char_ok; [reflexivity|exact D|]. apply starts_app. eapply starts_impl; [|exact H]. intros c <-. reflexivity. }
    assert (Q : p_path n (t ++ d ++ u ++ r) = Some (p, d ++ u ++ r)).
    { apply p_path_ok; [exact P|lia|eapply no_name_around; [|exact D]; reflexivity| |].
      - eapply next_not_around; [| |exact D]; [reflexivity|cbn; intuition discriminate].
      - rewrite W. cbn [bind]. unfold p_segment. rewrite (p_name_no (u ++ r)); [reflexivity|].
        apply starts_app. eapply starts_impl; [|exact H]. intros c <-. reflexivity. }
    destruct t as [|c t]; [destruct Hp|]. cbn [app] in *. cbn [starts] in Hp. unfold letter in Hp.
    destruct (N.eqb_spec c 123) as [->|_]; [lia|]. destruct (N.eqb_spec c 91) as [->|_]; [lia|].
    destruct (N.eqb_spec c 46) as [->|_]; [lia|]. rewrite Q. cbn [bind].
    assert (M : exists y, multispace0 (d ++ u ++ r) = 46 :: y).
    { destruct D as (a & b & A & B & ->). rewrite <- app_assoc. cbn [app]. eexists. apply (skip_to a _ A). reflexivity. }
    destruct M as (y & ->). cbn [N.eqb Pos.eqb]. rewrite W. cbn [bind]. rewrite (IH n r ltac:(lia)). reflexivity.
  - intros v t _ [H IH]. split; [eapply starts_impl; [|exact H]; intros c <-; reflexivity|].
    intros n r L _. destruct n as [|n]; [lia|]. cbn [p_entry]. specialize (IH n r ltac:(lia)).
    destruct t as [|c t]; [destruct H|]. cbn [app] in *. cbn [starts] in H. subst c. cbn [N.eqb Pos.eqb].
    rewrite IH. reflexivity.
  - intros p t a v u P A _ [H IH]. pose proof (path_starts p t P) as Hp.
    split; [apply starts_app; eapply starts_impl; [|exact Hp]; intros c [C| ->]; [apply letter_not_ws, C|reflexivity]|].
    intros n r L _. rewrite !app_length in L. destruct n as [|n]; [lia|]. cbn [p_entry]. rewrite <- ?app_assoc.
    assert (M : multispace0 (a ++ u ++ r) = u ++ r).
    { apply (skip_to a _ A), starts_app. eapply starts_impl; [|exact H]. intros c <-. reflexivity. }
    assert (X : next_not [46; 60] (a ++ u ++ r)).
    { apply (next_not_blank _ _ _ A), next_not_start, starts_app. eapply starts_impl; [|exact H]. intros c <-.
      split; [reflexivity|cbn; intuition discriminate]. }
    assert (Q : p_path n (t ++ a ++ u ++ r) = Some (p, a ++ u ++ r)).
    { apply p_path_ok; [exact P|lia| | |].
      - apply (no_name_blank _ _ A). destruct u as [|c u]; [destruct H|]. cbn [starts] in H. subst c. reflexivity.
      - eapply next_not_incl; [|exact X]. intros c; cbn; intuition.
      - rewrite (ws_char_no 46 _ _ X); [reflexivity|cbn; intuition]. }
    destruct t as [|c t]; [destruct Hp|]. cbn [app] in *. cbn [starts] in Hp. unfold letter in Hp.
    destruct (N.eqb_spec c 123) as [->|_]; [lia|]. destruct (N.eqb_spec c 91) as [->|_]; [lia|].
    destruct (N.eqb_spec c 46) as [->|_]; [lia|]. rewrite Q. cbn [bind]. rewrite M. specialize (IH n r ltac:(lia)).
    destruct u as [|x u]; [destruct H|]. cbn [app] in *. cbn [starts] in H. subst x. cbn [N.eqb Pos.eqb].
    rewrite IH. reflexivity.
  - (* objects *) intros a A. split; [reflexivity|]. intros n r L. destruct n as [|n]; [lia|]. rewrite <- ?app_assoc.
    cbn [p_object app char N.eqb Pos.eqb bind]. rewrite (skip_to a _ A); [|reflexivity].
    assert (F : p_field n (125 :: r) = None) by (destruct n; reflexivity). rewrite F. reflexivity.
  - intros a l t b A _ [H IH] B. split; [reflexivity|]. intros n r L. rewrite !app_length in L.
    destruct n as [|n]; [lia|]. rewrite <- ?app_assoc. cbn [p_object app char N.eqb Pos.eqb bind].
    rewrite (skip_to a _ A); [|apply starts_app; eapply starts_impl; [exact letter_not_ws|exact H]].
    destruct (IH n (b ++ 125 :: r)) as [J _]; [cbn in L; lia|exists b, r; split; [exact B|reflexivity]|].
    assert (E : char 125 (multispace0 (b ++ 125 :: r)) = Some r) by (rewrite (skip_to b _ B); reflexivity).
    destruct (p_field n (t ++ b ++ 125 :: r)) as [[f y]|].
    + destruct (p_fields n y) as [l' z]. injection J as <- ->. rewrite E. reflexivity.
    + injection J as <- J. rewrite J, E. reflexivity.
  - (* fields *) intros f t _ [H IH]. split; [exact H|]. intros n r L R.
    destruct n as [|n]; [lia|].
    split; [rewrite (IH (S n) r ltac:(lia) (ends_stop r R)), (NF (S n) r R); reflexivity|].
    intros c a A. cbn [p_fields]. 
    assert (M : multispace1 ((c :: a) ++ t ++ r) = Some (t ++ r)).
    { inversion A as [|? ? C B]. apply is_ws_spec in C. cbn [app multispace1]. rewrite C. f_equal.
      apply (skip_to a _ B), starts_app. eapply starts_impl; [exact letter_not_ws|exact H]. }
    rewrite M. cbn [bind]. rewrite (IH n r ltac:(lia) (ends_stop r R)), (NF n r R). reflexivity.
  - intros f t c a l u _ [H IH] A _ [Hu IHu]. split; [apply starts_app, H|]. intros n r L R.
    rewrite !app_length in L. cbn [List.length] in L. destruct n as [|n]; [lia|]. rewrite <- ?app_assoc.
    pose proof (next_stop c a u r A Hu) as Z.
    split.
    + rewrite (IH (S n) _ ltac:(lia) Z). destruct (IHu (S n) r ltac:(lia) R) as [_ J]. rewrite (J c a A). reflexivity.
    + intros c' a' A'. cbn [p_fields].
      assert (M : multispace1 ((c' :: a') ++ t ++ (c :: a) ++ u ++ r) = Some (t ++ (c :: a) ++ u ++ r)).
      { inversion A' as [|? ? C B]. apply is_ws_spec in C. cbn [app multispace1]. rewrite C. f_equal.
        apply (skip_to a' _ B), starts_app. eapply starts_impl; [exact letter_not_ws|exact H]. }
      rewrite M. cbn [bind]. rewrite (IH n _ ltac:(lia) Z). destruct (IHu n r ltac:(lia) R) as [_ J]. rewrite (J c a A). reflexivity.
  - (* field *) intros k K. split; [apply name_starts, K|]. intros n r L [R1 R2]. destruct n as [|n]; [lia|].
    cbn [p_field]. rewrite (p_name_ok k r K R1). cbn [bind]. rewrite (ws_char_no 58 _ r R2); [reflexivity|cbn; intuition].
  - intros k d v t K D _ [H IH]. split; [apply starts_app, name_starts, K|]. intros n r L R. rewrite !app_length in L.
    destruct n as [|n]; [lia|]. cbn [p_field]. rewrite <- ?app_assoc.
    rewrite (p_name_ok k); [|exact K|eapply no_name_around; [|exact D]; reflexivity]. cbn [bind].
    rewrite (ws_char_ok 58 d _ eq_refl D (starts_app _ _ _ H)). cbn [bind].
    assert (1 <= List.length d)%nat by (destruct D as (? & ? & _ & _ & ->); rewrite app_length; cbn; lia).
    rewrite (IH n r ltac:(lia) (stop_value_field r R)). reflexivity.
  - (* list *) intros a v t b A _ [H IH] B. split; [reflexivity|]. intros n r L. rewrite !app_length in L.
    destruct n as [|n]; [lia|]. rewrite <- ?app_assoc. cbn [p_list app char N.eqb Pos.eqb bind].
    rewrite (skip_to a _ A (starts_app _ _ _ H)). rewrite (IH n (b ++ 93 :: r)).
    + cbn [bind]. rewrite (skip_to b _ B); reflexivity.
    + cbn in L; lia.
    + split; [apply (no_name_blank _ _ B); reflexivity|].
      apply (next_not_blank _ _ _ B), next_not_start. split; [reflexivity|cbn; intuition discriminate].
Qed.

Theorem parse_iff t v : parse t = Some v <-> exists a u b, blank a /\ spells v u /\ blank b /\ t = a ++ u ++ b.
Proof.
  unfold parse. split.
  - destruct (skip_split t) as (a & A & Ea).
    destruct (p_value _ (multispace0 t)) as [[w r]|] eqn:P; cbn [bind]; [|discriminate].
    destruct (sound_all (4 * List.length t + 4)) as (V & _). destruct (V _ _ _ P) as (u & U & E).
    destruct (skip_split r) as (b & B & Eb). destruct (multispace0 r); [|discriminate]. intros [= <-].
    rewrite app_nil_r in Eb. subst b. exists a, u, r. split; [exact A|]. split; [exact U|]. split; [exact B|].
    rewrite <- E. exact Ea.
  - intros (a & u & b & A & U & B & ->). destruct complete_all as (V & _). destruct (V v u U) as [H J].
    rewrite (skip_to a _ A (starts_app _ _ _ H)). rewrite (J _ b).
    + cbn [bind]. rewrite (skip_blank_all b B). reflexivity.
    + rewrite !app_length. lia.
    + rewrite <- (app_nil_r b). split; [apply (no_name_blank _ _ B); exact Logic.I|apply (next_not_blank _ _ _ B); exact Logic.I].
Qed.
