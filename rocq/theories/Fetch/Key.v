(** Requests to subgraphs in flight: the key under which two requests share a
    response (C46).

    Modelled code: crates/runtime-local/src/fetch/traffic_shaping.rs 60-166.

    A request is what the key is made of; the timeout isn't part of it. Positions
    are unbounded: the code's are u32, enough for 4 GiB of headers. *)

From Coq Require Import String Ascii List Bool Permutation NArith Lia Sorted PeanoNat.
From Verif Require Import Normalizer.Model Normalizer.Sort Normalizer.Normal.
Import ListNotations.
Local Open Scope list_scope.

Definition bytes := list ascii.

(** runtime::fetch::FetchRequest. The headers are the entries of the header map,
    in the order of its iterator. *)
Record request := Request {
  subgraph : N;
  url : bytes;
  method : bytes;
  headers : list (bytes * bytes);
  body : bytes;
  is_mutation : bool
}.

(** *** Model *)

(** RequestKey, 64-72. *)
Record key := Key {
  k_subgraph : N;
  k_sections : list (nat * nat);
  k_method : nat;
  k_url : nat;
  k_parts : bytes;
  k_body : bytes
}.

Definition slice (l : bytes) (a b : nat) : bytes := firstn (b - a) (skipn a l).
Definition section (l : bytes) (s : nat * nat) : bytes := slice l (fst s) (snd s).

(** 139-145. *)
Fixpoint push_headers (hs : list (bytes * bytes)) (parts : bytes) (secs : list (nat * nat)) : bytes * list (nat * nat) :=
  match hs with
  | [] => (parts, secs)
  | (n, v) :: r =>
      let parts' := (parts ++ n) ++ v in
      push_headers r parts' (secs ++ [(length parts, length parts')])
  end.

(** Order of byte strings. *)
Definition cmp_bytes (a b : bytes) : comparison := String.compare (string_of_list_ascii a) (string_of_list_ascii b).

(** From<&FetchRequest>, 132-166. sort_unstable_by: sections that compare as
    equal have the same bytes, and only the bytes are looked at. *)
Definition request_key (r : request) : key :=
  let (parts, secs) := push_headers (headers r) [] [] in
  let secs := sort_by (fun a b => cmp_bytes (section parts a) (section parts b)) secs in
  let url_start := length parts in
  let parts := parts ++ url r in
  let method_start := length parts in
  let parts := parts ++ method r in
  Key (subgraph r) secs method_start url_start parts (body r).

Definition bytes_eqb (a b : bytes) : bool := if list_eq_dec ascii_dec a b then true else false.

(** PartialEq, 74-117. *)
Fixpoint sections_eqb (p q : bytes) (l m : list (nat * nat)) : bool :=
  match l, m with
  | a :: l, b :: m => if bytes_eqb (section p a) (section q b) then sections_eqb p q l m else false
  | _, _ => true
  end.

Definition key_eqb (a b : key) : bool :=
  if negb (N.eqb (k_subgraph a) (k_subgraph b) && Nat.eqb (length (k_body a)) (length (k_body b))
           && Nat.eqb (length (k_parts a)) (length (k_parts b)) && Nat.eqb (length (k_sections a)) (length (k_sections b))
           && Nat.eqb (k_method a) (k_method b) && Nat.eqb (k_url a) (k_url b)) then false
  else if negb (bytes_eqb (skipn (k_method a) (k_parts a)) (skipn (k_method b) (k_parts b))) then false
  else if negb (bytes_eqb (slice (k_parts a) (k_url a) (k_method a)) (slice (k_parts b) (k_url b) (k_method a))) then false
  else if negb (sections_eqb (k_parts a) (k_parts b) (k_sections a) (k_sections b)) then false
  else bytes_eqb (k_body a) (k_body b).

(** What Hash feeds to the hasher, 121-130. *)
Definition key_hash (a : key) : N * bytes * bytes * list bytes * bytes :=
  (k_subgraph a, skipn (k_method a) (k_parts a), slice (k_parts a) (k_url a) (k_method a),
   map (section (k_parts a)) (k_sections a), k_body a).

(** *** Specification *)

(** The same request to the same subgraph, with the same headers in any order;
    a header is seen as its name directly followed by its value. *)
Definition glued (h : bytes * bytes) : bytes := fst h ++ snd h.

Definition same_request (r s : request) : Prop :=
  subgraph r = subgraph s /\ url r = url s /\ method r = method s /\ body r = body s /\
  Permutation (map glued (headers r)) (map glued (headers s)).

(** *** Proofs *)

Lemma bytes_eqb_eq : forall a b, bytes_eqb a b = true <-> a = b.
Proof. intros a b. unfold bytes_eqb. destruct (list_eq_dec ascii_dec a b); split; congruence. Qed.

Lemma cmp_bytes_total : total cmp_bytes.
Proof. apply (total_on string_of_list_ascii), string_total. Qed.

Lemma cmp_bytes_eq : forall a b, cmp_bytes a b = Eq -> a = b.
Proof.
  intros a b H. apply compare_eq in H. apply (f_equal list_ascii_of_string) in H.
  rewrite !list_ascii_of_string_of_list_ascii in H. exact H.
Qed.

Lemma push_headers_eq : forall hs parts secs,
  push_headers hs parts secs =
    (parts ++ concat (map glued hs), secs ++ snd (push_headers hs parts [])) /\
  length (snd (push_headers hs parts [])) = length hs /\
  forall rest, map (section (parts ++ concat (map glued hs) ++ rest)) (snd (push_headers hs parts [])) = map glued hs.
Proof.
  induction hs as [|[n v] hs IH]; intros parts secs.
  - cbn. rewrite !app_nil_r. auto.
  - cbn [push_headers]. set (parts' := (parts ++ n) ++ v). set (s := (length parts, length parts')).
    destruct (IH parts' (secs ++ [s])) as [E1 [L1 M1]]. destruct (IH parts' ([] ++ [s])) as [E2 _].
    rewrite E2. rewrite E1. cbn [fst snd app map concat].
    assert (P : parts' ++ concat (map glued hs) = parts ++ glued (n, v) ++ concat (map glued hs)).
    { unfold parts', glued. cbn. rewrite <- !app_assoc. reflexivity. }
    split; [|split].
    + rewrite P. rewrite <- app_assoc. reflexivity.
    + cbn [length]. rewrite L1. reflexivity.
    + intros rest. f_equal.
      * unfold section, slice, s. cbn [fst snd]. rewrite skipn_app, skipn_all, Nat.sub_diag. cbn [skipn app].
        replace (length parts' - length parts) with (length (glued (n, v)))
          by (unfold parts', glued; cbn [fst snd]; rewrite !app_length; lia).
        rewrite <- app_assoc, firstn_app, firstn_all, Nat.sub_diag. cbn [firstn]. apply app_nil_r.
      * etransitivity; [|exact (M1 rest)]. f_equal. f_equal. rewrite (app_assoc parts'), P, <- !app_assoc. reflexivity.
Qed.

Definition flat (r : request) : bytes := concat (map glued (headers r)).

(** The parts of a key. *)
Lemma key_parts : forall r,
  let k := request_key r in
  k_subgraph k = subgraph r /\ k_body k = body r /\ length (k_sections k) = length (headers r) /\
  k_url k = length (flat r) /\ k_method k = length (flat r) + length (url r) /\
  k_parts k = flat r ++ url r ++ method r /\
  map (section (k_parts k)) (k_sections k) = sort_by cmp_bytes (map glued (headers r)).
Proof.
  intros r. unfold request_key. pose proof (push_headers_eq (headers r) [] []) as [E [L M]].
  destruct (push_headers (headers r) [] []) as [parts secs] eqn:P. cbn [fst snd app] in *.
  assert (parts = flat r) by (unfold flat; congruence). subst parts. clear E.
  assert (M0 : forall rest, map (section (flat r ++ rest)) secs = map glued (headers r)) by exact M.
  cbn [k_subgraph k_sections k_method k_url k_parts k_body].
  split; [reflexivity|]. split; [reflexivity|].
  split; [rewrite <- (Permutation_length (sort_perm _ secs)); exact L|].
  split; [reflexivity|]. split; [apply app_length|]. split; [symmetry; apply app_assoc|].
  assert (Es : map (section (flat r)) secs = map glued (headers r)).
  { pose proof (M0 []) as H. rewrite app_nil_r in H. exact H. }
  transitivity (map (section (flat r)) (sort_by (fun a b => cmp_bytes (section (flat r) a) (section (flat r) b)) secs)).
  - apply map_ext_in. intros s Hs.
    assert (In s secs) by (eapply Permutation_in; [apply Permutation_sym, sort_perm|exact Hs]).
    pose proof (M0 ((url r) ++ method r)) as H1. rewrite <- Es in H1.
    rewrite <- app_assoc.
    clear -H H1. induction secs as [|x l IH]; [contradiction|]. cbn [map] in H1. injection H1 as H1 H2.
    destruct H as [->|H]; auto.
  - rewrite <- (sort_map (section (flat r)) _ cmp_bytes) by reflexivity. rewrite Es. reflexivity.
Qed.

Lemma sections_eqb_eq : forall p q l m, length l = length m ->
  (sections_eqb p q l m = true <-> map (section p) l = map (section q) m).
Proof.
  intros p q. induction l as [|a l IH]; intros [|b m] L; cbn [length] in L; try discriminate.
  - cbn. split; reflexivity.
  - cbn [sections_eqb map]. destruct (bytes_eqb (section p a) (section q b)) eqn:E.
    + apply bytes_eqb_eq in E. rewrite IH by congruence. split; [congruence|]. intros H. injection H. auto.
    + split; [discriminate|]. intros H. injection H as H _. apply bytes_eqb_eq in H. congruence.
Qed.

Lemma sort_bytes_perm : forall l m, sort_by cmp_bytes l = sort_by cmp_bytes m <-> Permutation l m.
Proof.
  intros l m. split; intros H.
  - rewrite (sort_perm cmp_bytes l), H. symmetry. apply sort_perm.
  - eapply sorted_unique with (cmp := cmp_bytes).
    + apply cmp_bytes_total.
    + apply sort_sorted, cmp_bytes_total.
    + apply sort_sorted, cmp_bytes_total.
    + rewrite <- !sort_perm. exact H.
    + intros x y _ _ E. apply cmp_bytes_eq, E.
Qed.

Lemma perm_concat_length : forall l m : list bytes, Permutation l m -> length (concat l) = length (concat m).
Proof.
  intros l m H. induction H; cbn [concat]; rewrite ?app_length; lia.
Qed.

Lemma slice_url : forall r, slice (flat r ++ url r ++ method r) (length (flat r)) (length (flat r) + length (url r)) = url r.
Proof.
  intros r. unfold slice. rewrite skipn_app, skipn_all, Nat.sub_diag. cbn [skipn app].
  replace (length (flat r) + length (url r) - length (flat r)) with (length (url r)) by lia.
  rewrite firstn_app, firstn_all, Nat.sub_diag. cbn [firstn]. apply app_nil_r.
Qed.

Lemma skip_method : forall r, skipn (length (flat r) + length (url r)) (flat r ++ url r ++ method r) = method r.
Proof.
  intros r. rewrite app_assoc, <- app_length, skipn_app, skipn_all, Nat.sub_diag. reflexivity.
Qed.

(** *** C46: keys *)

(** Two requests have the same key exactly when they are the same request. *)
Theorem C46_key : forall r s, key_eqb (request_key r) (request_key s) = true <-> same_request r s.
Proof.
  intros r s. pose proof (key_parts r) as R. pose proof (key_parts s) as S'. cbv zeta in R, S'.
  destruct R as (R1 & R2 & R3 & R4 & R5 & R6 & R7), S' as (S1 & S2 & S3 & S4 & S5 & S6 & S7).
  unfold key_eqb. rewrite R1, R2, R3, R4, R5, R6 in *. rewrite S1, S2, S3, S4, S5, S6 in *.
  unfold same_request. split.
  - destruct (_ && _)%bool eqn:E0 at 1; [|discriminate]. cbn [negb].
    repeat (apply andb_prop in E0; destruct E0 as [E0 ?]).
    apply N.eqb_eq in E0.
    repeat match goal with H : Nat.eqb _ _ = true |- _ => apply Nat.eqb_eq in H end.
    rewrite !skip_method, slice_url.
    destruct (bytes_eqb (method r) (method s)) eqn:Em; [|discriminate]. cbn [negb]. apply bytes_eqb_eq in Em.
    replace (length (flat r) + length (url r)) with (length (flat s) + length (url s)) by congruence. rewrite slice_url.
    destruct (bytes_eqb (url r) (url s)) eqn:Eu; [|discriminate]. cbn [negb]. apply bytes_eqb_eq in Eu.
    destruct (sections_eqb _ _ _ _) eqn:Es; [|discriminate]. cbn [negb].
    intros Eb. apply bytes_eqb_eq in Eb.
    apply sections_eqb_eq in Es; [|congruence]. rewrite R7, S7 in Es. apply sort_bytes_perm in Es. auto.
  - intros (E1 & E2 & E3 & E4 & E5).
    assert (EF : length (flat r) = length (flat s)) by (apply perm_concat_length, E5).
    assert (EH : length (headers r) = length (headers s)).
    { rewrite <- (map_length glued (headers r)), <- (map_length glued (headers s)). apply Permutation_length, E5. }
    rewrite E1, E2, E4, EF, EH, N.eqb_refl, !Nat.eqb_refl.
    replace (Nat.eqb (length (flat r ++ url s ++ method r)) (length (flat s ++ url s ++ method s))) with true
      by (symmetry; apply Nat.eqb_eq; rewrite !app_length, E3; lia).
    cbn [andb negb].
    rewrite skip_method. rewrite <- EF at 1. rewrite <- E2 at 1 2. rewrite skip_method, E3.
    rewrite (proj2 (bytes_eqb_eq _ _) eq_refl). cbn [negb].
    rewrite slice_url. rewrite <- EF at 1 2. rewrite <- E2 at 1 2. rewrite <- E3. rewrite slice_url, E2.
    rewrite (proj2 (bytes_eqb_eq _ _) eq_refl). cbn [negb].
    assert (Q : sections_eqb (flat r ++ url s ++ method r) (flat s ++ url s ++ method s)
                  (k_sections (request_key r)) (k_sections (request_key s)) = true).
    { apply sections_eqb_eq; [congruence|]. rewrite E2 in R7. rewrite R7, S7. apply sort_bytes_perm, E5. }
    rewrite E3 in Q |- *. rewrite Q. cbn [negb]. apply bytes_eqb_eq. reflexivity.
Qed.

(** Equal keys have equal hashes, as the map requires. *)
Theorem C46_key_hash : forall r s, key_eqb (request_key r) (request_key s) = true ->
  key_hash (request_key r) = key_hash (request_key s).
Proof.
  intros r s H. apply C46_key in H. destruct H as (E1 & E2 & E3 & E4 & E5).
  pose proof (key_parts r) as R. pose proof (key_parts s) as S'. cbv zeta in R, S'.
  destruct R as (R1 & R2 & R3 & R4 & R5 & R6 & R7), S' as (S1 & S2 & S3 & S4 & S5 & S6 & S7).
  unfold key_hash. rewrite R7, S7, R1, R2, R4, R5, R6, S1, S2, S4, S5, S6.
  rewrite !skip_method, !slice_url. rewrite E1, E2, E3, E4. f_equal. f_equal. apply sort_bytes_perm, E5.
Qed.

Definition b (s : string) : bytes := list_ascii_of_string s.

Definition sample (hs : list (bytes * bytes)) : request :=
  Request 1 (b "http://products/") (b "POST") hs (b "{}") false.

Example C46_key_example :
  let r := sample [(b "accept", b "x"); (b "authorization", b "me")] in
  let s := sample [(b "authorization", b "me"); (b "accept", b "x")] in
  let t := sample [(b "authorization", b "you"); (b "accept", b "x")] in
  key_eqb (request_key r) (request_key s) = true /\ key_eqb (request_key r) (request_key t) = false.
Proof. split; reflexivity. Qed.

(** Requests with different headers may have the same key: the name isn't
    separated from the value. *)
Theorem C46_headers_refuted : exists r s,
  key_eqb (request_key r) (request_key s) = true /\
  (forall v, In (b "x-user", v) (headers r) -> v = b "123") /\ In (b "x-user", b "123") (headers r) /\
  ~ (exists v, In (b "x-user", v) (headers s)).
Proof.
  exists (sample [(b "x-user", b "123")]), (sample [(b "x-user1", b "23")]).
  split; [reflexivity|]. cbn. split; [intros v [H|[]]; congruence|]. split; [auto|].
  intros (v & [H|[]]). discriminate.
Qed.
