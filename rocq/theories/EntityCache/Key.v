(** The keys of the entity cache (C25).

    Modelled code: crates/engine/src/resolver/graphql/cache.rs
    - prepare_key_hasher (162-179): the bytes common to all the keys
    - fetch_response (48-70): followed by the body of a request for root fields
    - fetch_entities (80-119): followed by the representation of an entity

    Simplifications: strings are lists of bytes, machines have 64 bit [usize]; the
    key is the BLAKE3 digest of the bytes, here the bytes themselves; the additional
    scopes are always empty in the code (FIXME there).  A header map is the list of
    its names and values in the order of iteration. *)

From Coq Require Import List Arith NArith Bool Lia.
From Verif.OpCache Require Import Tiered Model Spec Keys.
Import ListNotations.
Local Open Scope nat_scope.

Definition headers := list (bytes * bytes).

Definition v1 : bytes := [118; 49]%N.

Definition header_bytes (h : bytes * bytes) : bytes :=
  le_len (fst h) ++ fst h ++ le_len (snd h) ++ snd h.

Definition headers_bytes (hs : headers) : bytes := flat_map header_bytes hs.

(** prepare_key_hasher, with no scopes *)
Definition key_prefix (subgraph : bytes) (hs : headers) : bytes :=
  v1 ++ subgraph ++ le 8 (N.of_nat (List.length hs)) ++ headers_bytes hs ++ le 8 0.

(** A request for root fields. *)
Record root_request := MkRoot {
  rr_subgraph : bytes;
  rr_headers : headers;
  (** the query and its variables, as JSON *)
  rr_body : bytes
}.

(** One of the entities of a request. *)
Record entity_request := MkEnt {
  er_subgraph : bytes;
  er_headers : headers;
  (** the query, which says what to select of the entities *)
  er_query : bytes;
  er_variables : bytes;
  er_representation : bytes
}.

(** fetch_response *)
Definition root_key (r : root_request) : bytes := key_prefix (rr_subgraph r) (rr_headers r) ++ rr_body r.

(** fetch_entities *)
Definition entity_key (r : entity_request) : bytes := key_prefix (er_subgraph r) (er_headers r) ++ er_representation r.

(** ** What may be assumed of names and headers *)

(** http::HeaderMap has at most 2^15 entries, names are tokens of at most 2^16-1
    bytes. *)
Definition header_ok (h : bytes * bytes) : Prop :=
  nul_free (fst h) /\ fst h <> [] /\ List.length (fst h) < 256 * 256 /\ small (fst h) /\ small (snd h).

Definition headers_ok (hs : headers) : Prop := List.length hs < 256 * 256 /\ Forall header_ok hs.

(** ** Proofs *)

Lemma app_split : forall A (p q r s : list A), p ++ r = q ++ s ->
  (exists x, q = p ++ x /\ r = x ++ s) \/ (exists x, p = q ++ x /\ s = x ++ r).
Proof.
  induction p as [|a p IH]; intros [|b q] r s E; cbn in *.
  - left. exists []. auto.
  - left. exists (b :: q). auto.
  - right. exists (a :: p). auto.
  - inversion E; subst. destruct (IH q r s H1) as [(x & -> & ->)|(x & -> & ->)]; [left|right]; exists x; auto.
Qed.

Lemma headers_bytes_inj : forall hs hs' r r', Forall header_ok hs -> Forall header_ok hs' ->
  List.length hs = List.length hs' -> headers_bytes hs ++ r = headers_bytes hs' ++ r' -> hs = hs' /\ r = r'.
Proof.
  induction hs as [|[n v] hs IH]; intros [|[n' v'] hs'] r r' O O' L E; try discriminate; auto.
  apply Forall_cons_iff in O, O'. destruct O as [(_ & _ & _ & Sn & Sv) O], O' as [(_ & _ & _ & Sn' & Sv') O']. cbn [fst snd] in *.
  unfold headers_bytes in E. cbn [flat_map] in E. unfold header_bytes at 1 3 in E. cbn [fst snd] in E.
  rewrite <- !app_assoc in E.
  apply app_prefix in E; [|rewrite !le_len_length; reflexivity]. destruct E as [E1 E]. apply le_len_inj in E1; [|assumption|assumption].
  apply app_prefix in E; [|exact E1]. destruct E as [-> E].
  apply app_prefix in E; [|rewrite !le_len_length; reflexivity]. destruct E as [E2 E]. apply le_len_inj in E2; [|assumption|assumption].
  apply app_prefix in E; [|exact E2]. destruct E as [-> E].
  destruct (IH hs' r r' O O') as [-> ->]; [cbn in L; lia|exact E|]. auto.
Qed.

(** A small number has two bytes and six zeros. *)
Lemma le8_small : forall n, (n < 65536)%N ->
  le 8 n = [(n mod 256)%N; (n / 256)%N; 0%N; 0%N; 0%N; 0%N; 0%N; 0%N].
Proof.
  intros n H. assert (A : (n / 256 < 256)%N) by (apply N.div_lt_upper_bound; lia).
  assert (B : (n / 256 / 256 = 0)%N) by (apply N.div_small; exact A).
  change (le 8 n) with ((n mod 256)%N :: (n / 256 mod 256)%N :: le 6 (n / 256 / 256)%N).
  rewrite B, (N.mod_small (n / 256) 256 A). reflexivity.
Qed.

Lemma div_mod_256 : forall n, n = (256 * (n / 256) + n mod 256)%N.
Proof. intros n. apply N.div_mod. lia. Qed.

Lemma headers_bytes_cons : forall (n v : bytes) (hs : headers), List.length n < 256 * 256 ->
  let l := N.of_nat (List.length n) in
  headers_bytes ((n, v) :: hs) =
  [(l mod 256)%N; (l / 256)%N; 0%N; 0%N; 0%N; 0%N; 0%N; 0%N] ++ n ++ le_len v ++ v ++ headers_bytes hs.
Proof.
  intros n v hs H l. rewrite <- (le8_small l) by (unfold l; lia). unfold headers_bytes. cbn [flat_map].
  unfold header_bytes at 1. cbn [fst snd]. unfold le_len at 1. rewrite <- !app_assoc. reflexivity.
Qed.

(** A name can't run into the number of headers. *)
Lemma name_clear : forall x hs r s, nul_free x -> x <> [] -> headers_ok hs -> forall hs', headers_ok hs' ->
  le 8 (N.of_nat (List.length hs)) ++ headers_bytes hs ++ le 8 0 ++ r =
  x ++ le 8 (N.of_nat (List.length hs')) ++ headers_bytes hs' ++ le 8 0 ++ s -> False.
Proof.
  intros x hs r s Fx Nx [Lh Oh] hs' [Lh' Oh'] E.
  set (n := N.of_nat (List.length hs)) in *. set (n' := N.of_nat (List.length hs')) in *.
  assert (Hn : (n < 65536)%N) by (unfold n; lia). assert (Hn' : (n' < 65536)%N) by (unfold n'; lia).
  rewrite (le8_small n Hn), (le8_small n' Hn') in E.
  destruct x as [|a x]; [congruence|]. assert (Ha : a <> 0%N) by (intros ->; apply Fx; left; reflexivity).
  destruct hs as [|[hn hv] hs].
  { (* no headers *) change n with 0%N in E. cbn in E. inversion E. congruence. }
  apply Forall_cons_iff in Oh. destruct Oh as [(Fn & Nn & Ln & _ & _) _]. cbn [fst snd] in *.
  set (L := N.of_nat (List.length hn)) in *. assert (HL : (L < 65536)%N) by (unfold L; lia).
  assert (L0 : L <> 0%N). { unfold L. destruct hn; [congruence|cbn; lia]. }
  rewrite (headers_bytes_cons hn hv hs Ln) in E. cbv zeta in E. fold L in E.
  destruct hn as [|c hn]; [congruence|]. assert (Hc : c <> 0%N) by (intros ->; apply Fn; left; reflexivity).
  pose proof (div_mod_256 L) as DL.
  destruct x as [|b x].
  - (* the name is one byte longer *)
    cbn [app] in E. injection E as Ea Eb E1 E2 E.
    (* lowest byte of L is the highest of n' *)
    destruct hs' as [|[hn' hv'] hs'].
    + change n' with 0%N in *. cbn in E. assert (L / 256 = 0)%N by congruence.
      lia.
    + apply Forall_cons_iff in Oh'. destruct Oh' as [(_ & _ & Ln' & _ & _) _]. cbn [fst snd] in *.
      rewrite (headers_bytes_cons hn' hv' hs' Ln') in E. cbn in E. congruence.
  - assert (Hb : b <> 0%N) by (intros ->; apply Fx; right; left; reflexivity).
    destruct x as [|d x].
    + (* two bytes longer *)
      cbn [app] in E. injection E. intros. assert (L mod 256 = 0 /\ L / 256 = 0)%N by (split; congruence). lia.
    + (* more: the third byte is a zero *)
      cbn [app] in E. injection E. intros. apply Fx. right. right. left. congruence.
Qed.

Lemma key_prefix_inj : forall s s' hs hs' r r', nul_free s -> nul_free s' -> headers_ok hs -> headers_ok hs' ->
  key_prefix s hs ++ r = key_prefix s' hs' ++ r' -> s = s' /\ hs = hs' /\ r = r'.
Proof.
  intros s s' hs hs' r r' Fs Fs' H H' E. unfold key_prefix in E. rewrite <- !app_assoc in E.
  apply app_prefix in E; [|reflexivity]. destruct E as [_ E].
  apply app_split in E. destruct E as [(x & -> & E)|(x & -> & E)].
  - destruct x as [|a x].
    + cbn [app] in E. apply app_prefix in E; [|rewrite !le_length; reflexivity]. destruct E as [El E].
      destruct H as [L O], H' as [L' O'].
      apply le_inj in El; [|cbn; lia|cbn; lia]. apply Nat2N.inj in El.
      apply headers_bytes_inj in E; try assumption. destruct E as [-> E].
      apply app_prefix in E; [|reflexivity]. destruct E as [_ ->]. rewrite app_nil_r. auto.
    + exfalso. eapply (name_clear (a :: x) hs r r'); [|discriminate|exact H|exact H'|exact E].
      intros I. apply Fs'. apply in_or_app. right. exact I.
  - destruct x as [|a x].
    + cbn [app] in E. apply app_prefix in E; [|rewrite !le_length; reflexivity]. destruct E as [El E].
      destruct H as [L O], H' as [L' O'].
      apply le_inj in El; [|cbn; lia|cbn; lia]. apply Nat2N.inj in El.
      apply headers_bytes_inj in E; try assumption. destruct E as [-> E].
      apply app_prefix in E; [|reflexivity]. destruct E as [_ ->]. rewrite app_nil_r. auto.
    + exfalso. eapply (name_clear (a :: x) hs' r' r); [|discriminate|exact H'|exact H|exact E].
      intros I. apply Fs. apply in_or_app. right. exact I.
Qed.

(** Two requests for root fields share an entry only if they are the same. *)
Theorem C25_root_requests : forall r r', nul_free (rr_subgraph r) -> nul_free (rr_subgraph r') ->
  headers_ok (rr_headers r) -> headers_ok (rr_headers r') ->
  root_key r = root_key r' -> r = r'.
Proof.
  intros [s h b] [s' h' b'] Fs Fs' H H' E. unfold root_key in E. cbn in *.
  apply key_prefix_inj in E; try assumption. destruct E as (-> & -> & ->). reflexivity.
Qed.

(** Two entities share an entry only if asked from the same subgraph with the
    same headers and the same representation.  Missing: the selected fields. *)
Theorem C25_entities_partial : forall r r', nul_free (er_subgraph r) -> nul_free (er_subgraph r') ->
  headers_ok (er_headers r) -> headers_ok (er_headers r') ->
  (entity_key r = entity_key r' <->
   er_subgraph r = er_subgraph r' /\ er_headers r = er_headers r' /\ er_representation r = er_representation r').
Proof.
  intros r r' Fs Fs' H H'. split.
  - intros E. unfold entity_key in E. apply key_prefix_inj in E; try assumption.
  - intros (E1 & E2 & E3). unfold entity_key. rewrite E1, E2, E3. reflexivity.
Qed.

(** An entity and a request for root fields: only if the JSON of the one is that
    of the other. *)
Theorem C25_kinds : forall e r, nul_free (er_subgraph e) -> nul_free (rr_subgraph r) ->
  headers_ok (er_headers e) -> headers_ok (rr_headers r) -> entity_key e = root_key r -> er_representation e = rr_body r.
Proof.
  intros e r Fs Fs' H H' E. unfold entity_key, root_key in E. apply key_prefix_inj in E; try assumption. tauto.
Qed.

(** The selected fields don't matter: different queries share an entry. *)
Theorem C25_selection_refuted : exists r r', er_query r <> er_query r' /\ er_variables r <> er_variables r' /\
  nul_free (er_subgraph r) /\ headers_ok (er_headers r) /\ entity_key r = entity_key r'.
Proof.
  exists (MkEnt [112%N] [] [1%N] [3%N] [7%N]), (MkEnt [112%N] [] [2%N] [4%N] [7%N]). cbn.
  split; [discriminate|]. split; [discriminate|]. split; [intros [X|[]]; discriminate|].
  split; [|reflexivity]. split; [apply Nat.ltb_lt; reflexivity|constructor].
Qed.

Example C25_example :
  entity_key (MkEnt [112%N] [([97%N], [98%N; 99%N])] [1%N] [] [7%N]) =
    [118; 49; 112; 1; 0; 0; 0; 0; 0; 0; 0; 1; 0; 0; 0; 0; 0; 0; 0; 97; 2; 0; 0; 0; 0; 0; 0; 0; 98; 99;
     0; 0; 0; 0; 0; 0; 0; 0; 7]%N /\
  entity_key (MkEnt [112%N] [([97%N], [98%N; 99%N])] [1%N] [] [7%N]) <>
  entity_key (MkEnt [112%N] [([97%N], [98%N])] [1%N] [] [7%N]).
Proof. split; [reflexivity|]. vm_compute. discriminate. Qed.
