(** The bytes hashed into the key of an operation determine the document. *)

From Coq Require Import List Arith NArith Bool Lia.
From Verif.OpCache Require Import Tiered Model Spec.
Import ListNotations.
Local Open Scope nat_scope.

Lemma le_length : forall k n, List.length (le k n) = k.
Proof. induction k; intros n; cbn; auto. Qed.

Lemma le_inj : forall k n m, (n < 256 ^ N.of_nat k)%N -> (m < 256 ^ N.of_nat k)%N -> le k n = le k m -> n = m.
Proof.
  induction k as [|k IH]; intros n m Hn Hm E.
  - cbn in *. lia.
  - cbn [le] in E. rewrite Nat2N.inj_succ, N.pow_succ_r' in Hn, Hm.
    assert (E1 : (n mod 256 = m mod 256)%N) by congruence.
    assert (E2 : le k (n / 256) = le k (m / 256)) by congruence.
    assert (D : (n / 256 = m / 256)%N).
    { apply IH; [| |exact E2]; apply N.div_lt_upper_bound; lia. }
    rewrite (N.div_mod' n 256), (N.div_mod' m 256). congruence.
Qed.

Lemma le_last : forall k n, (n < 256 ^ N.of_nat k)%N -> nth_error (le (S k) n) k = Some 0%N.
Proof.
  induction k as [|k IH]; intros n H.
  - cbn [N.of_nat] in H. change (256 ^ 0)%N with 1%N in H. assert (n = 0%N) by lia. subst n. reflexivity.
  - change (nth_error (le (S k) (n / 256)) k = Some 0%N). apply IH.
    rewrite Nat2N.inj_succ, N.pow_succ_r' in H. apply N.div_lt_upper_bound; lia.
Qed.

Lemma le_len_length : forall b, List.length (le_len b) = 8.
Proof. intros b. apply le_length. Qed.

Lemma nth_error_S : forall A (a : A) l n, nth_error (a :: l) (S n) = nth_error l n.
Proof. reflexivity. Qed.

Lemma small_last : forall b, small b -> nth_error (le_len b) 7 = Some 0%N.
Proof. intros b H. unfold le_len. apply (le_last 7). exact H. Qed.

Lemma app_prefix : forall A (p q r s : list A), List.length p = List.length q -> p ++ r = q ++ s -> p = q /\ r = s.
Proof.
  induction p as [|a p IH]; intros [|b q] r s L E; cbn in *; try discriminate; auto.
  inversion E; subst. destruct (IH q r s) as [-> ->]; auto.
Qed.

(** Where the operation name ends. *)
Lemma name_end : forall n n' r r', nul_free n -> n' ++ 0%N :: r' = n ++ 0%N :: r ->
  (n' = n /\ r' = r) \/ exists m, n' = n ++ 0%N :: m /\ r = m ++ 0%N :: r'.
Proof.
  induction n as [|a n IH]; intros [|b n'] r r' F E; cbn in *.
  - left. inversion E. auto.
  - inversion E; subst. right. exists n'. auto.
  - exfalso. inversion E; subst. apply F. left. reflexivity.
  - inversion E; subst. destruct (IH n' r r') as [[-> ->]|(m & -> & ->)]; [intros I; apply F; right; exact I|assumption|auto|].
    right. exists m. auto.
Qed.

Lemma name_plain : forall n n' r r', nul_free n -> nul_free n' -> n' ++ 0%N :: r' = n ++ 0%N :: r -> n' = n /\ r' = r.
Proof.
  intros n n' r r' F F' E. destruct (name_end n n' r r' F E) as [X|(m & -> & _)]; [exact X|].
  exfalso. apply F'. apply in_or_app. right. left. reflexivity.
Qed.

Lemma le_len_inj : forall a b, small a -> small b -> le_len a = le_len b -> List.length a = List.length b.
Proof.
  intros a b Ha Hb E. unfold small in *. unfold le_len in E.
  apply Nat2N.inj. eapply le_inj; [| |exact E]; cbn; cbn in Ha, Hb; lia.
Qed.

Lemma trusted_body : forall c i c' i', small c -> small i -> small c' -> small i' ->
  le_len c ++ c ++ le_len i ++ i = le_len c' ++ c' ++ le_len i' ++ i' -> c = c' /\ i = i'.
Proof.
  intros c i c' i' Hc Hi Hc' Hi' E.
  apply app_prefix in E; [|unfold le_len; rewrite !le_length; reflexivity]. destruct E as [E1 E].
  apply app_prefix in E; [|apply le_len_inj; assumption]. destruct E as [-> E].
  apply app_prefix in E; [|unfold le_len; rewrite !le_length; reflexivity]. destruct E as [_ ->]. auto.
Qed.

(** An operation name with a NUL doesn't make one key of a trusted document look
    like the one of another. *)
Lemma trusted_robust : forall m c i c' i', nul_free c -> nul_free i -> small c' -> small i' ->
  m ++ 0%N :: le_len c' ++ c' ++ le_len i' ++ i' <> le_len c ++ c ++ le_len i ++ i.
Proof.
  intros m c i c' i' Fc Fi Hc' Hi' E.
  assert (L : List.length m + 1 + List.length c' + List.length i' = List.length c + List.length i).
  { apply (f_equal (@List.length N)) in E. rewrite !app_length in E. cbn [List.length] in E.
    rewrite !app_length in E. rewrite !le_len_length in E. lia. }
  (* the last byte of the length of [i'] *)
  assert (I : List.length i <= List.length i').
  { destruct (Nat.le_gt_cases (List.length i) (List.length i')) as [X|X]; [exact X|exfalso].
    pose proof (small_last i' Hi') as Z.
    assert (Z' : nth_error (m ++ 0%N :: le_len c' ++ c' ++ le_len i' ++ i')
                   (List.length m + (1 + (8 + (List.length c' + 7)))) = Some 0%N).
    { rewrite nth_error_app2 by lia. replace (List.length m + (1 + (8 + (List.length c' + 7))) - List.length m)
        with (S (8 + (List.length c' + 7))) by lia. rewrite nth_error_S.
      rewrite nth_error_app2 by (rewrite le_len_length; lia). rewrite le_len_length.
      replace (8 + (List.length c' + 7) - 8) with (List.length c' + 7) by lia.
      rewrite nth_error_app2 by lia. replace (List.length c' + 7 - List.length c') with 7 by lia.
      rewrite nth_error_app1 by (rewrite le_len_length; lia). exact Z. }
    rewrite E in Z'. apply Fi.
    rewrite nth_error_app2 in Z' by (rewrite le_len_length; lia).
    rewrite nth_error_app2 in Z' by (rewrite le_len_length; lia).
    rewrite nth_error_app2 in Z' by (rewrite !le_len_length; lia).
    eapply nth_error_In. exact Z'. }
  (* the last byte of the length of [c'] *)
  pose proof (small_last c' Hc') as Z.
  assert (Z' : nth_error (m ++ 0%N :: le_len c' ++ c' ++ le_len i' ++ i') (List.length m + 8) = Some 0%N).
  { rewrite nth_error_app2 by lia. replace (List.length m + 8 - List.length m) with (S 7) by lia. rewrite nth_error_S.
    rewrite nth_error_app1 by (rewrite le_len_length; lia). exact Z. }
  rewrite E in Z'. apply Fc.
  rewrite nth_error_app2 in Z' by (rewrite le_len_length; lia).
  rewrite nth_error_app1 in Z' by (rewrite le_len_length; lia).
  eapply nth_error_In. exact Z'.
Qed.

Lemma plain_bytes : forall n, plain n -> nul_free (name_bytes n).
Proof. intros [b|] H; [exact H|intros []]. Qed.

Lemma same_bytes : forall n n', name_bytes n = name_bytes n' -> same_name n n'.
Proof.
  intros [b|] [b'|] H; cbn in H; subst; unfold same_name; auto.
Qed.

(** Two documents have the same key only if they are the same. *)
Lemma key_bytes_inj : forall s s' k k', List.length s = List.length s' ->
  plain (dk_name k) -> plain (dk_name k') -> dk_sized k -> dk_sized k' ->
  key_bytes s k = key_bytes s' k' -> s = s' /\ same_document k k'.
Proof.
  intros s s' k k' L P P' Z Z' E. unfold key_bytes in E. apply app_prefix in E; [|exact L]. destruct E as [-> E].
  split; [reflexivity|]. apply plain_bytes in P, P'.
  destruct k as [n e|n c i|n d], k' as [n' e'|n' c' i'|n' d']; cbn [dk_name] in *; try discriminate E.
  - assert (E' : name_bytes n ++ 0%N :: le 4 (e_version e) ++ e_hash e = name_bytes n' ++ 0%N :: le 4 (e_version e') ++ e_hash e')
      by (cbn in E; cbn; congruence).
    apply name_plain in E'; [|assumption|assumption]. destruct E' as [En Eb].
    apply app_prefix in Eb; [|rewrite !le_length; reflexivity]. destruct Eb as [Ev Eh].
    apply le_inj in Ev; [|exact Z|exact Z']. destruct e as [v h], e' as [v' h']. cbn in *. subst.
    constructor. apply same_bytes. exact En.
  - assert (E' : name_bytes n ++ 0%N :: le_len c ++ c ++ le_len i ++ i = name_bytes n' ++ 0%N :: le_len c' ++ c' ++ le_len i' ++ i')
      by (cbn in E; cbn; congruence).
    apply name_plain in E'; [|assumption|assumption]. destruct E' as [En Eb]. destruct Z as [Z1 Z2], Z' as [Z3 Z4].
    apply trusted_body in Eb; try assumption. destruct Eb as [-> ->]. constructor. apply same_bytes. exact En.
  - assert (E' : name_bytes n ++ 0%N :: d = name_bytes n' ++ 0%N :: d') by (cbn in E; cbn; congruence).
    apply name_plain in E'; [|assumption|assumption]. destruct E' as [En ->]. constructor. apply same_bytes. exact En.
Qed.

(** For trusted documents, whatever the operation name of one of them. *)
Lemma trusted_key_inj : forall s s' n c i k, List.length s = List.length s' ->
  small c -> small i -> plain (dk_name k) ->
  (forall n' c' i', k = KTrusted n' c' i' -> nul_free c' /\ nul_free i' /\ small c' /\ small i') ->
  key_bytes s (KTrusted n c i) = key_bytes s' k ->
  s = s' /\ exists n', k = KTrusted n' c i /\ same_name n' n.
Proof.
  intros s s' n c i k L Zc Zi P F E. unfold key_bytes in E. apply app_prefix in E; [|exact L]. destruct E as [-> E].
  split; [reflexivity|]. apply plain_bytes in P.
  destruct k as [n' e'|n' c' i'|n' d']; cbn [dk_name] in *; try discriminate E.
  destruct (F n' c' i' eq_refl) as (F1 & F2 & Z1 & Z2).
  assert (E' : name_bytes n ++ 0%N :: le_len c ++ c ++ le_len i ++ i = name_bytes n' ++ 0%N :: le_len c' ++ c' ++ le_len i' ++ i')
    by (cbn in E; cbn; congruence).
  apply name_end in E'; [|exact P]. destruct E' as [[En Eb]|(m & _ & Eb)].
  - apply trusted_body in Eb; try assumption. destruct Eb as [-> ->]. exists n'. split; [reflexivity|].
    apply same_bytes. congruence.
  - exfalso. symmetry in Eb. revert Eb. apply trusted_robust; assumption.
Qed.
