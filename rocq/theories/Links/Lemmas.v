(** Names, tables and links. *)
From Coq Require Import List Bool Ascii String PeanoNat Lia.
From Verif.Links Require Import Model Spec.
Import ListNotations.

Lemma eqn_spec : forall a b, eqn a b = true <-> a = b.
Proof. intros a b. unfold eqn. destruct (name_dec a b); split; congruence. Qed.
Lemma eqn_refl : forall a, eqn a a = true.
Proof. intros a. apply eqn_spec. reflexivity. Qed.

Lemma is_char_spec : forall x c, is_char x c = true <-> c = x.
Proof. intros x c. unfold is_char. destruct (ascii_dec c x); split; congruence. Qed.

(** ** Splitting *)

Lemma split_some : forall s a b, split_once s = Some (a, b) -> s = a ++ sep ++ b.
Proof.
  induction s as [|c r IH]; intros a b E; cbn [split_once] in E; [discriminate|]. destruct r as [|d r']; [discriminate|].
  destruct (is_char "_" c && is_char "_" d) eqn:U.
  - apply andb_true_iff in U. destruct U as [U1 U2]. apply is_char_spec in U1, U2. subst. injection E as <- <-. reflexivity.
  - destruct (split_once (d :: r')) as [[a' b']|] eqn:E'; [|discriminate]. injection E as <- <-. rewrite (IH _ _ eq_refl). reflexivity.
Qed.

Lemma split_cons : forall c d r, split_once (c :: d :: r)
  = if is_char "_" c && is_char "_" d then Some ([], r) else match split_once (d :: r) with Some (a, b) => Some (c :: a, b) | None => None end.
Proof. reflexivity. Qed.

Lemma split_ns : forall ns n, plain (ns ++ L "_") -> split_once (ns ++ sep ++ n) = Some (ns, n).
Proof.
  induction ns as [|c ns IH]; intros n P; [reflexivity|].
  assert (P' : plain (ns ++ L "_")) by (intros a b Q; apply (P (c :: a) b); cbn; f_equal; exact Q).
  specialize (IH n P'). cbn [app] in *. destruct (ns ++ sep ++ n) as [|d r] eqn:Q; [destruct ns; discriminate|].
  rewrite split_cons. destruct (is_char "_" c && is_char "_" d) eqn:U.
  - exfalso. apply andb_true_iff in U. destruct U as [U1 U2]. apply is_char_spec in U1, U2. subst c d. destruct ns as [|x ns].
    + apply (P [] []). reflexivity.
    + cbn in Q. injection Q as -> Q. apply (P [] (ns ++ L "_")). reflexivity.
  - rewrite IH. reflexivity.
Qed.

Lemma split_plain : forall n, plain n -> split_once n = None.
Proof. intros n P. destruct (split_once n) as [[a b]|] eqn:E; [|reflexivity]. elim (P a b). apply split_some, E. Qed.

(** ** URLs *)

Lemma starts_spec : forall p s, starts_with p s = true <-> exists b, s = p ++ b.
Proof.
  induction p as [|c p IH]; intros s; cbn [starts_with].
  - split; [exists s; reflexivity|reflexivity].
  - destruct s as [|d s]; [split; [discriminate|intros [b Q]; discriminate]|]. rewrite andb_true_iff, is_char_spec, IH. split.
    + intros [-> [b ->]]. exists b. reflexivity.
    + intros [b Q]. injection Q as -> ->. eauto.
Qed.

Lemma contains_spec : forall p s, contains p s = true <-> exists a b, s = a ++ p ++ b.
Proof.
  intros p. induction s as [|c s IH]; cbn [contains]; rewrite orb_true_iff, starts_spec.
  - split; [intros [[b Q]|Q]; [exists [], b; exact Q|discriminate]|]. intros [a [b Q]]. left. destruct a; [exists b; exact Q|discriminate].
  - rewrite IH. split.
    + intros [[b Q]|[a [b Q]]]; [exists [], b; exact Q|exists (c :: a), b; cbn; f_equal; exact Q].
    + intros [[|x a] [b Q]]; [left; exists b; exact Q|]. injection Q as -> Q. right. eauto.
Qed.

Lemma from_url_spec : forall l,
  match from_url (l_url l) with
  | Some V2 => is_federation l /\ ~ is_composite l
  | Some Composite => is_composite l /\ ~ is_federation l
  | Some V1 => False
  | None => ~ is_federation l /\ ~ is_composite l
  end.
Proof.
  intros l. unfold from_url, is_federation, is_composite. destruct (contains _ (l_url l)) eqn:CO.
  - split; [apply contains_spec; exact CO|]. intros Q. rewrite Q in CO. vm_compute in CO. discriminate.
  - assert (NF : ~ exists a b, l_url l = a ++ L "dev/federation/v2" ++ b) by (intros H; apply contains_spec in H; congruence).
    destruct (eqn (l_url l) _) eqn:EQ; [apply eqn_spec in EQ; auto|]. split; [exact NF|]. intros Q. apply eqn_spec in Q. congruence.
Qed.

Lemma digit_spec : forall c, is_digit c = true <-> In c digits.
Proof.
  intros c. split.
  - intros H. destruct c as [[] [] [] [] [] [] [] []]; vm_compute in H; try discriminate; vm_compute; tauto.
  - intros H. vm_compute in H. repeat (destruct H as [<-|H]; [reflexivity|]). destruct H.
Qed.

Lemma alpha_spec : forall c, is_alpha c = true <-> In c letters.
Proof.
  intros c. split.
  - intros H. destruct c as [[] [] [] [] [] [] [] []]; vm_compute in H; try discriminate; vm_compute; repeat (try (left; reflexivity); right).
  - intros H. vm_compute in H. repeat (destruct H as [<-|H]; [reflexivity|]). destruct H.
Qed.

Lemma version_spec : forall s, is_valid_version s = true <-> version s.
Proof.
  intros s. unfold version. split.
  - destruct s as [|v [|d r]]; cbn [is_valid_version]; try discriminate. rewrite !andb_true_iff, is_char_spec, digit_spec, forallb_forall.
    intros [[-> D] R]. exists d, r. split; [reflexivity|]. split; [exact D|]. intros c H. specialize (R c H). apply orb_true_iff in R. apply in_or_app.
    destruct R as [R|R]; [right; apply digit_spec, R|left; left; symmetry; apply is_char_spec, R].
  - intros [d [r [-> [D R]]]]. cbn [L list_ascii_of_string app is_valid_version]. rewrite !andb_true_iff, is_char_spec, digit_spec, forallb_forall. split; [auto|].
    intros c H. specialize (R c H). apply in_app_or in R. apply orb_true_iff. destruct R as [[R|[]]|R]; [right; apply is_char_spec; auto|left; apply digit_spec, R].
Qed.

Lemma graphql_spec : forall s, is_valid_graphql_name s = true <-> graphql_name s.
Proof.
  intros s. unfold graphql_name. destruct s as [|c r]; cbn [is_valid_graphql_name].
  - split; [discriminate|]. intros [c [r [Q _]]]. discriminate.
  - rewrite andb_true_iff, orb_true_iff, alpha_spec, is_char_spec, forallb_forall.
    assert (A : (In c letters \/ c = "_"%char) <-> In c (L "_" ++ letters)).
    { rewrite in_app_iff. cbn [L list_ascii_of_string In]. intuition auto. }
    assert (B : (forall x, In x r -> is_alpha x || is_digit x || is_char "_" x = true) <-> (forall x, In x r -> In x (L "_" ++ letters ++ digits))).
    { split; intros H x I; specialize (H x I).
      - rewrite !in_app_iff. rewrite !orb_true_iff, alpha_spec, digit_spec, is_char_spec in H. destruct H as [[H|H]|H]; [auto|auto|left; left; auto].
      - rewrite !in_app_iff in H. rewrite !orb_true_iff, alpha_spec, digit_spec, is_char_spec. destruct H as [[H|[]]|[H|H]]; auto. }
    rewrite A, B. split.
    + intros [H1 H2]. exists c, r. auto.
    + intros [c' [r' [Q [H1 H2]]]]. injection Q as <- <-. auto.
Qed.

Definition core (rv : list name) : option name :=
  match rv with
  | [] => None
  | s :: rest =>
    if is_valid_version s then match rest with n :: _ => if is_valid_graphql_name n then Some n else None | [] => None end
    else if is_valid_graphql_name s then Some s else None
  end.

Lemma core_spec : forall segments n, core (rev segments) = Some n <-> named_by segments n.
Proof.
  intros segments n. split.
  - intros E. destruct (rev segments) as [|s rest] eqn:R; [discriminate|].
    assert (Q : segments = rev rest ++ [s]) by (rewrite <- (rev_involutive segments), R; reflexivity).
    cbn [core] in E. destruct (is_valid_version s) eqn:V.
    + destruct rest as [|m rest]; [discriminate|]. destruct (is_valid_graphql_name m) eqn:GN; [|discriminate]. injection E as ->.
      apply (by_version _ _ (rev rest) s); [cbn in Q; rewrite <- app_assoc in Q; exact Q|apply version_spec, V|apply graphql_spec, GN].
    + destruct (is_valid_graphql_name s) eqn:GN; [|discriminate]. injection E as ->.
      apply (by_last _ _ (rev rest)); [exact Q|intros H; apply version_spec in H; congruence|apply graphql_spec, GN].
  - intros [pre -> NV GN|pre v -> V GN].
    + rewrite rev_app_distr. cbn [rev app core]. apply graphql_spec in GN. rewrite GN. destruct (is_valid_version n) eqn:V; [|reflexivity]. elim NV. apply version_spec, V.
    + rewrite rev_app_distr. cbn [rev app core]. apply version_spec in V. apply graphql_spec in GN. rewrite V, GN. reflexivity.
Qed.

Lemma namespace_spec : forall l ns, namespace l = Some ns <-> prefix_of l ns.
Proof.
  intros l ns. unfold namespace, prefix_of. destruct (l_as l) as [a|].
  - split; [intros E; left; exact E|]. intros [E|[E _]]; [exact E|discriminate].
  - assert (U : match l_segments l with Some segments => name_of_segments (l_file l) (rev segments) | None => None end = Some ns <-> url_name l ns).
    2:{ rewrite U. split; [auto|]. intros [E|[_ E]]; [discriminate|exact E]. }
    unfold url_name. destruct (l_segments l) as [segments|]; [|split; [discriminate|intros [s [Q _]]; discriminate]].
    assert (NB : name_of_segments (l_file l) (rev segments) = match rev segments with [] => None | s :: rest => core (if l_file l && eqn s (L "build") then rest else rev segments) end).
    { unfold name_of_segments. destruct (rev segments) as [|s rest]; [reflexivity|]. destruct (l_file l && eqn s (L "build")); [destruct rest|]; reflexivity. }
    rewrite NB. clear NB. destruct (rev segments) as [|s rest] eqn:R.
    + assert (segments = []) by (rewrite <- (rev_involutive segments), R; reflexivity). subst. split; [discriminate|].
      intros [s [Q H]]. injection Q as <-. destruct H as [[_ [s' [Q _]]]|[_ [pre Q _ _|pre v Q _ _]]]; [destruct s'; discriminate|destruct pre; discriminate|destruct pre; discriminate].
    + assert (Q : segments = rev rest ++ [s]) by (rewrite <- (rev_involutive segments), R; reflexivity).
      destruct (l_file l && eqn s (L "build")) eqn:B.
      * apply andb_true_iff in B. destruct B as [B1 B2]. apply eqn_spec in B2. subst s. rewrite <- (rev_involutive rest), core_spec. split.
        -- intros H. exists segments. split; [reflexivity|]. left. split; [exact B1|]. exists (rev rest). auto.
        -- intros [s [Q1 H]]. injection Q1 as <-. destruct H as [[_ [s' [Q1 H]]]|[[H|H] _]].
           ++ rewrite Q in Q1. apply app_inj_tail in Q1. destruct Q1 as [-> _]. exact H.
           ++ congruence.
           ++ elim (H (rev rest)). exact Q.
      * rewrite <- R, core_spec. split.
        -- intros H. exists segments. split; [reflexivity|]. right. split; [|exact H]. apply andb_false_iff in B. destruct B as [B|B]; [auto|].
           right. intros s' Q1. rewrite Q in Q1. apply app_inj_tail in Q1. destruct Q1 as [_ ->]. rewrite eqn_refl in B. discriminate.
        -- intros [s0 [Q1 H]]. injection Q1 as <-. destruct H as [[F [s' [Q1 _]]]|[_ H]]; [|exact H].
           rewrite Q in Q1. apply app_inj_tail in Q1. destruct Q1 as [_ ->]. rewrite F, eqn_refl in B. discriminate.
Qed.

(** ** Imports *)

Lemma trim_at : forall o, hd_error o <> hd_error at_sign -> trim (at_sign ++ o) = o.
Proof.
  intros o H. cbn [at_sign L list_ascii_of_string app trim]. change (is_char "@" "@") with true. cbn iota. destruct o as [|c o]; [reflexivity|]. cbn [trim].
  destruct (is_char "@" c) eqn:E; [|reflexivity]. apply is_char_spec in E. subst. elim H. reflexivity.
Qed.

Lemma trim_none : forall o, hd_error o <> hd_error at_sign -> trim o = o.
Proof.
  intros [|c o] H; [reflexivity|]. cbn [trim]. destruct (is_char "@" c) eqn:E; [|reflexivity]. apply is_char_spec in E. subst. elim H. reflexivity.
Qed.

Lemma brings_spec : forall i o n, brings i o n -> original i = o /\ final_name i = n.
Proof.
  intros i o n [H1 [H2 [H3 H4]]]. unfold final_name, original. rewrite H1, (trim_at _ H2). split; [reflexivity|].
  destruct (i_as i) as [a|]; [subst a; apply trim_at, H3|auto].
Qed.

Lemma final_brings : forall links n k i, unambiguous links n -> imports_of links k i -> final_name i = n -> brings i (original i) n.
Proof.
  intros links n k i [U _] I F. destruct (U k i I) as [[o [n' B]]|[T1 T2]].
  - destruct (brings_spec _ _ _ B) as [-> Q]. congruence.
  - elim T1. rewrite <- F. unfold final_name, original. destruct (i_as i); symmetry; apply trim_none, T2.
Qed.

(** ** Tables *)

Lemma ingest_snoc : forall links l, ingest (links ++ [l]) = push l (ingest links).
Proof. intros links l. unfold ingest. rewrite fold_left_app. reflexivity. Qed.

Lemma ingest_schemas : forall links, schemas (ingest links) = map (fun l => from_url (l_url l)) links.
Proof. induction links as [|l links IH] using rev_ind; [reflexivity|]. rewrite ingest_snoc, map_app. cbn [push schemas map]. rewrite IH. reflexivity. Qed.

Lemma ingest_nth : forall links k l, nth_error links k = Some l -> nth_error (schemas (ingest links)) k = Some (from_url (l_url l)).
Proof. intros links k l E. rewrite ingest_schemas. exact (map_nth_error (fun l => from_url (l_url l)) _ _ E). Qed.

Lemma nth_snoc {B} : forall (l : list B) x k y, nth_error (l ++ [x]) k = Some y <-> nth_error l k = Some y \/ (k = List.length l /\ y = x).
Proof.
  intros l x k y. destruct (Nat.lt_ge_cases k (List.length l)) as [H|H].
  - rewrite nth_error_app1 by exact H. split; [auto|]. intros [E|[-> _]]; [exact E|lia].
  - rewrite nth_error_app2 by exact H. assert (N0 : nth_error l k = None) by (apply nth_error_None; exact H). rewrite N0. split.
    + intros E. right. destruct (k - List.length l) as [|m] eqn:D; [|destruct m; discriminate]. injection E as <-. split; [lia|reflexivity].
    + intros [E|[-> ->]]; [discriminate|]. rewrite Nat.sub_diag. reflexivity.
Qed.

Lemma imported_spec : forall links n k o, In (n, (k, o)) (imported (ingest links)) <-> exists i, imports_of links k i /\ final_name i = n /\ original i = o.
Proof.
  induction links as [|l links IH] using rev_ind; intros n k o.
  - split; [intros []|]. intros [i [[l [E _]] _]]. destruct k; discriminate.
  - rewrite ingest_snoc. cbn [push imported]. rewrite in_app_iff, <- in_rev, in_map_iff, IH, ingest_schemas, map_length. unfold imports_of. split.
    + intros [[i [Q I]]|[i [[l' [E I]] H]]].
      * injection Q as <- <- <-. exists i. split; [|auto]. exists l. split; [apply nth_snoc; auto|exact I].
      * exists i. split; [|exact H]. exists l'. split; [apply nth_snoc; auto|exact I].
    + intros [i [[l' [E I]] [<- <-]]]. apply nth_snoc in E. destruct E as [E|[-> ->]]; [right; exists i; split; [exists l'; auto|auto]|left; exists i; auto].
Qed.

Lemma namespaces_spec : forall links ns k, In (ns, k) (namespaces (ingest links)) <-> exists l, nth_error links k = Some l /\ prefix_of l ns.
Proof.
  induction links as [|l links IH] using rev_ind; intros ns k.
  - split; [intros []|]. intros [l [E _]]. destruct k; discriminate.
  - rewrite ingest_snoc. cbn [push namespaces].
    assert (A : In (ns, k) match namespace l with Some m => (m, List.length (schemas (ingest links))) :: namespaces (ingest links) | None => namespaces (ingest links) end
      <-> (namespace l = Some ns /\ k = List.length links) \/ In (ns, k) (namespaces (ingest links))).
    { rewrite ingest_schemas, map_length. destruct (namespace l) as [m|]; cbn [In]; split.
      - intros [Q|Q]; [injection Q as <- <-; auto|auto].
      - intros [[Q ->]|Q]; [injection Q as <-; auto|auto].
      - auto.
      - intros [[Q _]|Q]; [discriminate|exact Q]. }
    rewrite A, IH, namespace_spec. split.
    + intros [[P ->]|[l' [E P]]]; [exists l|exists l']; (split; [apply nth_snoc; auto|exact P]).
    + intros [l' [E P]]. apply nth_snoc in E. destruct E as [E|[-> ->]]; [right; eauto|left; auto].
Qed.

Lemma find_some {B} : forall n (l : list (name * B)) b, find n l = Some b -> In (n, b) l.
Proof. induction l as [|[m c] l IH]; intros b E; cbn [find] in E; [discriminate|]. destruct (name_dec n m) as [->|]; [injection E as ->; left; reflexivity|right; auto]. Qed.
Lemma find_none {B} : forall n (l : list (name * B)) b, find n l = None -> ~ In (n, b) l.
Proof. induction l as [|[m c] l IH]; intros b E H; cbn [find] in E; [exact H|]. destruct (name_dec n m) as [|NE]; [discriminate|]. destruct H as [H|H]; [congruence|eapply IH; eauto]. Qed.

Lemma find_import : forall links n k i o, unambiguous links n -> imports_of links k i -> brings i o n -> find n (imported (ingest links)) = Some (k, o).
Proof.
  intros links n k i o U I B. destruct (brings_spec _ _ _ B) as [B1 B2].
  assert (IN : In (n, (k, o)) (imported (ingest links))) by (apply imported_spec; eauto).
  destruct (find n (imported (ingest links))) as [[k' o']|] eqn:F; [|elim (find_none _ _ _ F IN)].
  apply find_some, imported_spec in F. destruct F as [i' [I' [F1 F2]]]. pose proof (final_brings _ _ _ _ U I' F1) as B'. rewrite F2 in B'.
  destruct U as [_ U]. destruct (U _ _ _ _ _ _ I I' B B') as [-> ->]. reflexivity.
Qed.

Lemma find_no_import : forall links n, unambiguous links n -> (forall k i o, imports_of links k i -> ~ brings i o n) -> find n (imported (ingest links)) = None.
Proof.
  intros links n U H. destruct (find n (imported (ingest links))) as [[k o]|] eqn:F; [|reflexivity].
  apply find_some, imported_spec in F. destruct F as [i [I [F1 _]]]. elim (H k i (original i) I). eapply final_brings; eauto.
Qed.

Lemma find_prefix : forall links ns k l, unambiguous_prefix links ns -> nth_error links k = Some l -> prefix_of l ns -> find ns (namespaces (ingest links)) = Some k.
Proof.
  intros links ns k l U E P. assert (IN : In (ns, k) (namespaces (ingest links))) by (apply namespaces_spec; eauto).
  destruct (find ns (namespaces (ingest links))) as [k'|] eqn:F; [|elim (find_none _ _ _ F IN)].
  apply find_some, namespaces_spec in F. destruct F as [l' [E' P']]. f_equal. eapply U; eauto.
Qed.

Lemma find_no_prefix : forall links ns, (forall l, In l links -> ~ prefix_of l ns) -> find ns (namespaces (ingest links)) = None.
Proof.
  intros links ns H. destruct (find ns (namespaces (ingest links))) as [k|] eqn:F; [|reflexivity].
  apply find_some, namespaces_spec in F. destruct F as [l [E P]]. elim (H l (nth_error_In _ _ E) P).
Qed.

Lemma spec_of : forall links,
  match federation_spec (ingest links) with
  | V1 => forall l, In l links -> ~ is_federation l /\ ~ is_composite l
  | V2 => (exists l, In l links /\ is_federation l) /\ forall l, In l links -> ~ is_composite l
  | Composite => exists l, In l links /\ is_composite l
  end.
Proof.
  induction links as [|l links IH] using rev_ind; [intros l []|]. rewrite ingest_snoc. cbn [push federation_spec].
  pose proof (from_url_spec l) as F. destruct (federation_spec (ingest links)); destruct (from_url (l_url l)) as [[]|]; cbn; try tauto;
    setoid_rewrite in_app_iff; cbn [In]; try (intros x [I|[<-|[]]]; [apply IH, I|exact F]).
  - split; [exists l; split; [auto|apply F]|]. intros x [I|[<-|[]]]; [apply IH, I|apply F].
  - exists l. split; [auto|apply F].
  - destruct IH as [[x [I1 I2]] IH]. split; [exists x; auto|]. intros y [I|[<-|[]]]; [apply IH, I|apply F].
  - exists l. split; [auto|apply F].
  - destruct IH as [[x [I1 I2]] IH]. split; [exists x; auto|]. intros y [I|[<-|[]]]; [apply IH, I|apply F].
  - destruct IH as [x [I1 I2]]. exists x. auto.
  - destruct IH as [x [I1 I2]]. exists x. auto.
  - destruct IH as [x [I1 I2]]. exists x. auto.
Qed.

(** ** Directives *)

Fixpoint look (n : name) (l : list (string * known)) : matched :=
  match l with [] => NoMatch | (s, d) :: l => if eqn n (L s) then Known d else look n l end.

Lemma look_some : forall n l d, look n l = Known d -> exists s, In (s, d) l /\ n = L s.
Proof.
  intros n. induction l as [|[s d0] l IH]; intros d E; cbn [look] in E; [discriminate|]. destruct (eqn n (L s)) eqn:Q.
  - apply eqn_spec in Q. injection E as ->. exists s. split; [left; reflexivity|exact Q].
  - destruct (IH _ E) as [s' [I Q']]. exists s'. split; [right; exact I|exact Q'].
Qed.

Lemma look_known : forall n l, look n l = NoMatch \/ exists d, look n l = Known d.
Proof. intros n. induction l as [|[s d] l IH]; [auto|]. cbn [look]. destruct (eqn n (L s)); eauto. Qed.

Lemma federation_look : forall n, federation_directive n = look n of_federation.
Proof. reflexivity. Qed.
Lemma composite_look : forall n, composite_schemas_directive n = look n of_composite.
Proof. reflexivity. Qed.

Lemma federation_of : forall s d, In (s, d) of_federation -> federation_directive (L s) = Known d.
Proof. intros s d H. repeat (destruct H as [H|H]; [injection H as <- <-; reflexivity|]). destruct H. Qed.
Lemma composite_of : forall s d, In (s, d) of_composite -> composite_schemas_directive (L s) = Known d.
Proof. intros s d H. repeat (destruct H as [H|H]; [injection H as <- <-; reflexivity|]). destruct H. Qed.
Lemma builtin_of : forall s d, In (s, d) of_graphql -> builtin (L s) = Some d.
Proof. intros s d H. repeat (destruct H as [H|H]; [injection H as <- <-; reflexivity|]). destruct H. Qed.
Lemma builtin_some : forall n d, builtin n = Some d -> exists s, In (s, d) of_graphql /\ n = L s.
Proof.
  intros n d E. unfold builtin in E.
  repeat match type of E with (if eqn n (L ?s) then _ else _) = _ => let Q := fresh "Q" in destruct (eqn n (L s)) eqn:Q; [apply eqn_spec in Q; injection E as <-; exists s; split; [cbn; tauto|exact Q]|] end.
  discriminate.
Qed.
