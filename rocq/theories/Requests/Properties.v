(** C123: a request is what its body or its parameters say. *)
From Coq Require Import List Bool Ascii String NArith ZArith Lia Sorting.Permutation.
From Verif.Requests Require Import Model Spec.
Import ListNotations.
Open Scope string_scope.
Open Scope list_scope.

Lemma bind_some : forall A B (o : option A) (f : A -> option B) b, bind o f = Some b <-> exists a, o = Some a /\ f a = Some b.
Proof.
  intros A B o f b. destruct o as [a|]; cbn [bind].
  - split; [intros E; exists a; split; [reflexivity|exact E]|]. intros (a' & E & H). injection E as <-. exact H.
  - split; [discriminate|]. intros (a & E & _). discriminate.
Qed.

(** * Members *)

Lemma values_nil : forall A k (l : list (string * A)), values k l = [] <-> ~ In k (map fst l).
Proof.
  intros A k. unfold values. induction l as [|[k' v] l IH]; cbn [filter map fst snd In]; [split; [intros _ []|reflexivity]|].
  destruct (String.eqb k' k) eqn:K.
  - apply String.eqb_eq in K. subst k'. cbn [map]. split; [discriminate|]. intros H. destruct H. left. reflexivity.
  - apply String.eqb_neq in K. rewrite IH. tauto.
Qed.

Lemma values_app : forall A k (a b : list (string * A)), values k (a ++ b) = values k a ++ values k b.
Proof. intros A k a b. unfold values. rewrite filter_app, map_app. reflexivity. Qed.

Lemma values_one : forall A k (l : list (string * A)) v, values k l = [v] <-> Once k l v.
Proof.
  intros A k l v. split.
  - induction l as [|[k' v'] l IH]; [discriminate|]. unfold values. cbn [filter fst]. destruct (String.eqb k' k) eqn:K.
    + apply String.eqb_eq in K. subst k'. cbn [map snd]. intros E. injection E as -> E.
      exists [], l. split; [reflexivity|]. split; [intros []|]. apply values_nil. exact E.
    + apply String.eqb_neq in K. intros E. destruct (IH E) as (b & a & -> & Hb & Ha). exists ((k', v') :: b), a.
      split; [reflexivity|]. split; [|exact Ha]. cbn [map fst In]. tauto.
  - intros (b & a & -> & Hb & Ha). rewrite values_app. apply values_nil in Hb. rewrite Hb. cbn [app].
    unfold values. cbn [filter fst]. rewrite String.eqb_refl. cbn [map snd]. apply values_nil in Ha. unfold values in Ha. rewrite Ha. reflexivity.
Qed.

Lemma once_unique : forall A k (l : list (string * A)) v v', Once k l v -> Once k l v' -> v = v'.
Proof. intros A k l v v' H H'. apply values_one in H, H'. congruence. Qed.

Lemma field_spec : forall A B k (l : list (string * A)) read (Reads : A -> B -> Prop) default b,
  (forall v b, read v = Some b -> Reads v b) -> field k l read default = Some b -> Optional k l Reads default b.
Proof.
  intros A B k l read Reads default b R E. unfold field in E. destruct (values k l) as [|v [|v' vs]] eqn:V; [| |discriminate].
  - left. injection E as <-. split; [apply values_nil, V|reflexivity].
  - right. exists v. split; [apply values_one, V|apply R, E].
Qed.

Lemma field_complete : forall A B k (l : list (string * A)) read (Reads : A -> B -> Prop) default b (Eq : B -> B -> Prop),
  (forall v b, Reads v b -> exists b', read v = Some b' /\ Eq b b') -> Eq default default ->
  Optional k l Reads default b -> exists b', field k l read default = Some b' /\ Eq b b'.
Proof.
  intros A B k l read Reads default b Eq R D [[H ->]|(v & H & Rv)]; unfold field.
  - apply values_nil in H. rewrite H. exists default. split; [reflexivity|exact D].
  - apply values_one in H. rewrite H. apply R, Rv.
Qed.

(** * Values *)

Lemma read_string_spec : forall v o, read_string v = Some o <-> SaysText v o.
Proof.
  intros v o. unfold SaysText. destruct v; cbn [read_string]; split; intros E;
    try discriminate; try (destruct E as [[E _]|(s' & E & _)]; discriminate).
  - injection E as <-. left. split; reflexivity.
  - destruct E as [[_ ->]|(s & E & _)]; [reflexivity|discriminate].
  - injection E as <-. right. exists s. split; reflexivity.
  - destruct E as [[E _]|(s' & E & ->)]; [discriminate|]. injection E as ->. reflexivity.
Qed.

Lemma insert_keys : forall k v m k', In k' (map fst (insert k v m)) <-> k' = k \/ In k' (map fst m).
Proof.
  intros k v. induction m as [|[k1 v1] m IH]; intros k'; cbn [insert map fst In].
  - split; [intros [<-|[]]; left; reflexivity|]. intros [->|[]]. left. reflexivity.
  - destruct (String.eqb k1 k) eqn:K; cbn [map fst In].
    + apply String.eqb_eq in K. subst k1. split; [intros [<-|H]; [left; reflexivity|right; right; exact H]|].
      intros [->|[<-|H]]; [left; reflexivity|left; reflexivity|right; exact H].
    + rewrite IH. tauto.
Qed.

Lemma insert_in : forall k v m, NoDup (map fst m) ->
  NoDup (map fst (insert k v m)) /\
  (forall k' x, In (k', x) (insert k v m) <-> (k' = k /\ x = v) \/ (k' <> k /\ In (k', x) m)).
Proof.
  intros k v. induction m as [|[k1 v1] m IH]; intros ND; cbn [insert].
  - split; [constructor; [intros []|constructor]|]. intros k' x. cbn [In]. split.
    + intros [E|[]]. injection E as <- <-. left. split; reflexivity.
    + intros [[-> ->]|[_ []]]. left. reflexivity.
  - cbn [map fst] in ND. apply NoDup_cons_iff in ND. destruct ND as [N1 ND]. destruct (String.eqb k1 k) eqn:K.
    + apply String.eqb_eq in K. subst k1. split; [constructor; assumption|]. intros k' x. cbn [In]. split.
      * intros [E|H]; [injection E as <- <-; left; split; reflexivity|].
        right. split; [|right; exact H]. intros ->. apply N1. apply in_map with (f := fst) in H. exact H.
      * intros [[-> ->]|[Ne [E|H]]]; [left; reflexivity|injection E as <- <-; congruence|right; exact H].
    + apply String.eqb_neq in K. destruct (IH ND) as [A B]. split.
      * cbn [map fst]. constructor; [|exact A]. rewrite insert_keys. intros [E|H]; [congruence|contradiction].
      * intros k' x. cbn [In]. rewrite B. split.
        { intros [E|[H|[H1 H2]]]; [injection E as <- <-; right; split; [exact K|left; reflexivity]|left; exact H|].
          right. split; [exact H1|right; exact H2]. }
        { intros [H|[H1 [E|H2]]]; [right; left; exact H|left; exact E|right; right; split; assumption]. }
Qed.

Lemma last_snoc : forall k l k' v x, Last k (l ++ [(k', v)]) x <-> (k = k' /\ x = v) \/ (k <> k' /\ Last k l x).
Proof.
  intros k l k' v x. split.
  - intros (b & a & E & N1). destruct (string_dec k k') as [->|Ne].
    + left. split; [reflexivity|]. destruct a as [|ka a] using rev_ind.
      * apply app_inj_tail in E. destruct E as [_ E]. injection E as <-. reflexivity.
      * exfalso. apply N1. rewrite app_comm_cons, app_assoc in E. apply app_inj_tail in E. destruct E as [_ <-].
        rewrite map_app, in_app_iff. right. left. reflexivity.
    + right. split; [exact Ne|]. destruct a as [|ka a] using rev_ind.
      * apply app_inj_tail in E. destruct E as [_ E]. injection E as E1 E2. congruence.
      * rewrite app_comm_cons, app_assoc in E. apply app_inj_tail in E. destruct E as [-> _]. exists b, a. split; [reflexivity|].
        intros H. apply N1. rewrite map_app, in_app_iff. left. exact H.
  - intros [[-> ->]|[Ne (b & a & -> & N1)]].
    + exists l, []. split; [reflexivity|intros []].
    + exists b, (a ++ [(k', v)]). split; [rewrite <- app_assoc; reflexivity|]. rewrite map_app, in_app_iff. cbn [map fst In].
      intros [H|[H|[]]]; [contradiction|congruence].
Qed.

Lemma fold_insert : forall l,
  NoDup (map fst (fold_left (fun m kv => insert (fst kv) (snd kv) m) l [])) /\
  forall k x, In (k, x) (fold_left (fun m kv => insert (fst kv) (snd kv) m) l []) <-> Last k l x.
Proof.
  induction l as [|[k' v] l IH] using rev_ind.
  - split; [constructor|]. intros k x. split; [intros []|]. intros (b & a & E & _). destruct b; discriminate.
  - rewrite fold_left_app. cbn [fold_left fst snd]. destruct IH as [A B]. destruct (insert_in k' v _ A) as [C D].
    split; [exact C|]. intros k x. rewrite D, last_snoc, B. tauto.
Qed.

Lemma read_variables_spec : forall v m, read_variables v = Some m -> SaysVariables v m.
Proof.
  intros v m. unfold SaysVariables. destruct v; cbn [read_variables]; intros E; try discriminate.
  - injection E as <-. left. split; reflexivity.
  - injection E as <-. right. exists l. split; [reflexivity|apply fold_insert].
Qed.

Lemma nodup_pairs : forall A (m : list (string * A)), NoDup (map fst m) -> NoDup m.
Proof. intros A m H. apply NoDup_map_inv in H. exact H. Qed.

Lemma read_variables_complete : forall v m, SaysVariables v m -> exists m', read_variables v = Some m' /\ Permutation m m'.
Proof.
  intros v m [[-> ->]|(l & -> & N1 & H)].
  - exists []. split; [reflexivity|constructor].
  - cbn [read_variables]. destruct (fold_insert l) as [A B]. eexists. split; [reflexivity|].
    apply NoDup_Permutation; [apply nodup_pairs, N1|apply nodup_pairs, A|]. intros [k x]. rewrite H, B. reflexivity.
Qed.

Lemma hex_value_spec : forall a x, hex_value a = Some x <-> In (a, x) digits.
Proof.
  intros a x. split.
  - destruct a as [b0 b1 b2 b3 b4 b5 b6 b7].
    destruct b0, b1, b2, b3, b4, b5, b6, b7; vm_compute; intros E; try discriminate; injection E as <-; tauto.
  - intros H. cbn [digits In] in H. repeat (destruct H as [E|H]; [injection E as <- <-; vm_compute; reflexivity|]). destruct H.
Qed.

Fixpoint hex_spec_aux (n : nat) : forall s, String.length s <= n -> forall l, hex s = Some l <-> Hex s l.
Proof.
  intros s L l. destruct s as [|a s].
  - split; [intros E; injection E as <-; constructor|]. intros H. inversion H; subst. reflexivity.
  - destruct s as [|b s]; [split; [discriminate|intros H; inversion H]|]. cbn [String.length] in L. destruct n as [|n]; [lia|].
    assert (IH := hex_spec_aux n s ltac:(lia)). cbn [hex]. split.
    + intros E. apply bind_some in E. destruct E as (x & Hx & E). apply bind_some in E. destruct E as (y & Hy & E).
      apply bind_some in E. destruct E as (l' & Hl & E). injection E as <-.
      apply hex_byte; [apply hex_value_spec, Hx|apply hex_value_spec, Hy|apply IH, Hl].
    + intros H. inversion H as [|a' b' x y s' l' Hx Hy Hl]; subst. apply hex_value_spec in Hx, Hy. apply IH in Hl.
      rewrite Hx, Hy, Hl. reflexivity.
Qed.

Lemma hex_spec : forall s l, hex s = Some l <-> Hex s l.
Proof. intros s. apply (hex_spec_aux (String.length s)). lia. Qed.

Lemma required_spec : forall A B k (l : list (string * A)) (read : A -> option B) b,
  required k l read = Some b <-> exists v, Once k l v /\ read v = Some b.
Proof.
  intros A B k l read b. unfold required. split.
  - destruct (values k l) as [|v [|v' vs]] eqn:V; try discriminate. intros E. exists v. split; [apply values_one, V|exact E].
  - intros (v & H & E). apply values_one in H. rewrite H. exact E.
Qed.

Lemma read_u32_spec : forall v n, read_u32 v = Some n <-> v = JInt (Z.of_N n) /\ (n < 4294967296)%N.
Proof.
  intros v n. destruct v; cbn [read_u32]; split; intros E; try discriminate; try (destruct E; discriminate).
  - destruct (Z.leb 0 z && Z.ltb z 4294967296)%Z eqn:C; [|discriminate]. injection E as <-.
    apply andb_true_iff in C. destruct C as [C1 C2]. apply Z.leb_le in C1. apply Z.ltb_lt in C2.
    split; [f_equal; lia|lia].
  - destruct E as [E L]. injection E as ->.
    assert (C : (Z.leb 0 (Z.of_N n) && Z.ltb (Z.of_N n) 4294967296)%Z = true).
    { apply andb_true_iff. split; [apply Z.leb_le; lia|apply Z.ltb_lt; lia]. }
    rewrite C. f_equal. lia.
Qed.

Lemma read_persisted_spec : forall v o, read_persisted v = Some o <-> SaysPersisted v o.
Proof.
  intros v o. unfold SaysPersisted. destruct v; cbn [read_persisted]; split; intros E; try discriminate;
    try (destruct E as [[E _]|(l' & n & s' & h & E & _)]; discriminate).
  - injection E as <-. left. split; reflexivity.
  - destruct E as [[_ ->]|(l' & n & s' & h & E & _)]; [reflexivity|discriminate].
  - apply bind_some in E. destruct E as (n & Hn & E). apply bind_some in E. destruct E as (h & Hh & E). injection E as <-.
    apply required_spec in Hn, Hh. destruct Hn as (v & O1 & Hn), Hh as (v' & O2 & Hh). apply read_u32_spec in Hn. destruct Hn as [-> L].
    destruct v'; try discriminate. cbn [read_hex] in Hh. apply hex_spec in Hh.
    right. exists l, n, s, h. split; [reflexivity|]. split; [exact O1|]. split; [exact L|]. split; [exact O2|]. split; [exact Hh|reflexivity].
  - destruct E as [[E _]|(l' & n & s & h & E & O1 & L & O2 & Hh & ->)]; [discriminate|]. injection E as <-.
    apply bind_some. exists n. split; [apply required_spec; exists (JInt (Z.of_N n)); split; [exact O1|apply read_u32_spec; split; [reflexivity|exact L]]|].
    apply bind_some. exists h. split; [apply required_spec; exists (JStr s); split; [exact O2|apply hex_spec, Hh]|reflexivity].
Qed.

Lemma read_extensions_spec : forall v o, read_extensions v = Some o <-> SaysExtensions v o.
Proof.
  intros v o. unfold SaysExtensions. destruct v; cbn [read_extensions]; split; intros E; try discriminate;
    try (destruct E as (l' & E & _); discriminate).
  - exists l. split; [reflexivity|]. eapply field_spec; [|exact E]. intros v b. apply read_persisted_spec.
  - destruct E as (l' & E & H). injection E as <-.
    destruct (field_complete _ _ "persistedQuery" l read_persisted SaysPersisted None o eq) as (b' & Hb & <-);
      [|reflexivity|exact H|exact Hb].
    intros v b Hv. apply read_persisted_spec in Hv. exists b. split; [exact Hv|reflexivity].
Qed.

Lemma read_string_eq : forall v o, SaysText v o -> exists o', read_string v = Some o' /\ o = o'.
Proof. intros v o H. apply read_string_spec in H. exists o. split; [exact H|reflexivity]. Qed.

Lemma read_extensions_eq : forall v o, SaysExtensions v o -> exists o', read_extensions v = Some o' /\ o = o'.
Proof. intros v o H. apply read_extensions_spec in H. exists o. split; [exact H|reflexivity]. Qed.

(** What is read from an object is what it says: members that are absent or null have no effect, unknown ones neither, the
    last value of a variable counts. *)
Theorem C123_post : forall v r, read_request v = Some r -> Says v r.
Proof.
  intros v r E. destruct v; try discriminate. exists l. split; [reflexivity|]. cbn [read_request] in E.
  apply bind_some in E. destruct E as (q & Hq & E). apply bind_some in E. destruct E as (o & Ho & E).
  apply bind_some in E. destruct E as (d & Hd & E). apply bind_some in E. destruct E as (vs & Hv & E).
  apply bind_some in E. destruct E as (e & He & E). injection E as <-.
  cbn [rq_query rq_operation rq_doc rq_variables rq_persisted].
  split; [eapply field_spec; [|exact Hq]; intros v b; apply read_string_spec|].
  split; [eapply field_spec; [|exact Ho]; intros v b; apply read_string_spec|].
  split; [eapply field_spec; [|exact Hd]; intros v b; apply read_string_spec|].
  split; [eapply field_spec; [|exact Hv]; intros v b; apply read_variables_spec|].
  eapply field_spec; [|exact He]. intros v b. apply read_extensions_spec.
Qed.

(** And all that says something is accepted. *)
Theorem C123_post_accepts : forall v r, Says v r -> exists r', read_request v = Some r' /\ Same r r'.
Proof.
  intros v r (l & -> & Hq & Ho & Hd & Hv & He). cbn [read_request].
  destruct (field_complete _ _ _ _ read_string _ _ _ eq read_string_eq eq_refl Hq) as (q & Q & Eq).
  destruct (field_complete _ _ _ _ read_string _ _ _ eq read_string_eq eq_refl Ho) as (o & O & Eo).
  destruct (field_complete _ _ _ _ read_string _ _ _ eq read_string_eq eq_refl Hd) as (d & D & Ed).
  destruct (field_complete _ _ _ _ read_variables _ _ _ (@Permutation _) read_variables_complete (Permutation_refl _) Hv) as (m & M & Em).
  destruct (field_complete _ _ _ _ read_extensions _ _ _ eq read_extensions_eq eq_refl He) as (e & Ex & Ee).
  rewrite Q, O, D, M, Ex. cbn [bind]. eexists. split; [reflexivity|]. unfold Same.
  cbn [rq_query rq_operation rq_doc rq_variables rq_persisted]. tauto.
Qed.

(** A list is a batch of its requests, in order, all of which have to be well-formed. *)
Theorem C123_batch : forall v b,
  read_batch v = Some b ->
  match b with
  | Single r => Says v r
  | Batch rs => exists l, v = JArr l /\ Forall2 Says l rs
  end.
Proof.
  intros v b E. assert (A : forall l rs, read_all l = Some rs -> Forall2 Says l rs).
  { induction l as [|x l IH]; intros rs H; cbn [read_all] in H; [injection H as <-; constructor|].
    apply bind_some in H. destruct H as (r & Hr & H). apply bind_some in H. destruct H as (rs' & Hs & H). injection H as <-.
    constructor; [apply C123_post, Hr|apply IH, Hs]. }
  unfold read_batch in E. destruct v;
    try (apply bind_some in E; destruct E as (r & Hr & E); injection E as <-; apply C123_post, Hr).
  apply bind_some in E. destruct E as (rs & Hs & E). injection E as <-. exists l. split; [reflexivity|apply A, Hs].
Qed.

(** * Parameters *)

(** What is read from parameters is what they say, with operation_name for the name of the operation. *)
Theorem C123_get : forall parse l r, read_params parse l = Some r -> Given parse "operation_name" l r.
Proof.
  intros parse l r E. unfold read_params in E.
  apply bind_some in E. destruct E as (q & Hq & E). apply bind_some in E. destruct E as (d & Hd & E).
  apply bind_some in E. destruct E as (vs & Hv & E). apply bind_some in E. destruct E as (o & Ho & E).
  apply bind_some in E. destruct E as (e & He & E). injection E as <-. unfold Given.
  cbn [rq_query rq_operation rq_doc rq_variables rq_persisted].
  split; [eapply field_spec; [|exact Hq]; intros v b H; injection H as <-; reflexivity|].
  split; [eapply field_spec; [|exact Ho]; intros v b H; injection H as <-; reflexivity|].
  split; [eapply field_spec; [|exact Hd]; intros v b H; injection H as <-; reflexivity|].
  split; [eapply field_spec; [|exact Hv]|eapply field_spec; [|exact He]]; intros v b H; cbv beta in H;
    apply bind_some in H; destruct H as (j & Hj & H); exists j; (split; [exact Hj|]);
    [apply read_variables_spec, H|apply read_extensions_spec, H].
Qed.

Theorem C123_get_accepts : forall parse l r,
  Given parse "operation_name" l r -> exists r', read_params parse l = Some r' /\ Same r r'.
Proof.
  intros parse l r (Hq & Ho & Hd & Hv & He). unfold read_params.
  assert (T : forall (v : string) (b : option string), b = Some v -> exists b', Some (Some v) = Some b' /\ b = b')
    by (intros v b ->; eexists; split; reflexivity).
  destruct (field_complete _ _ _ _ (fun s => Some (Some s)) _ _ _ eq T eq_refl Hq) as (q & Q & Eq).
  destruct (field_complete _ _ _ _ (fun s => Some (Some s)) _ _ _ eq T eq_refl Ho) as (o & O & Eo).
  destruct (field_complete _ _ _ _ (fun s => Some (Some s)) _ _ _ eq T eq_refl Hd) as (d & D & Ed).
  assert (V : forall s b, (exists v, parse s = Some v /\ SaysVariables v b) ->
            exists b', bind (parse s) read_variables = Some b' /\ Permutation b b').
  { intros s b (v & P & Sv). rewrite P. cbn [bind]. apply read_variables_complete, Sv. }
  assert (X : forall s b, (exists v, parse s = Some v /\ SaysExtensions v b) ->
            exists b', bind (parse s) read_extensions = Some b' /\ b = b').
  { intros s b (v & P & Sv). rewrite P. cbn [bind]. apply read_extensions_eq, Sv. }
  destruct (field_complete _ _ _ _ (fun s => bind (parse s) read_variables) _ _ _ (@Permutation _) V (Permutation_refl _) Hv) as (m & M & Em).
  destruct (field_complete _ _ _ _ (fun s => bind (parse s) read_extensions) _ _ _ eq X eq_refl He) as (e & Ex & Ee).
  rewrite Q, D, M, O, Ex. cbn [bind]. eexists. split; [reflexivity|]. unfold Same.
  cbn [rq_query rq_operation rq_doc rq_variables rq_persisted]. tauto.
Qed.
