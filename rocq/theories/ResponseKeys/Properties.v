From Coq Require Import String NArith List Bool Arith Lia.
From Verif.ResponseKeys Require Import Model Spec Proofs.
Import ListNotations.

Section Properties.
Variable sch : schema.
Variable keys : list string.
Variable fields : list qfield.
Variable sets : list selection.
Hypothesis wf : well_formed keys fields sets.
Variable st : state.
Hypothesis done : adjust sch (initial keys fields) sets = Some st.

Lemma all_done : base keys fields st /\ grows (initial keys fields) st /\ (forall v, In v sets -> finished sch keys fields st v) /\
  (forall f, ~ In f (map snd (flat_map v_fields sets)) -> field_at st f = the_field fields f /\ sub_at st f = None).
Proof.
  destruct wf as [W1 [W2 [W3 W4]]].
  destruct (adjusted sch keys fields W2 _ _ _ done (initial_base keys fields W1 W2) W3) as [A1 [A2 [A3 A4]]].
  - intros v sf Hv Hsf. split; [reflexivity|]. split; [apply initial_sub | exact (W4 _ _ Hv Hsf)].
  - split; [exact A1|]. split; [exact A2|]. split; [exact A3|]. intros f Hf. destruct (A4 f Hf) as [X Y].
    split; [exact X|]. rewrite Y. apply initial_sub.
Qed.

(** The keys of the client stay: their texts, and the keys of its fields; every text is there once. *)
Theorem C79_client_keys :
  (forall k, k < List.length keys -> nth_error (s_keys st) k = nth_error keys k) /\
  (forall f k, q_key (the_field fields f) = Some k -> q_key (field_at st f) = Some k) /\
  NoDup (s_keys st) /\
  (forall f k, sent_key st f = Some k -> k < List.length (s_keys st)).
Proof.
  destruct all_done as [B [G [F U]]]. destruct wf as [W1 [W2 [W3 W4]]].
  split; [|split; [|split]].
  - intros k H. exact (base_nth _ _ _ k B H).
  - intros f k H. rewrite (b_client _ _ _ B f k H). exact H.
  - exact (b_nodup _ _ _ B).
  - intros f k H. unfold sent_key in H. destruct (sub_at st f) as [k'|] eqn:E.
    + inversion H; subst k'. exact (b_sub _ _ _ B _ _ E).
    + exact (b_exist _ _ _ B _ _ H).
Qed.

(** Two fields the client asks for have one key in the queries for subgraphs exactly when they are in one class:
    both renamed for the same reason, or neither and the client's key is the same. *)
Theorem C79_classes : forall v w s t f g a b,
  In v sets -> In w sets -> In (s, f) (v_fields v) -> In (t, g) (v_fields w) ->
  classified sch keys fields (v_parent v) s f a -> classified sch keys fields (v_parent w) t g b ->
  sent_key st f <> None /\ (sent_key st f = sent_key st g <-> a = b).
Proof.
  intros v w s t f g a b Hv Hw Hf Hg Ca Cb.
  destruct all_done as [B [G [F U]]]. destruct wf as [W1 [W2 [W3 W4]]].
  pose proof (f_named _ _ _ _ _ (F v Hv) _ Hf _ Ca) as Na. pose proof (f_named _ _ _ _ _ (F w Hw) _ Hg _ Cb) as Nb.
  cbn [snd] in Na, Nb.
  destruct (b_renames _ _ _ B) as [R1 R2].
  assert (KA : forall x p s k, classified sch keys fields p s x (Kept k) -> q_key (field_at st x) = Some k /\ k < List.length keys).
  { intros x p s0 k C. inversion C; subst. pose proof H0 as K. split; [rewrite (b_client _ _ _ B x k K); exact K|].
    exact (key_exists _ _ W2 _ _ K). }
  unfold sent_key. destruct a as [ca|ka], b as [cb|kb].
  - destruct Na as [k1 [E1 M1]], Nb as [k2 [E2 M2]]. rewrite E1, E2. split; [discriminate|]. split; intros E.
    + inversion E; subst. rewrite (R2 _ _ _ M1 M2). reflexivity.
    + inversion E; subst. congruence.
  - destruct Na as [k1 [E1 M1]]. rewrite E1, Nb. split; [discriminate|]. split; [|discriminate]. intros E.
    destruct (KA _ _ _ _ Cb) as [K1 K2]. rewrite K1 in E. inversion E; subst. apply R1 in M1. lia.
  - destruct Nb as [k2 [E2 M2]]. rewrite Na, E2. destruct (KA _ _ _ _ Ca) as [K1 K2]. rewrite K1. split; [discriminate|].
    split; [|discriminate]. intros E. inversion E; subst. apply R1 in M2. lia.
  - rewrite Na, Nb. destruct (KA _ _ _ _ Ca) as [K1 K2]. destruct (KA _ _ _ _ Cb) as [K3 K4]. rewrite K1, K3.
    split; [discriminate|]. split; intros E; inversion E; reflexivity.
Qed.

(** A field that was added gets a key; no other field of its selection set has it, unless the parent is an
    interface with a field of that name and there is another field with that name. *)
Theorem C79_extra_partial : forall v e def g, In v sets -> In e (map snd (v_fields v)) -> extra fields e def ->
  In g (map snd (v_fields v)) ->
  sent_key st e <> None /\ sent_key st e = q_key (field_at st e) /\
  (sent_key st g = sent_key st e -> g = e \/
    (of_interface sch (v_parent v) (d_name (definitions sch def)) /\
     exists h, In h (map snd (v_fields v)) /\ h <> e /\ has_name sch fields h (d_name (definitions sch def)) /\
       q_key (field_at st h) = sent_key st e)).
Proof.
  intros v e def g Hv He Ee Hg. destruct all_done as [B [G [F U]]].
  pose proof He as He'. apply in_map_iff in He as [[s e'] [E He]]. cbn in E. subst e'.
  assert (SE : sent_key st e = q_key (field_at st e)).
  { unfold sent_key. rewrite (b_extra _ _ _ B e (proj1 Ee)). reflexivity. }
  pose proof (f_extra _ _ _ _ _ (F v Hv) _ _ He Ee) as NN. cbn [snd] in NN.
  rewrite SE. split; [exact NN|]. split; [reflexivity|]. intros X.
  destruct (q_key (field_at st e)) as [k|] eqn:K; [|congruence].
  apply (f_separate _ _ _ _ _ (F v Hv) e def k g He' Ee K Hg).
  unfold sent_key in X. destruct (sub_at st g); [right | left]; exact X.
Qed.
End Properties.

(** With few keys and fields there always is a key left. *)
Theorem C79_enough : forall sch keys fields sets,
  List.length keys + List.length (flat_map v_fields sets) <= 256 -> adjust sch (initial keys fields) sets <> None.
Proof. intros. apply adjust_some. exact H. Qed.
(** A panic exactly when there is no key for the reason yet, the name is a key that may not be used, and all
    256 others are keys. *)
Theorem C79_panics : forall sch st used c id, generate sch st used c id = None <->
  (forall c', c = Some c' -> find_rename c' (s_renames st) = None) /\
  (exists key, index (text sch id) (s_keys st) = Some key /\ (c = None -> In key used)) /\
  (forall i, i < 256 -> In (("_" ++ text sch id ++ short_id id) ++ byte_hex i)%string (s_keys st)).
Proof.
  intros. rewrite generate_none. split; intros [H1 [H2 H3]]; (split; [exact H1|]; split; [exact H2|]).
  - intros i Hi. apply H3. unfold candidates. apply (in_map (fun i => (("_" ++ text sch id ++ short_id id) ++ byte_hex i)%string)).
    apply in_seq. lia.
  - intros s Hs. unfold candidates in Hs. apply in_map_iff in Hs as [i [<- Hi]]. apply H3. unfold bytes in Hi. apply in_seq in Hi. lia.
Qed.

(** * Examples *)
(** Names: 1 id, 2 name, 3 nickname.  Definitions: 0 User.id (another type in subgraph 7), 1 Cat.name, 2 Dog.name
    (another type in subgraph 7), 3 User.nickname, 4 User.name (another output type).  Types: 0 a union, 1 an object,
    2 an interface with [name]. *)
Definition some_schema : schema := {|
  definitions := fun d => match d with
    | 0 => {| d_name := 1; d_type := 20; d_distinct := [7] |}
    | 1 => {| d_name := 2; d_type := 21; d_distinct := [] |}
    | 2 => {| d_name := 2; d_type := 21; d_distinct := [7] |}
    | 3 => {| d_name := 3; d_type := 21; d_distinct := [] |}
    | _ => {| d_name := 2; d_type := 22; d_distinct := [] |}
    end;
  text := fun n => match n with 1%N => "id" | 2%N => "name" | _ => "nickname" end%string;
  is_object := fun t => Nat.eqb t 1;
  interface := fun t => if Nat.eqb t 2 then Some [2%N] else None
|}.
Definition asked (k d : nat) : qfield := {| q_key := Some k; q_def := Some d; q_args := 0 |}.
Definition added (d args : nat) : qfield := {| q_key := None; q_def := Some d; q_args := args |}.
Definition key_texts (st : state) (l : list nat) : list (option string) :=
  map (fun f => match sent_key st f with Some k => nth_error (s_keys st) k | None => None end) l.

(** [{ u { ... on User { id  x: id  __typename: nickname } } }], with an added [name] and an added [nickname]. *)
Definition some_keys : list string := ["id"; "x"; "__typename"; "nickname"]%string.
Definition some_fields : list qfield := [asked 0 0; asked 1 0; asked 2 3; added 4 0; added 3 0].
Definition some_set : selection := {| v_parent := 0; v_fields := [(7, 0); (7, 1); (7, 2); (7, 3); (7, 4)] |}.
Example C79_example :
  exists st, adjust some_schema (initial some_keys some_fields) [some_set] = Some st /\
    key_texts st [0; 1; 2; 3; 4] = map Some ["_id100"; "_id101"; "_nickname300"; "name"; "nickname"]%string /\
    well_formed some_keys some_fields [some_set] /\
    classified some_schema some_keys some_fields 0 7 0 (Renamed (CDistinct 0 0)) /\
    classified some_schema some_keys some_fields 0 7 2 (Renamed (CTypename 21)) /\
    extra some_fields 4 3.
Proof.
  eexists. split; [vm_compute; reflexivity|]. split; [vm_compute; reflexivity|]. split; [|split; [|split]].
  - split; [|split; [|split]].
    + apply no_dup_sound. reflexivity.
    + intros q k H E. repeat (destruct H as [<-|H]; [inversion E; cbn; lia|]). destruct H.
    + cbn. repeat constructor; cbn; lia.
    + intros v sf [<-|[]] H. repeat (destruct H as [<-|H]; [cbn; lia|]). destruct H.
  - apply By_type; [reflexivity|]. split; [reflexivity|]. split; [reflexivity | left; reflexivity].
  - apply (By_name some_schema some_keys some_fields 0 7 2 2 3); [reflexivity | reflexivity | | reflexivity].
    intros [_ [_ []]].
  - split; reflexivity.
Qed.

(** An added field gets the key of a field of the client with the same name and other arguments:
    [{ animal { name(lang: FR) } }] with an added [name(lang: EN)] becomes [{ animal { name(lang: FR) name(lang: EN) } }]. *)
Theorem C79_arguments_refuted : exists sch keys fields v st e g,
  well_formed keys fields [v] /\ adjust sch (initial keys fields) [v] = Some st /\
  In e (v_fields v) /\ In g (v_fields v) /\ fst e = fst g /\
  q_def (the_field fields (snd e)) = q_def (the_field fields (snd g)) /\
  q_args (the_field fields (snd e)) <> q_args (the_field fields (snd g)) /\
  sent_key st (snd e) = sent_key st (snd g) /\ sent_key st (snd e) <> None.
Proof.
  exists some_schema, ["name"%string], [asked 0 1; added 1 1], {| v_parent := 2; v_fields := [(7, 0); (7, 1)] |}.
  eexists. exists (7, 1), (7, 0).
  split; [|split; [vm_compute; reflexivity|]].
  - split; [|split; [|split]].
    + apply no_dup_sound. reflexivity.
    + intros q k H E. repeat (destruct H as [<-|H]; [inversion E; cbn; lia|]). destruct H.
    + cbn. repeat constructor; cbn; lia.
    + intros v sf [<-|[]] H. repeat (destruct H as [<-|H]; [cbn; lia|]). destruct H.
  - vm_compute. repeat split; auto; discriminate.
Qed.
(** ... or of a field that has another type in the subgraph, for which a field of the client would be renamed. *)
Theorem C79_types_refuted : exists sch keys fields v st e g de dg,
  well_formed keys fields [v] /\ adjust sch (initial keys fields) [v] = Some st /\
  In e (v_fields v) /\ In g (v_fields v) /\ fst e = fst g /\ is_object sch (v_parent v) = false /\
  q_def (the_field fields (snd e)) = Some de /\ In (fst e) (d_distinct (definitions sch de)) /\
  q_def (the_field fields (snd g)) = Some dg /\ ~ In (fst g) (d_distinct (definitions sch dg)) /\
  sent_key st (snd e) = sent_key st (snd g) /\ sent_key st (snd e) <> None.
Proof.
  exists some_schema, ["name"%string], [asked 0 1; added 2 0], {| v_parent := 2; v_fields := [(7, 0); (7, 1)] |}.
  eexists. exists (7, 1), (7, 0), 2, 1.
  split; [|split; [vm_compute; reflexivity|]].
  - split; [|split; [|split]].
    + apply no_dup_sound. reflexivity.
    + intros q k H E. repeat (destruct H as [<-|H]; [inversion E; cbn; lia|]). destruct H.
    + cbn. repeat constructor; cbn; lia.
    + intros v sf [<-|[]] H. repeat (destruct H as [<-|H]; [cbn; lia|]). destruct H.
  - vm_compute. repeat split; auto; try discriminate.
Qed.
(** An added field may have the key of a field in another selection set, with another definition and type: the
    sets of [{ ... on Cat { friend { name: nickname } } ... on Dog { friend { id } } }] are merged in the query of the
    subgraph, and if [name] is added to the second one it is called [name] there. *)
Theorem C79_sets_refuted : exists sch keys fields v w st e g de dg,
  well_formed keys fields [v; w] /\ adjust sch (initial keys fields) [v; w] = Some st /\
  In g (v_fields v) /\ In e (v_fields w) /\ fst e = fst g /\ v_parent v = v_parent w /\ is_object sch (v_parent v) = true /\
  extra fields (snd e) de /\ q_def (the_field fields (snd g)) = Some dg /\ d_type (definitions sch de) <> d_type (definitions sch dg) /\
  sent_key st (snd e) = sent_key st (snd g) /\ sent_key st (snd e) <> None.
Proof.
  exists some_schema, ["name"; "id"]%string, [asked 0 3; asked 1 0; added 4 0],
    {| v_parent := 1; v_fields := [(7, 0)] |}, {| v_parent := 1; v_fields := [(7, 1); (7, 2)] |}.
  eexists. exists (7, 2), (7, 0), 4, 3.
  split; [|split; [vm_compute; reflexivity|]].
  - split; [|split; [|split]].
    + apply no_dup_sound. reflexivity.
    + intros q k H E. repeat (destruct H as [<-|H]; [inversion E; cbn; lia|]). destruct H.
    + cbn. repeat constructor; cbn; lia.
    + intros v sf [<-|[<-|[]]] H; repeat (destruct H as [<-|H]; [cbn; lia|]); destruct H.
  - vm_compute. repeat split; auto; discriminate.
Qed.
(** A client asking 258 times for a field with another type in the subgraph, under different aliases, makes the
    gateway panic; 257 times is fine. *)
Definition aliases (n : nat) : list string := map (fun i => ("a" ++ short_id (N.of_nat i))%string) (seq 1 n).
Definition many (n : nat) : option state :=
  adjust some_schema (initial (aliases n) (map (fun i => asked i 0) (seq 0 n)))
    [{| v_parent := 0; v_fields := map (fun i => (7, i)) (seq 0 n) |}].
Theorem C79_panic_refuted : many 258 = None /\ many 257 <> None /\
  well_formed (aliases 258) (map (fun i => asked i 0) (seq 0 258)) [{| v_parent := 0; v_fields := map (fun i => (7, i)) (seq 0 258) |}].
Proof.
  split; [vm_compute; reflexivity|]. split; [vm_compute; discriminate|]. split; [|split; [|split]].
  - apply no_dup_sound. vm_compute. reflexivity.
  - intros q k H E. apply in_map_iff in H as [i [<- H]]. inversion E; subst. apply in_seq in H. unfold aliases.
    rewrite map_length, seq_length. lia.
  - cbn [flat_map v_fields]. rewrite app_nil_r, map_map. cbn [snd]. rewrite map_id. apply seq_NoDup.
  - intros v sf [<-|[]] H. cbn [v_fields] in H. apply in_map_iff in H as [i [<- H]]. apply in_seq in H. cbn [snd].
    rewrite map_length, seq_length. lia.
Qed.
