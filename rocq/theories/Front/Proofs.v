From Coq Require Import String Ascii List Bool Arith NArith ZArith Lia.
From Verif.Front Require Import Status Negotiate Serve Spec.
Import ListNotations.
Local Open Scope nat_scope.
Local Open Scope list_scope.

(** ** Operations *)
Lemma executed_app : forall a b, executed (a ++ b) = executed a ++ executed b.
Proof. intros a b. unfold executed. apply flat_map_app. Qed.
Lemma in_executed : forall l t o, In (EExec t o) l <-> In (t, o) (executed l).
Proof.
  intros l t o. unfold executed. rewrite in_flat_map. split.
  - intros H. exists (EExec t o). split; [exact H | left; reflexivity].
  - intros (e & H1 & H2). destruct e; cbn in H2; try contradiction. destruct H2 as [H2 | []]. injection H2 as -> ->. exact H1.
Qed.
Lemma prefix_refl : forall A (l : list A), prefix l l. Proof. intros A l. exists []. rewrite app_nil_r. reflexivity. Qed.
Lemma prefix_nil : forall A (l : list A), prefix [] l. Proof. intros A l. exists l. reflexivity. Qed.
Lemma prefix_app : forall A (a b c : list A), prefix b c -> prefix (a ++ b) (a ++ c).
Proof. intros A a b c (d & ->). exists d. rewrite app_assoc. reflexivity. Qed.
Lemma prefix_in : forall A (a b : list A) x, prefix a b -> In x a -> In x b.
Proof. intros A a b x (c & ->) H. apply in_or_app. left. exact H. Qed.

Section World.
Variable w : world.
(** [ready] with what the engine has computed of the request. *)
Definition can (t : token) (m s : bool) (o : op) : bool :=
  match w_rest w t o, w_parse w o with
  | None, inr Query => true
  | None, inr Mutation => m
  | None, inr Subscription => s
  | _, _ => false
  end.
Lemma single_executed : forall t m o, executed (fst (single w t m o)) = map (pair t) (filter (can t m false) [o]).
Proof.
  intros t m o. unfold single, can. cbn [filter]. destruct (w_parse w o) as [r | k]; [destruct (w_rest w t o); reflexivity |].
  destruct k, m, (w_rest w t o); reflexivity.
Qed.
Lemma several_executed : forall t m l pat, prefix (executed (fst (several w t m l pat))) (map (pair t) (filter (can t m false) l)) /\
  (pat = None -> executed (fst (several w t m l pat)) = map (pair t) (filter (can t m false) l) /\ exists rs, snd (several w t m l pat) = Some rs /\ List.length rs = List.length l).
Proof.
  intros t m. induction l as [| o l IH]; intros pat.
  - split; [apply prefix_nil |]. intros _. split; [reflexivity | exists []; split; reflexivity].
  - assert (F : filter (can t m false) (o :: l) = filter (can t m false) [o] ++ filter (can t m false) l) by (cbn [filter]; destruct (can t m false o); reflexivity).
    rewrite F, map_app, <- single_executed. cbn [several]. destruct pat as [[[| n] b] |].
    + split; [| discriminate]. cbn [fst]. destruct b; [| apply prefix_nil]. exists (map (pair t) (filter (can t m false) l)). reflexivity.
    + destruct (IH (Some (n, b))) as [IH1 _]. destruct (single w t m o) as [e r] eqn:Es. destruct (several w t m l (Some (n, b))) as [e' rs]. cbn [fst] in *. rewrite executed_app. split; [apply prefix_app, IH1 | discriminate].
    + destruct (IH None) as [IH1 IH2]. destruct (IH2 eq_refl) as (IH3 & rs & E & Hl). destruct (single w t m o) as [e r] eqn:Es. destruct (several w t m l None) as [e' rs']. cbn [fst snd] in *. rewrite executed_app. split; [apply prefix_app, IH1 |]. intros _. split; [rewrite IH3; reflexivity |]. exists (r :: rs). rewrite E. split; [reflexivity | cbn [List.length]; rewrite Hl; reflexivity].
Qed.
Lemma several_some : forall t m l pat rs, snd (several w t m l pat) = Some rs -> List.length rs = List.length l.
Proof.
  intros t m. induction l as [| o l IH]; intros pat rs H; cbn [several] in H; [injection H as <-; reflexivity |].
  destruct pat as [[[| n] b] |]; [discriminate | |].
  - destruct (single w t m o) as [e r]. specialize (IH (Some (n, b))). destruct (several w t m l (Some (n, b))) as [e' [rs' |]]; [| discriminate]. injection H as <-. cbn [List.length]. rewrite (IH rs' eq_refl). reflexivity.
  - destruct (single w t m o) as [e r]. specialize (IH None). destruct (several w t m l None) as [e' [rs' |]]; [| discriminate]. injection H as <-. cbn [List.length]. rewrite (IH rs' eq_refl). reflexivity.
Qed.
Lemma stream_executed : forall t m o, prefix (executed (fst (stream w t m o))) (map (pair t) (filter (can t m true) [o])) /\
  (w_patience w = None -> executed (fst (stream w t m o)) = map (pair t) (filter (can t m true) [o])).
Proof.
  intros t m o. unfold stream, can. cbn [filter].
  destruct (w_parse w o) as [r | k]; [destruct (w_rest w t o); split; try (intros _; reflexivity); apply prefix_nil |].
  destruct k, m, (w_rest w t o); cbn [andb negb fst]; (split; [| intros Hp; try rewrite Hp; reflexivity]); try apply prefix_nil; destruct (w_patience w) as [[[| n] b] |]; try apply prefix_refl; try apply prefix_nil; destruct b; first [apply prefix_refl | apply prefix_nil].
Qed.
End World.

Definition streams (f : format) : bool := match f with Streaming _ => true | Complete _ => false end.
Lemma well_formed_executed : forall cfg w t m f b,
  (executed (fst (well_formed cfg w t m f b)) = [] \/ batch_ok cfg f b) /\
  prefix (executed (fst (well_formed cfg w t m f b))) (map (pair t) (filter (can w t m (streams f)) (ops_of b))) /\
  (batch_ok cfg f b -> w_patience w = None -> executed (fst (well_formed cfg w t m f b)) = map (pair t) (filter (can w t m (streams f)) (ops_of b))).
Proof.
  intros cfg w t m f b. destruct b as [o | l].
  - split; [right; exact Logic.I |]. cbn [well_formed ops_of]. destruct f as [c | s]; cbn [streams].
    + destruct (several_executed w t m [o] (w_patience w)) as [H1 H2]. destruct (several w t m [o] (w_patience w)) as [e [rs |]]; (split; [exact H1 | intros _ Hp; exact (proj1 (H2 Hp))]).
    + destruct (stream_executed w t m o) as [H1 H2]. destruct (stream w t m o) as [e l]. split; [exact H1 | intros _ Hp; exact (H2 Hp)].
  - cbn [well_formed ops_of batch_ok]. destruct f as [c | s]; cbn [streams].
    + destruct (c_batching cfg) eqn:Eb; cbn [negb].
      * destruct (match c_batch_limit cfg with Some n => n <? List.length l | None => false end) eqn:El.
        -- split; [left; reflexivity |]. split; [apply prefix_nil |]. intros (_ & _ & H) _. destruct (c_batch_limit cfg) as [n |]; [| discriminate]. apply Nat.ltb_lt in El. specialize (H n eq_refl). lia.
        -- split.
           ++ right. split; [exists c; reflexivity |]. split; [reflexivity |]. intros n Hn. rewrite Hn in El. apply Nat.ltb_ge in El. exact El.
           ++ destruct (several_executed w t m l (w_patience w)) as [H1 H2]. destruct (several w t m l (w_patience w)) as [e [rs |]]; (split; [exact H1 | intros _ Hp; exact (proj1 (H2 Hp))]).
      * split; [left; reflexivity |]. split; [apply prefix_nil |]. intros (_ & H & _). discriminate.
    + split; [left; reflexivity |]. split; [apply prefix_nil |]. intros ((c & H) & _). discriminate.
Qed.

Lemma unpack_ready : forall w p f c m t o, unpack p = inr (f, c, m) -> can w t m (streams f) o = ready w p t f o.
Proof.
  intros w p f c m t o H. unfold unpack in H. destruct (extract_format (p_accept p)) as [f' |]; [| discriminate].
  unfold can, ready, may_mutate. destruct (p_method p); try discriminate.
  - injection H as -> <- <-. destruct (p_mcp p) as [[] |]; reflexivity.
  - destruct (extract_content (p_ctype p)); [| discriminate]. injection H as -> <- <-. destruct (p_mcp p) as [[] |]; reflexivity.
Qed.
Lemma filter_ext_in' : forall A (f g : A -> bool) l, (forall x, f x = g x) -> filter f l = filter g l.
Proof. intros A f g l H. induction l as [| x l IH]; [reflexivity |]. cbn [filter]. rewrite H, IH. reflexivity. Qed.

Lemma engine_executed : forall cfg w t m f p c, unpack p = inr (f, c, m) ->
  (executed (fst (engine_execute cfg w t m f p c)) = [] \/
   exists b, asks w p b /\ w_limit w = true /\ w_early w = false /\ batch_ok cfg f b /\ prefix (executed (fst (engine_execute cfg w t m f p c))) (map (pair t) (filter (ready w p t f) (ops_of b)))) /\
  (forall b, asks w p b -> w_limit w = true -> w_early w = false -> batch_ok cfg f b -> w_patience w = None ->
    executed (fst (engine_execute cfg w t m f p c)) = map (pair t) (filter (ready w p t f) (ops_of b))).
Proof.
  intros cfg w t m f p c Hu. assert (Hr := fun o => unpack_ready w p f c m t o Hu).
  assert (Hx : forall b, asks w p b <-> extract w p c = inr b).
  { intro b. unfold unpack in Hu. destruct (extract_format (p_accept p)); [| discriminate]. unfold asks, extract. destruct (p_method p) eqn:Em; try discriminate.
    - destruct (w_params w (p_query p)) as [o |]; split.
      + intros [[_ (o' & H1 & ->)] | [H _]]; [injection H1 as <-; reflexivity | discriminate].
      + intros H. injection H as <-. left. split; [reflexivity | exists o; split; reflexivity].
      + intros [[_ (o' & H1 & _)] | [H _]]; discriminate.
      + discriminate.
    - destruct (extract_content (p_ctype p)) as [c' |]; [| discriminate]. injection Hu as _ -> _. destruct (w_body w) as [s | bytes].
      + split; [intros [[H _] | [_ (bytes & H & _)]]; discriminate | discriminate].
      + split.
        * intros [[H _] | [_ (b' & H & H')]]; [discriminate |]. injection H as <-. destruct H' as [[H1 H2] | [H1 H2]]; injection H1 as ->; rewrite H2; reflexivity.
        * intros H. right. split; [reflexivity |]. exists bytes. split; [reflexivity |]. destruct c; [left | right]; (split; [reflexivity |]); [destruct (w_json w bytes) | destruct (w_cbor w bytes)]; try discriminate; injection H as <-; reflexivity. }
  unfold engine_execute. split.
  - destruct (w_early w) eqn:Ee; [left; reflexivity |]. destruct (extract w p c) as [r | b] eqn:Ex; [left; destruct (w_limit w); reflexivity |].
    destruct (w_limit w) eqn:El; [| left; reflexivity]. destruct (well_formed_executed cfg w t m f b) as (W1 & W2 & _). destruct (well_formed cfg w t m f b) as [e a] eqn:Ew. cbn [fst] in *.
    change (executed ([ELimit; ERead] ++ e)) with (executed e). destruct W1 as [W1 | W1]; [left; exact W1 |]. right. exists b. split; [apply Hx; reflexivity |]. split; [reflexivity |]. split; [reflexivity |]. split; [exact W1 |].
    rewrite <- (filter_ext_in' _ _ _ _ Hr). exact W2.
  - intros b Ha Hl He Hb Hp. apply Hx in Ha. rewrite He, Ha, Hl. destruct (well_formed_executed cfg w t m f b) as (_ & _ & W3). destruct (well_formed cfg w t m f b) as [e a] eqn:Ew. cbn [fst] in *.
    change (executed ([ELimit; ERead] ++ e)) with (executed e). rewrite <- (filter_ext_in' _ _ _ _ Hr). exact (W3 Hb Hp).
Qed.

Lemma asks_unpack : forall w p b f, asks w p b -> extract_format (p_accept p) = Some f -> exists c m, unpack p = inr (f, c, m).
Proof.
  intros w p b f [[E _] | [E (bytes & _ & H)]] Hf; unfold unpack; rewrite Hf, E.
  - eexists. eexists. reflexivity.
  - destruct H as [[H _] | [H _]]; rewrite H; eexists; eexists; reflexivity.
Qed.
Lemma route_executed : forall cfg w t key p,
  (executed (fst (route cfg w t key p)) = [] \/
   exists f b, extract_format (p_accept p) = Some f /\ asks w p b /\ w_limit w = true /\ w_early w = false /\ batch_ok cfg f b /\
     (forall k, key = Some k -> w_contract w k = None) /\
     prefix (executed (fst (route cfg w t key p))) (map (pair t) (filter (ready w p t f) (ops_of b)))) /\
  (forall f b, extract_format (p_accept p) = Some f -> asks w p b -> w_limit w = true -> w_early w = false -> batch_ok cfg f b ->
    (forall k, key = Some k -> w_contract w k = None) -> w_patience w = None ->
    executed (fst (route cfg w t key p)) = map (pair t) (filter (ready w p t f) (ops_of b))).
Proof.
  intros cfg w t key p.
  assert (K : (executed (fst (contract_execute cfg w t key p)) = [] \/
   exists f b, extract_format (p_accept p) = Some f /\ asks w p b /\ w_limit w = true /\ w_early w = false /\ batch_ok cfg f b /\
     (forall k, key = Some k -> w_contract w k = None) /\
     prefix (executed (fst (contract_execute cfg w t key p))) (map (pair t) (filter (ready w p t f) (ops_of b)))) /\
  (forall f b, extract_format (p_accept p) = Some f -> asks w p b -> w_limit w = true -> w_early w = false -> batch_ok cfg f b ->
    (forall k, key = Some k -> w_contract w k = None) -> w_patience w = None ->
    executed (fst (contract_execute cfg w t key p)) = map (pair t) (filter (ready w p t f) (ops_of b)))).
  { unfold contract_execute. split.
    - destruct (unpack p) as [[r f] | [[f c] m]] eqn:Eu; [left; reflexivity |].
      assert (Ef : extract_format (p_accept p) = Some f).
      { unfold unpack in Eu. destruct (extract_format (p_accept p)) as [f' |]; [| discriminate]. destruct (p_method p); try discriminate; [| destruct (extract_content (p_ctype p)); [| discriminate]]; injection Eu as -> _ _; reflexivity. }
      destruct (engine_executed cfg w t m f p c Eu) as [G _]. destruct (engine_execute cfg w t m f p c) as [e a]. cbn [fst] in G. destruct key as [k |].
      + destruct (w_contract w k) eqn:Ek; [left; reflexivity |]. cbn [fst]. change (executed (EContract k :: e)) with (executed e). destruct G as [G | (b & G1 & G2 & G3 & G4 & G5)]; [left; exact G |]. right. exists f, b. repeat (split; [assumption |]). split; [| exact G5]. intros k' H. injection H as <-. exact Ek.
      + destruct G as [G | (b & G1 & G2 & G3 & G4 & G5)]; [left; exact G |]. right. exists f, b. repeat (split; [assumption |]). split; [discriminate | exact G5].
    - intros f b Hf Ha Hl He Hb Hk Hp. destruct (asks_unpack w p b f Ha Hf) as (c & m & Eu). rewrite Eu. destruct (engine_executed cfg w t m f p c Eu) as [_ G]. specialize (G b Ha Hl He Hb Hp). destruct (engine_execute cfg w t m f p c) as [e a]. cbn [fst] in G. destruct key as [k |]; [rewrite (Hk k eq_refl) |]; exact G. }
  unfold route. destruct K as [K1 K2]. destruct (p_method p) eqn:Em; try (split; assumption); (split; [left; reflexivity |]); intros f b _ Ha; exfalso; destruct Ha as [[E _] | [E _]]; congruence.
Qed.

Lemma authenticate_token : forall cfg w p e p' r, authenticate cfg w p = (e, p', r) -> executed e = [] /\ (forall t, r = inr t <-> token_ok cfg w p p' t).
Proof.
  intros cfg w p e p' r H. unfold authenticate in H. unfold token_ok. destruct (c_auth cfg).
  - destruct (w_auth w p) as [p1 r1] eqn:Ew. injection H as <- <- <-. split; [reflexivity |]. intro t. cbn [fst snd]. destruct r1 as [er | t1].
    + destruct (c_default cfg) as [[] |] eqn:Ed; split; try discriminate.
      * intros (_ & [H | (_ & H & _)]); discriminate.
      * intros H. injection H as <-. split; [reflexivity |]. right. split; [exists er; reflexivity | split; reflexivity].
      * intros (_ & [H | (_ & _ & ->)]); [discriminate | reflexivity].
      * intros (_ & [H | (_ & H & _)]); discriminate.
    + split; [intros H; injection H as <-; split; [reflexivity | left; reflexivity] |]. intros (_ & [H | ((er & H) & _)]); [exact H | discriminate].
  - injection H as <- <- <-. split; [reflexivity |]. intro t. destruct (c_default cfg) as [[] |]; split; try discriminate.
    + intros (_ & H & _). congruence.
    + intros H. injection H as <-. split; [reflexivity |]. split; [discriminate | reflexivity].
    + intros (_ & _ & ->). reflexivity.
    + intros H. injection H as <-. split; [reflexivity |]. split; [discriminate | reflexivity].
    + intros (_ & _ & ->). reflexivity.
Qed.

Lemma serve_executed : forall cfg w p,
  (executed (fst (serve cfg w p)) = [] \/
   exists p2 t f b, passed cfg w p p2 t f b /\ batch_ok cfg f b /\ prefix (executed (fst (serve cfg w p))) (map (pair t) (filter (ready w p2 t f) (ops_of b)))) /\
  (forall p2 t f b, passed cfg w p p2 t f b -> batch_ok cfg f b -> w_patience w = None ->
    executed (fst (serve cfg w p)) = map (pair t) (filter (ready w p2 t f) (ops_of b))).
Proof.
  intros cfg w p. unfold serve.
  assert (O : p_method p = OPTIONS \/ p_method p <> OPTIONS) by (destruct (p_method p); try (right; discriminate); left; reflexivity).
  destruct O as [O | O]; [rewrite O; split; [left; reflexivity |]; intros p2 t f b P; destruct (pass_options _ _ _ _ _ _ _ P O) |].
  set (X := if c_csrf cfg && negb (p_csrf p) then ([], Some (Plain 403)) else _).
  assert (E : match p_method p with OPTIONS => ([], Some (Plain 200)) | _ => X end = X) by (destruct (p_method p); try reflexivity; contradiction).
  rewrite E. clear E. unfold X. clear X.
  destruct (c_csrf cfg && negb (p_csrf p)) eqn:Ec.
  { split; [left; reflexivity |]. intros p2 t f b P. apply andb_true_iff in Ec as [E1 E2]. rewrite (pass_csrf _ _ _ _ _ _ _ P E1) in E2. discriminate. }
  assert (Hc : c_csrf cfg = true -> p_csrf p = true) by (intro H; rewrite H in Ec; destruct (p_csrf p); [reflexivity | discriminate]).
  destruct (w_on_request w p) as [er | [p1 key]] eqn:Eh.
  { split; [left; reflexivity |]. intros p2 t f b P. destruct (pass_hook _ _ _ _ _ _ _ P) as (p1 & key & H & _). congruence. }
  destruct (authenticate cfg w (rehead p p1)) as [[e1 p2] r] eqn:Ea. destruct (authenticate_token _ _ _ _ _ _ Ea) as [A1 A2].
  assert (U : forall p2' t, token_ok cfg w (rehead p p1) p2' t -> p2' = p2).
  { intros p2' t H. unfold authenticate in Ea. unfold token_ok in H. destruct (c_auth cfg); [destruct (w_auth w (rehead p p1)) as [q r1]; injection Ea as _ <- _; exact (proj1 H) | injection Ea as _ <- _; exact (proj1 H)]. }
  destruct r as [er | t].
  - split.
    + left. change (executed (EHook :: e1)) with (executed e1). exact A1.
    + intros p2' t f b P. destruct (pass_hook _ _ _ _ _ _ _ P) as (p1' & key' & H & T & _). rewrite Eh in H. injection H as <- <-. rewrite (U _ _ T) in T. apply A2 in T. discriminate.
  - set (key' := match key with Some k => Some k | None => c_contract cfg end).
    assert (Ex : executed (fst (match route cfg w t key' p2 with
       | (e, Some a) => (EHook :: e1 ++ e ++ [EHookEnd], if w_on_response w then Some a else err w (match extract_format (p_accept p) with Some f => f | None => Complete Json end) (Refused 500 [ExtensionError] [] 0))
       | (e, None) => (EHook :: e1 ++ e, None) end)) = executed (fst (route cfg w t key' p2))).
    { destruct (route cfg w t key' p2) as [e [a |]]; cbn [fst].
      - change (EHook :: e1 ++ e ++ [EHookEnd]) with ([EHook] ++ e1 ++ e ++ [EHookEnd]). rewrite !executed_app, A1. cbn. rewrite app_nil_r. reflexivity.
      - change (EHook :: e1 ++ e) with ([EHook] ++ e1 ++ e). rewrite !executed_app, A1. reflexivity. }
    rewrite Ex. destruct (route_executed cfg w t key' p2) as [R1 R2]. split.
    + destruct R1 as [R1 | (f & b & H1 & H2 & H3 & H4 & H5 & H6 & H7)]; [left; exact R1 |]. right. exists p2, t, f, b. split; [| split; assumption].
      constructor; try assumption. exists p1, key. split; [exact Eh |]. split; [apply A2; reflexivity | exact H6].
    + intros p2' t' f b P Hb Hp. destruct (pass_hook _ _ _ _ _ _ _ P) as (p1' & key2 & H & T & Hk). rewrite Eh in H. injection H as <- <-.
      assert (p2' = p2) as -> by exact (U _ _ T). apply A2 in T. injection T as <-. apply R2; try assumption; [exact (pass_accept _ _ _ _ _ _ _ P) | exact (pass_request _ _ _ _ _ _ _ P) | exact (pass_limit _ _ _ _ _ _ _ P) | exact (pass_early _ _ _ _ _ _ _ P)].
Qed.
