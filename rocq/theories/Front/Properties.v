From Coq Require Import String Ascii List Bool Arith NArith ZArith Lia.
From Verif.Front Require Import Status Negotiate Serve Spec Proofs More.
Import ListNotations.
Local Open Scope nat_scope.
Local Open Scope list_scope.

(** * C82: what has to happen before an operation is executed *)

(** An operation is only executed if the request has passed the check against forged requests, the hook, the
    authentication, the contract, the limiter and the readers, with the token of the authentication, and only if it is ready:
    it was parsed and prepared, mutations came by POST and subscriptions are streamed. *)
Theorem C82_gate : forall cfg w p t o, In (EExec t o) (fst (serve cfg w p)) ->
  exists p2 f b, passed cfg w p p2 t f b /\ batch_ok cfg f b /\ In o (ops_of b) /\ ready w p2 t f o = true.
Proof.
  intros cfg w p t o H. apply in_executed in H. destruct (proj1 (serve_executed cfg w p)) as [E | (p2 & t' & f & b & P & B & (c & X))]; [rewrite E in H; destruct H |].
  assert (G : In (t, o) (map (pair t') (filter (ready w p2 t' f) (ops_of b)))) by (rewrite X; apply in_or_app; left; exact H).
  apply in_map_iff in G as (o' & G1 & G2). injection G1 as -> ->. apply filter_In in G2 as [G2 G3]. exists p2, f, b. split; [exact P |]. split; [exact B |]. split; assumption.
Qed.
(** Conversely all of them are executed, once and in order, if no timeout interferes. *)
Theorem C82_all : forall cfg w p p2 t f b, passed cfg w p p2 t f b -> batch_ok cfg f b -> w_patience w = None ->
  executed (fst (serve cfg w p)) = map (pair t) (filter (ready w p2 t f) (ops_of b)).
Proof. intros cfg w p. exact (proj2 (serve_executed cfg w p)). Qed.
(** With a timeout, some of the first are. *)
Theorem C82_prefix : forall cfg w p p2 t f b, passed cfg w p p2 t f b ->
  prefix (executed (fst (serve cfg w p))) (map (pair t) (filter (ready w p2 t f) (ops_of b))).
Proof.
  intros cfg w p p2 t f b P. destruct (proj1 (serve_executed cfg w p)) as [E | (p2' & t' & f' & b' & P' & B & X)]; [rewrite E; apply prefix_nil |].
  destruct (pass_hook _ _ _ _ _ _ _ P) as (p1 & key & H1 & H2 & _). destruct (pass_hook _ _ _ _ _ _ _ P') as (p1' & key' & H1' & H2' & _).
  rewrite H1 in H1'. injection H1' as <- <-.
  assert (p2' = p2 /\ t' = t) as [-> ->].
  { unfold token_ok in H2, H2'. destruct (c_auth cfg).
    - destruct H2 as [-> H2], H2' as [-> H2']. split; [reflexivity |]. destruct H2 as [H2 | ((e & H2) & _ & ->)], H2' as [H2' | ((e' & H2') & _ & ->)]; try congruence.
    - destruct H2 as (-> & _ & ->), H2' as (-> & _ & ->). split; reflexivity. }
  assert (f' = f) as -> by (assert (A := pass_accept _ _ _ _ _ _ _ P); rewrite (pass_accept _ _ _ _ _ _ _ P') in A; injection A as ->; reflexivity).
  assert (b' = b) as ->; [| exact X].
  destruct (pass_request _ _ _ _ _ _ _ P) as [[M (o & A1 & ->)] | [M (x & A1 & A2)]], (pass_request _ _ _ _ _ _ _ P') as [[M' (o' & A1' & ->)] | [M' (x' & A1' & A2')]]; try congruence.
  rewrite A1 in A1'. injection A1' as <-. destruct A2 as [[A2 A3] | [A2 A3]], A2' as [[A2' A3'] | [A2' A3']]; congruence.
Qed.
(** A request that a page may send to another origin without asking does not execute mutations, and if it is a POST or HEAD
    it executes nothing, unless hooks or authentication replace the content type. *)
Theorem C82_simple : forall cfg w p, simple_request p ->
  (forall p' key, w_on_request w p = inr (p', key) -> p_ctype p' = p_ctype p) -> (forall q, p_ctype (fst (w_auth w q)) = p_ctype q) ->
  (forall t o, In (EExec t o) (fst (serve cfg w p)) -> p_method p = GET /\ w_parse w o <> inr Mutation).
Proof.
  intros cfg w p Hs Hh Ha t o H. destruct (C82_gate _ _ _ _ _ H) as (p2 & f & b & P & B & _ & R). destruct (pass_hook _ _ _ _ _ _ _ P) as (p1 & key & H1 & H2 & _).
  assert (E : p_method p2 = p_method p /\ p_ctype p2 = p_ctype p).
  { unfold token_ok in H2. destruct (c_auth cfg); destruct H2 as [-> _]; cbn [rehead p_method p_ctype]; (split; [reflexivity |]); [rewrite Ha; cbn [rehead p_ctype] |]; exact (Hh _ _ H1). }
  destruct E as [E1 E2]. assert (G : p_method p = GET).
  { destruct (pass_request _ _ _ _ _ _ _ P) as [[M _] | [M (x & _ & A)]]; [congruence |]. exfalso. rewrite E1 in M. unfold simple_request in Hs. rewrite M in Hs. rewrite E2 in A.
    destruct Hs as [Hs | (v & Hs & Sf)]; rewrite Hs in A; [destruct A as [[A _] | [A _]]; discriminate |]. cbn [extract_content] in A. rewrite before_until in A.
    unfold safelisted, media_type in Sf. destruct A as [[A _] | [A _]].
    - destruct (String.eqb (until_semicolon v) "application/json") eqn:X; [apply String.eqb_eq in X; rewrite X in Sf; cbn in Sf; destruct Sf as [Sf | [Sf | Sf]]; discriminate |]. destruct (String.eqb (until_semicolon v) "application/cbor"); discriminate.
    - destruct (String.eqb (until_semicolon v) "application/json") eqn:X; [discriminate |]. destruct (String.eqb (until_semicolon v) "application/cbor") eqn:Y; [| discriminate]. apply String.eqb_eq in Y. rewrite Y in Sf. cbn in Sf. destruct Sf as [Sf | [Sf | Sf]]; discriminate. }
  split; [exact G |]. intro M. unfold ready, may_mutate in R. rewrite M, E1, G in R. destruct (w_rest w t o); discriminate.
Qed.
(** A request of another method than GET, HEAD and POST passes the hooks and the authentication only: it isn't counted by the
    limiter, no contract is looked up, its body isn't read; and what passes is answered with 405. *)
Theorem C82_method : forall cfg w p n, p_method p = OtherMethod n ->
  (forall e, In e (fst (serve cfg w p)) -> e = EHook \/ e = EAuth \/ e = EHookEnd) /\
  (forall p1 key p2 t, (c_csrf cfg = true -> p_csrf p = true) -> w_on_request w p = inr (p1, key) -> token_ok cfg w (rehead p p1) p2 t -> w_on_response w = true ->
     snd (serve cfg w p) = Some (Plain 405)).
Proof.
  intros cfg w p n M. unfold serve. rewrite M. split.
  - intros e H. destruct (c_csrf cfg && negb (p_csrf p)); [destruct H |]. destruct (w_on_request w p) as [er | [p1 key]]; [destruct H as [<- | []]; left; reflexivity |].
    destruct (authenticate cfg w (rehead p p1)) as [[e1 p2] r] eqn:Ea.
    assert (A : (forall x, In x e1 -> x = EAuth) /\ p_method p2 = OtherMethod n).
    { unfold authenticate in Ea. destruct (c_auth cfg); [destruct (w_auth w (rehead p p1)) as [q r1] |]; injection Ea as <- <- _; (split; [| exact M]); intros x X; [destruct X as [<- | []]; reflexivity | destruct X]. }
    destruct A as [A B]. destruct r as [er | t]; [destruct H as [<- | H]; [left; reflexivity | right; left; exact (A _ H)] |].
    unfold route in H. rewrite B in H. destruct H as [<- | H]; [left; reflexivity |]. apply in_app_or in H as [H | H]; [right; left; exact (A _ H) |]. destruct H as [<- | []]. right; right; reflexivity.
  - intros p1 key p2 t Hc Hh T R. assert (E : c_csrf cfg && negb (p_csrf p) = false) by (destruct (c_csrf cfg); [rewrite Hc by reflexivity |]; reflexivity).
    rewrite E, Hh. destruct (authenticate cfg w (rehead p p1)) as [[e1 p3] r] eqn:Ea. destruct (authenticate_token _ _ _ _ _ _ Ea) as [_ A2].
    assert (p3 = p2 /\ p_method p2 = OtherMethod n) as [-> B].
    { unfold authenticate in Ea. unfold token_ok in T. destruct (c_auth cfg); [destruct (w_auth w (rehead p p1)) as [q r1] |]; injection Ea as _ <- _; destruct T as [-> _]; (split; [reflexivity | exact M]). }
    apply A2 in T. subst r. unfold route. rewrite B, R. reflexivity.
Qed.
(** With the protection on, a request without the header has no effect at all. *)
Theorem C82_csrf : forall cfg w p, c_csrf cfg = true -> p_csrf p = false -> fst (serve cfg w p) = [].
Proof. intros cfg w p H1 H2. unfold serve. rewrite H1, H2. destruct (p_method p); reflexivity. Qed.
(** The hook, the authentication, the contract, the limiter and the reader, each at most once, in this order and before
    operations; the hook for responses once at the end if there is more than the authentication. *)
Theorem C82_order : forall cfg w p, fst (serve cfg w p) = [] \/ fst (serve cfg w p) = [EHook] \/ in_order cfg (fst (serve cfg w p)).
Proof.
  intros cfg w p. unfold serve.
  assert (O : p_method p = OPTIONS \/ p_method p <> OPTIONS) by (destruct (p_method p); try (right; discriminate); left; reflexivity).
  destruct O as [O | O]; [rewrite O; left; reflexivity |].
  set (X := if c_csrf cfg && negb (p_csrf p) then ([], Some (Plain 403)) else _).
  assert (E : match p_method p with OPTIONS => ([], Some (Plain 200)) | _ => X end = X) by (destruct (p_method p); try reflexivity; contradiction).
  rewrite E. clear E. unfold X. clear X. destruct (c_csrf cfg && negb (p_csrf p)); [left; reflexivity |]. right.
  destruct (w_on_request w p) as [er | [p1 key]]; [left; reflexivity |]. right.
  assert (A : exists p2 r, authenticate cfg w (rehead p p1) = ((if c_auth cfg then [EAuth] else []), p2, r)).
  { unfold authenticate. destruct (c_auth cfg); [destruct (w_auth w (rehead p p1)) as [q r] |]; eexists; eexists; reflexivity. }
  destruct A as (p2 & [er | t] & ->).
  - exists (if c_auth cfg then [EAuth] else []), [], [], [], []. cbn [fst exec_effects map app]. rewrite app_nil_r. split; [reflexivity |]. split; [reflexivity |]. split; [left; reflexivity |]. split; [left; reflexivity |]. split; [left; reflexivity |]. split; [| split]; intro C; contradiction.
  - set (k' := match key with Some k => Some k | None => c_contract cfg end). destruct (route_order cfg w t k' p2) as (ct & rd & ops & R1 & R2 & R3 & R4). destruct (route_some cfg w t k' p2) as (a & S1).
    destruct (route cfg w t k' p2) as [e a']. cbn [fst snd] in *. rewrite S1. exists (if c_auth cfg then [EAuth] else []), ct, rd, ops, [EHookEnd]. rewrite R1. cbn [fst]. rewrite <- !app_assoc. split; [reflexivity |]. split; [reflexivity |]. split; [exact R2 |]. split; [exact R3 |]. split; [right; reflexivity |]. split; [reflexivity |]. split; [reflexivity | exact R4].
Qed.
(** There always is an answer: the code behind the unreachable formats isn't reached. *)
Theorem C82_answered : forall cfg w p, exists a, snd (serve cfg w p) = Some a.
Proof.
  intros cfg w p. unfold serve.
  assert (O : p_method p = OPTIONS \/ p_method p <> OPTIONS) by (destruct (p_method p); try (right; discriminate); left; reflexivity).
  destruct O as [O | O]; [rewrite O; eexists; reflexivity |].
  set (X := if c_csrf cfg && negb (p_csrf p) then ([], Some (Plain 403)) else _).
  assert (E : match p_method p with OPTIONS => ([], Some (Plain 200)) | _ => X end = X) by (destruct (p_method p); try reflexivity; contradiction).
  rewrite E. clear E. unfold X. clear X. destruct (c_csrf cfg && negb (p_csrf p)); [eexists; reflexivity |].
  set (f := match extract_format (p_accept p) with Some f => f | None => Complete Json end).
  assert (Hf : sane f) by (unfold f; destruct (extract_format (p_accept p)) as [f' |] eqn:Ef; [intros ->; exact (extract_no_websocket _ Ef) | discriminate]).
  destruct (w_on_request w p) as [er | [p1 key]]; [apply err_some, Hf |].
  destruct (authenticate cfg w (rehead p p1)) as [[e1 p2] [er | t]]; [apply err_some, Hf |].
  set (k' := match key with Some k => Some k | None => c_contract cfg end). destruct (route_some cfg w t k' p2) as (a & S1). destruct (route cfg w t k' p2) as [e a']. cbn [snd] in *. rewrite S1.
  destruct (w_on_response w); [exists a; reflexivity | apply err_some, Hf].
Qed.
Lemma single_answer : forall w p f c m t o, unpack p = inr (f, c, m) -> answer_of w p t o (snd (single w t m o)).
Proof.
  intros w p f c m t o H. assert (M : m = may_mutate p).
  { unfold unpack in H. destruct (extract_format (p_accept p)); [| discriminate]. unfold may_mutate. destruct (p_method p); try discriminate; [| destruct (extract_content (p_ctype p)); [| discriminate]]; injection H as _ _ <-; destruct (p_mcp p) as [[] |]; reflexivity. }
  subst m. unfold single, answer_of. destruct (w_parse w o) as [r | k]; [left; reflexivity |]. right. exists k. split; [reflexivity |].
  destruct k; cbn [andb negb].
  - right. split; [discriminate |]. destruct (w_rest w t o) as [r |]; [left; reflexivity |]. right. split; [reflexivity |]. right. split; [discriminate | reflexivity].
  - destruct (may_mutate p); cbn [negb].
    + right. split; [reflexivity |]. destruct (w_rest w t o) as [r |]; [left; reflexivity |]. right. split; [reflexivity |]. right. split; [discriminate | reflexivity].
    + left. split; [reflexivity | split; reflexivity].
  - right. split; [discriminate |]. destruct (w_rest w t o) as [r |]; [left; reflexivity |]. right. split; [reflexivity |]. left. split; reflexivity.
Qed.
Lemma several_answers : forall w p f c m t l, unpack p = inr (f, c, m) -> exists rs, snd (several w t m l None) = Some rs /\ Forall2 (answer_of w p t) l rs.
Proof.
  intros w p f c m t l H. induction l as [| o l (rs & E & IH)]; [exists []; split; [reflexivity | constructor] |]. cbn [several]. assert (A := single_answer w p f c m t o H).
  destruct (single w t m o) as [e r], (several w t m l None) as [e' rs']. cbn [snd] in *. subst rs'. exists (r :: rs). split; [reflexivity | constructor; assumption].
Qed.
(** Each operation of a batch has its answer, in the order of the request. *)
Theorem C82_batch : forall cfg w p p2 t c l, passed cfg w p p2 t (Complete c) (Batch l) -> batch_ok cfg (Complete c) (Batch l) ->
  w_patience w = None -> w_on_response w = true -> (forall r, w_ser w r = true) ->
  exists h rs, snd (serve cfg w p) = Some (Graphql h) /\ h_body h = Many rs /\ Forall2 (answer_of w p2 t) l rs /\ h_ctype h = ctype_of c.
Proof.
  intros cfg w p p2 t c l P (_ & B1 & B2) Hp Hr Hs. destruct (pass_hook _ _ _ _ _ _ _ P) as (p1 & key & H1 & H2 & H3).
  assert (M : p_method p2 = p_method p) by (unfold token_ok in H2; destruct (c_auth cfg); destruct H2 as [-> _]; reflexivity).
  destruct (asks_unpack w p2 _ _ (pass_request _ _ _ _ _ _ _ P) (pass_accept _ _ _ _ _ _ _ P)) as (ct & m & Eu).
  destruct (several_answers w p2 _ _ _ t l Eu) as (rs & E1 & E2).
  assert (Hh : exists h, http_batch (w_ser w) c rs = Some h /\ h_body h = Many rs /\ h_ctype h = ctype_of c).
  { unfold http_batch. replace (forallb (w_ser w) rs) with true by (symmetry; apply forallb_forall; intros x _; apply Hs). destruct (batch_some c rs 200%N) as (s & ->). eexists. split; [reflexivity | split; reflexivity]. }
  destruct Hh as (h & Hh & Hb & Hc).
  assert (W : snd (well_formed cfg w t m (Complete c) (Batch l)) = Some (Graphql h)).
  { cbn [well_formed]. rewrite B1. cbn [negb]. replace (match c_batch_limit cfg with Some n => n <? List.length l | None => false end) with false
      by (destruct (c_batch_limit cfg) as [n |]; [symmetry; apply Nat.ltb_ge, B2; reflexivity | reflexivity]).
    rewrite Hp. destruct (several w t m l None) as [e rs']. cbn [snd] in E1. subst rs'. cbn [snd]. rewrite Hh. reflexivity. }
  assert (X : extract w p2 ct = inr (Batch l)).
  { destruct (pass_request _ _ _ _ _ _ _ P) as [[_ (o & _ & H)] | [Mp (x & A1 & A2)]]; [discriminate |]. unfold unpack in Eu. rewrite (pass_accept _ _ _ _ _ _ _ P), Mp in Eu. unfold extract. rewrite Mp, A1.
    destruct A2 as [[A2 A3] | [A2 A3]]; rewrite A2 in Eu; injection Eu as <- _; rewrite A3; reflexivity. }
  assert (G : snd (engine_execute cfg w t m (Complete c) p2 ct) = Some (Graphql h)).
  { unfold engine_execute. rewrite (pass_early _ _ _ _ _ _ _ P), X, (pass_limit _ _ _ _ _ _ _ P). destruct (well_formed cfg w t m (Complete c) (Batch l)). exact W. }
  set (k' := match key with Some k => Some k | None => c_contract cfg end) in *.
  assert (R : snd (route cfg w t k' p2) = Some (Graphql h)).
  { unfold route. assert (Q : snd (contract_execute cfg w t k' p2) = Some (Graphql h)).
    { unfold contract_execute. rewrite Eu. destruct k' as [k |]; [rewrite (H3 k eq_refl) | exact G]. destruct (engine_execute cfg w t m (Complete c) p2 ct). exact G. }
    destruct (pass_request _ _ _ _ _ _ _ P) as [[-> _] | [-> _]]; exact Q. }
  exists h, rs. split; [| split; [exact Hb | split; [exact E2 | exact Hc]]].
  unfold serve. assert (O := pass_options _ _ _ _ _ _ _ P).
  set (X2 := if c_csrf cfg && negb (p_csrf p) then ([], Some (Plain 403)) else _).
  assert (E : match p_method p with OPTIONS => ([], Some (Plain 200)) | _ => X2 end = X2) by (destruct (p_method p); try reflexivity; contradiction).
  rewrite E. clear E. unfold X2. clear X2. replace (c_csrf cfg && negb (p_csrf p)) with false by (destruct (c_csrf cfg) eqn:Ec; [rewrite (pass_csrf _ _ _ _ _ _ _ P Ec) |]; reflexivity).
  rewrite H1. destruct (authenticate cfg w (rehead p p1)) as [[e1 q] r] eqn:Ea. destruct (authenticate_token _ _ _ _ _ _ Ea) as [_ A2].
  assert (U : p2 = q).
  { unfold authenticate in Ea. unfold token_ok in H2. destruct (c_auth cfg); [destruct (w_auth w (rehead p p1)) as [q' r1]; injection Ea as _ <- _; exact (proj1 H2) | injection Ea as _ <- _; exact (proj1 H2)]. }
  subst q. apply A2 in H2. subst r. fold k'. destruct (route cfg w t k' p2) as [e a']. cbn [snd] in R. subst a'. rewrite Hr. reflexivity.
Qed.

(** Examples. *)
Definition plain_parts : parts :=
  {| p_method := POST; p_csrf := false; p_accept := []; p_ctype := ["application/json"%string]; p_mcp := None; p_query := 0; p_rest := 0 |}.
Definition basic_config : config :=
  {| c_csrf := false; c_auth := true; c_default := None; c_contract := None; c_batching := true; c_batch_limit := Some 5 |}.
(** Operations: 0 is a query, 1 a mutation, 2 a subscription, 3 is malformed. *)
Definition basic_world (b : batch) (patience : option (nat * bool)) : world :=
  {| w_ser := fun _ => true; w_on_request := fun p => inr (p, None); w_auth := fun p => (p, inr (Token 7)); w_contract := fun _ => None;
     w_limit := true; w_body := inr 0; w_json := fun _ => Some b; w_cbor := fun _ => None; w_params := fun _ => Some 1;
     w_limit_first := false; w_early := false;
     w_parse := fun o => match o with 0 => inr Query | 1 => inr Mutation | 2 => inr Subscription | _ => inl (RequestError [OperationParsingError] 0) end;
     w_rest := fun _ _ => None; w_exec := fun o => Executed [] o; w_stream := fun o => []; w_patience := patience; w_on_response := true |}.
Example C82_gate_ex : executed (fst (serve basic_config (basic_world (Batch [0; 1; 2; 3; 0]) None) plain_parts)) = [(Token 7, 0); (Token 7, 1); (Token 7, 0)].
Proof. reflexivity. Qed.
Example C82_passed_ex : passed basic_config (basic_world (Batch [0; 1; 2; 3; 0]) None) plain_parts plain_parts (Token 7) (Complete Json) (Batch [0; 1; 2; 3; 0]).
Proof.
  constructor; try reflexivity; try discriminate.
  - exists plain_parts, None. split; [reflexivity |]. split; [split; [reflexivity | left; reflexivity] |]. discriminate.
  - right. split; [reflexivity |]. exists 0. split; [reflexivity |]. left. split; reflexivity.
Qed.
(** A mutation by GET is refused. *)
Definition get_parts : parts := {| p_method := GET; p_csrf := false; p_accept := []; p_ctype := []; p_mcp := None; p_query := 0; p_rest := 0 |}.
Example C82_simple_ex : simple_request get_parts /\ fst (serve basic_config (basic_world (Single 1) None) get_parts) = [EHook; EAuth; ELimit; ERead; EHookEnd] /\
  exists h, snd (serve basic_config (basic_world (Single 1) None) get_parts) = Some (Graphql h) /\ h_status h = 405%N.
Proof. split; [exact Logic.I |]. split; [reflexivity |]. eexists. split; reflexivity. Qed.
Definition put_parts : parts := {| p_method := OtherMethod 0; p_csrf := false; p_accept := []; p_ctype := ["application/json"%string]; p_mcp := None; p_query := 0; p_rest := 0 |}.
Example C82_method_ex : serve basic_config (basic_world (Single 1) None) put_parts = ([EHook; EAuth; EHookEnd], Some (Plain 405)).
Proof. reflexivity. Qed.

(** The limiter counts requests, not operations: any number of operations of a batch passes it as one. *)
Theorem C82_limit_refuted : exists cfg w p, List.length (executed (fst (serve cfg w p))) = 5 /\
  List.length (filter (fun e => match e with ELimit => true | _ => false end) (fst (serve cfg w p))) = 1.
Proof. exists basic_config, (basic_world (Batch [0; 1; 0; 1; 0]) None), plain_parts. split; reflexivity. Qed.
(** If the timeout fires during a batch, mutations were executed whose answers are lost, and the status is 200. *)
Theorem C82_timeout_refuted : exists cfg w p h, In (EExec (Token 7) 1) (fst (serve cfg w p)) /\ snd (serve cfg w p) = Some (Graphql h) /\
  h_status h = 200%N /\ h_body h = One timeout.
Proof. exists basic_config, (basic_world (Batch [1; 0]) (Some (1, false))), plain_parts. eexists. split; [right; right; right; right; left; reflexivity |]. split; [reflexivity |]. split; reflexivity. Qed.
(** A subscription that ends without an event is answered with an internal error. *)
Theorem C82_empty_refuted : exists cfg w p h, In (EExec (Token 7) 2) (fst (serve cfg w p)) /\ snd (serve cfg w p) = Some (Graphql h) /\ h_status h = 500%N /\ h_body h = Internal.
Proof.
  exists basic_config, (basic_world (Single 2) None), {| p_method := POST; p_csrf := false; p_accept := [Some [Some {| m_essence := EventStream; m_params := [] |}]]; p_ctype := ["application/json"%string]; p_mcp := None; p_query := 0; p_rest := 0 |}.
  eexists. split; [right; right; right; right; left; reflexivity |]. split; [reflexivity |]. split; reflexivity.
Qed.

(** * C83: statuses and bodies *)

(** The status of a response that isn't refused elsewhere follows its errors, in the order of [expected_status]; its body is the
    response. *)
Theorem C83_single : forall ser f r, few r -> ser r = true -> exists h, http_single ser f r = Some h /\
  h_status h = status_of f r /\ h_ctype h = ctype_of f /\ h_body h = One r /\ h_headers h = match r with Refused _ _ hs _ => hs | _ => [] end.
Proof. intros ser f r H1 H2. unfold http_single, from_complete. rewrite H2, (complete_status f r H1). eexists. split; [reflexivity |]. split; [reflexivity |]. split; [reflexivity |]. split; reflexivity. Qed.
(** In application/graphql-response+json exactly the requests that were not executed have an error status. *)
Theorem C83_class : forall r, few r -> exists s, compute_status (Complete GraphqlJson) r = Some s /\
  match r with Executed _ _ => s = 200%N | RequestError _ _ => is_error_status s | Refused s' _ _ _ => s = s' end.
Proof.
  intros r H. exists (status_of GraphqlJson r). split; [apply complete_status, H |]. destruct r as [s e h d | e d | e d]; try reflexivity. cbn [status_of]. unfold expected_status, is_error_status.
  repeat match goal with |- context [if ?b then _ else _] => destruct b end; lia.
Qed.
(** A batch keeps all responses in order; its status is that of [status_of_all]. *)
Theorem C83_batch : forall ser f l, Forall few l -> (forall r, In r l -> ser r = true) -> exists h, http_batch ser f l = Some h /\
  h_status h = status_of_all f l /\ h_ctype h = ctype_of f /\ h_body h = Many l.
Proof.
  intros ser f l H1 H2. unfold http_batch. replace (forallb ser l) with true by (symmetry; apply forallb_forall; exact H2). rewrite batch_combined by exact H1. eexists. split; [reflexivity |]. split; [reflexivity |]. split; reflexivity.
Qed.
(** The counters for telemetry count the errors. *)
Theorem C83_telemetry : forall ser f r h, few r -> ser r = true -> http_single ser f r = Some h -> forall c, h_telemetry h c = N.of_nat (count_occ code_eq_dec (errors_of r) c).
Proof.
  intros ser f r h H1 H2 H c. unfold http_single, from_complete in H. rewrite H2, (complete_status f r H1) in H. injection H as <-. cbn [h_telemetry]. rewrite from_errors_count. unfold wrap. apply N.mod_small. assert (L := count_le (errors_of r) c). unfold few in H1. lia.
Qed.
(** A stream has the status of its first response and the responses up to the first that can't be written. *)
Theorem C83_stream : forall ser f r l h, http_stream ser f (r :: l) = Some h ->
  h_status h = match r with Refused s _ _ _ => s | _ => 200%N end /\
  exists k, h_body h = Events (firstn k (r :: l)) /\ Forall (fun r => ser r = true) (firstn k (r :: l)) /\ (k = List.length (r :: l) \/ exists x, nth_error (r :: l) k = Some x /\ ser x = false).
Proof.
  assert (E : forall ser l, exists k, events ser l = firstn k l /\ Forall (fun r => ser r = true) (firstn k l) /\ (k = List.length l \/ exists x, nth_error l k = Some x /\ ser x = false)).
  { intros ser. induction l as [| r l (k & E1 & E2 & E3)]; [exists 0; split; [reflexivity |]; split; [constructor | left; reflexivity] |]. cbn [events]. destruct (ser r) eqn:Er.
    - exists (S k). cbn [firstn]. rewrite E1. split; [reflexivity |]. split; [constructor; assumption |]. destruct E3 as [-> | E3]; [left; reflexivity | right; exact E3].
    - exists 0. split; [reflexivity |]. split; [constructor |]. right. exists r. split; [reflexivity | exact Er]. }
  intros ser f r l h H. unfold http_stream, from_stream in H. destruct (E ser (r :: l)) as (k & E1 & E2 & E3).
  destruct f, r; try discriminate; cbn [compute_status] in H; injection H as <-; cbn [h_status h_body]; (split; [reflexivity |]); exists k; rewrite <- E1; split; try reflexivity; split; try (rewrite E1; exact E2); exact E3.
Qed.
Example C83_single_ex : compute_status (Complete GraphqlJson) (RequestError [SubgraphError; Unauthorized; Unauthenticated] 0) = Some 403%N /\
  compute_status (Complete Json) (RequestError [SubgraphError; Unauthorized] 0) = Some 200%N.
Proof. split; reflexivity. Qed.
Example C83_batch_ex : option_map h_status (http_batch (fun _ => true) GraphqlJson [Executed [SubgraphError] 1; RequestError [GatewayTimeout] 0; RequestError [RateLimited] 0; RequestError [BadRequest] 0]) = Some 429%N.
Proof. reflexivity. Qed.
(** 65536 errors of a kind are counted as none: the status is that of an internal error. *)
Theorem C83_wrap_refuted : exists e d, e <> [] /\ (forall c, In c e -> c = BadRequest) /\ compute_status (Complete GraphqlJson) (RequestError e d) = Some 500%N.
Proof.
  exists (repeat BadRequest (N.to_nat 65536)), 0. split; [| split].
  - assert (E : List.length (repeat BadRequest (N.to_nat 65536)) = N.to_nat 65536) by apply repeat_length. intro C. rewrite C in E. cbn [List.length] in E. lia.
  - intros c H. exact (repeat_spec _ _ _ H).
  - cbn [compute_status]. assert (E : iter (from_errors (repeat BadRequest (N.to_nat 65536))) = []); [| rewrite E; reflexivity].
    assert (K : forall c, from_errors (repeat BadRequest (N.to_nat 65536)) c = 0%N).
    { intro c. rewrite from_errors_count. destruct (code_eq_dec BadRequest c) as [<- | Hc].
      - assert (Q : forall n, count_occ code_eq_dec (repeat BadRequest n) BadRequest = n) by (induction n as [| n IHn]; [reflexivity |]; cbn [repeat]; rewrite count_occ_cons_eq by reflexivity; rewrite IHn; reflexivity).
        rewrite Q, N2Nat.id. reflexivity.
      - assert (Q : forall n, count_occ code_eq_dec (repeat BadRequest n) c = 0) by (induction n as [| n IHn]; [reflexivity |]; cbn [repeat]; rewrite count_occ_cons_neq by exact Hc; exact IHn).
        rewrite Q. reflexivity. }
    unfold iter. induction codes as [| x l IH]; [reflexivity |]. cbn [filter]. rewrite K. exact IH.
Qed.
(** A refused request may have any status, also one of success: it is the extension's. *)
Theorem C83_refused_refuted : exists e, compute_status (Complete GraphqlJson) (refused e) = Some 200%N /\ e_errors e = [Unauthenticated].
Proof. exists {| e_status := 200; e_errors := [Unauthenticated]; e_headers := [] |}. split; reflexivity. Qed.
(** The headers of a refusal, such as WWW-Authenticate, are lost in a stream and in a batch. *)
Theorem C83_headers_refuted : exists r h h', http_error (fun _ => true) (Streaming Sse) r = Some h /\ h_headers h = [] /\
  http_batch (fun _ => true) Json [r] = Some h' /\ h_headers h' = [] /\ option_map h_headers (http_error (fun _ => true) (Complete Json) r) = Some [1].
Proof. exists (Refused 401 [Unauthenticated] [1] 0). eexists. eexists. split; [reflexivity |]. split; [reflexivity |]. split; [reflexivity |]. split; reflexivity. Qed.
(** After an error of the server and a success the status is the former's, but a 4xx after a 3xx is not found if there's a 4xx before: the
    first 4xx hides a later refusal with 401. *)
Theorem C83_first_refuted : exists l, Forall few l /\ In (Refused 401 [Unauthenticated] [] 0) l /\ option_map h_status (http_batch (fun _ => true) GraphqlJson l) = Some 400%N.
Proof. exists [RequestError [BadRequest] 0; Refused 401 [Unauthenticated] [] 0]. split; [| split; [right; left; reflexivity | reflexivity]]. constructor; [reflexivity |]. constructor; [reflexivity |]. constructor. Qed.

(** * C84: formats *)

(** Without the header the answer is JSON.  With it, the format answers a type of the header that no other acceptable one
    exceeds in quality, and of equals it is the last. *)
Theorem C84_missing : extract_format [] = Some (Complete Json).
Proof. reflexivity. Qed.
Theorem C84_best : forall h f, h <> [] -> extract_format h = Some f ->
  exists pre m post q, media_list h = pre ++ m :: post /\ answers (m_essence m) f /\ has_quality m q /\
    (forall m' q', In m' (media_list h) -> acceptable m' -> has_quality m' q' -> qle q' q) /\
    (forall m' q', In m' post -> acceptable m' -> has_quality m' q' -> qlt q' q).
Proof. intros h f Hh E. assert (H := extract_format_spec h Hh). rewrite E in H. exact H. Qed.
(** The request is refused only if no acceptable type is listed. *)
Theorem C84_refused : forall h, extract_format h = None <-> h <> [] /\ forall m, In m (media_list h) -> ~ acceptable m.
Proof.
  intros h. split.
  - intros E. assert (Hh : h <> []) by (intros ->; discriminate). split; [exact Hh |]. assert (H := extract_format_spec h Hh). rewrite E in H. exact H.
  - intros [Hh H]. assert (G := extract_format_spec h Hh). destruct (extract_format h) as [f |]; [| reflexivity]. exfalso. destruct G as (pre & m & post & q & E & A & _). apply (H m); [rewrite E; apply in_or_app; right; left; reflexivity | exists f; exact A].
Qed.
(** Websockets are never negotiated. *)
Theorem C84_websocket : forall h, extract_format h <> Some (Streaming Websocket).
Proof. exact extract_no_websocket. Qed.
(** Bodies are read as what their type says, and only as JSON or CBOR; never if a page could have sent them without asking. *)
Theorem C84_content : forall v h c, extract_content (v :: h) = Some c ->
  media_type v = match c with BodyJson => "application/json"%string | BodyCbor => "application/cbor"%string end /\ ~ safelisted v.
Proof.
  intros v h c H. cbn [extract_content] in H. rewrite before_until in H. unfold safelisted, media_type.
  destruct (String.eqb (until_semicolon v) "application/json") eqn:X.
  - apply String.eqb_eq in X. injection H as <-. rewrite X. split; [reflexivity |]. intros [C | [C | C]]; discriminate.
  - destruct (String.eqb (until_semicolon v) "application/cbor") eqn:Y; [| discriminate]. apply String.eqb_eq in Y. injection H as <-. rewrite Y. split; [reflexivity |]. intros [C | [C | C]]; discriminate.
Qed.
(** A plain type, with any parameters, is read. *)
Theorem C84_plain : forall params, extract_content [("application/json;" ++ params)%string] = Some BodyJson /\ extract_content [("application/cbor;" ++ params)%string] = Some BodyCbor /\
  extract_content ["application/json"%string] = Some BodyJson /\ extract_content ["application/cbor"%string] = Some BodyCbor.
Proof. intro params. split; [reflexivity |]. split; [reflexivity |]. split; reflexivity. Qed.
Definition md (e : essence) (params : list (string * option quality)) : option media := Some {| m_essence := e; m_params := params |}.
Example C84_best_ex : extract_format [Some [md EventStream [("q"%string, Some (Fin 500))]; md (OtherType 0) []; md AppGraphqlJson [("charset"%string, None); ("q"%string, Some (Fin 900))]; None; md AppJson [("q"%string, Some (Fin 900))]]] = Some (Complete Json).
Proof. reflexivity. Qed.
Example C84_refused_ex : extract_format [None; Some [md (OtherType 0) []]] = None. Proof. reflexivity. Qed.
(** A quality of zero doesn't exclude a type. *)
Theorem C84_zero_refuted : exists h m, media_list h = [m] /\ has_quality m (Fin 0) /\ answers (m_essence m) (Streaming Sse) /\ extract_format h = Some (Streaming Sse).
Proof. exists [Some [md EventStream [("q"%string, Some (Fin 0))]]]. eexists. split; [reflexivity |]. split; [left; exists [], []; split; [reflexivity | intros []] |]. split; [exact Logic.I | reflexivity]. Qed.
(** JSON is sent for a wildcard though the header excludes JSON and accepts others that are supported. *)
Theorem C84_wildcard_refuted : exists h m, In m (media_list h) /\ answers (m_essence m) (Complete Json) /\ m_essence m = AppJson /\ has_quality m (Fin 0) /\ extract_format h = Some (Complete Json).
Proof.
  exists [Some [md AppJson [("q"%string, Some (Fin 0))]; md StarStar []]]. eexists. split; [left; reflexivity |]. split; [exact Logic.I |]. split; [reflexivity |]. split; [left; exists [], []; split; [reflexivity | intros []] | reflexivity].
Qed.
(** "nan" is a quality and exceeds all others. *)
Theorem C84_nan_refuted : exists h, extract_format h = Some (Streaming Sse) /\ forall q, q <> NaN ->
  extract_format [Some [md EventStream [("q"%string, Some NaN)]; md AppJson [("q"%string, Some q)]]] = Some (Streaming Sse).
Proof. exists [Some [md EventStream []]]. split; [reflexivity |]. intros [| z | |] H; try reflexivity. contradiction. Qed.
(** Types that are equal to application/json are refused. *)
Theorem C84_content_refuted : (exists v, media_type v = "application/json"%string /\ extract_content [v] = None /\ v = "Application/JSON"%string) /\
  (exists v, media_type v = "application/json"%string /\ extract_content [v] = None /\ v = "application/json ; charset=utf-8"%string).
Proof. split; eexists; (split; [| split; [| reflexivity]]); reflexivity. Qed.
