(** Protected headers never reach a subgraph (C34); headers are what the rules say (C43). *)

From Coq Require Import List Bool String Ascii NArith Lia.
From Verif.Headers Require Import Model.
Import ListNotations.
Local Open Scope string_scope.

(** ** Specification *)

(** Hop-by-hop headers and those that describe the connection or the body of
    the client's own request. *)
Inductive protected : string -> Prop :=
| p_accept : protected "accept" | p_accept_charset : protected "accept-charset"
| p_accept_encoding : protected "accept-encoding" | p_accept_ranges : protected "accept-ranges"
| p_length : protected "content-length" | p_type : protected "content-type"
| p_connection : protected "connection" | p_keep_alive : protected "keep-alive"
| p_authenticate : protected "proxy-authenticate" | p_authorization : protected "proxy-authorization"
| p_te : protected "te" | p_trailer : protected "trailer" | p_transfer : protected "transfer-encoding"
| p_upgrade : protected "upgrade" | p_origin : protected "origin" | p_host : protected "host"
| p_ws_version : protected "sec-websocket-version" | p_ws_key : protected "sec-websocket-key"
| p_ws_accept : protected "sec-websocket-accept" | p_ws_protocol : protected "sec-websocket-protocol"
| p_ws_extensions : protected "sec-websocket-extensions".

(** The two kinds of rules for which the code forgets to check a name. *)
Definition checked (r : rule) : Prop :=
  match r with
  | Forward (Pattern _) _ (Some rename) => forall n, header_name rename = Some n -> ~ protected n
  | RenameDuplicate name _ _ => forall n, header_name name = Some n -> ~ protected n
  | _ => True
  end.

(** Why a header may be in a request: what a rule contributes. *)
Inductive contributes (client : header_map) : rule -> string -> string -> Prop :=
| c_insert : forall n v n', header_name n = Some n' -> header_value v = Some v -> contributes client (Insert n v) n' v
| c_forward : forall s d s' v, header_name s = Some s' -> In (s', v) client -> contributes client (Forward (Name s) d None) s' v
| c_forward_as : forall s d s' r r' v, header_name s = Some s' -> header_name r = Some r' -> In (s', v) client ->
    contributes client (Forward (Name s) d (Some r)) r' v
| c_default : forall s s' v, header_name s = Some s' -> (forall w, ~ In (s', w) client) -> header_value v = Some v ->
    contributes client (Forward (Name s) (Some v) None) s' v
| c_default_as : forall s s' r r' v, header_name s = Some s' -> header_name r = Some r' -> (forall w, ~ In (s', w) client) ->
    header_value v = Some v -> contributes client (Forward (Name s) (Some v) (Some r)) r' v
| c_pattern : forall (p : string -> bool) d rename n v, p n = true -> In (n, v) client -> ~ protected n ->
    (forall r, rename = Some r -> header_name r = None) -> contributes client (Forward (Pattern p) d rename) n v
| c_pattern_as : forall (p : string -> bool) d r r' n v, p n = true -> In (n, v) client -> ~ protected n -> header_name r = Some r' ->
    contributes client (Forward (Pattern p) d (Some r)) r' v
| c_duplicate : forall n n' r d v m, header_name n = Some n' -> In (n', v) client -> (m = n' \/ header_name r = Some m) ->
    contributes client (RenameDuplicate n r d) m v
| c_duplicate_default : forall n n' r v m, header_name n = Some n' -> (forall w, ~ In (n', w) client) -> header_value v = Some v ->
    (m = n' \/ header_name r = Some m) -> contributes client (RenameDuplicate n r (Some v)) m v.

(** ** Denied names *)

Lemma denied_protected : forall n, is_header_denied n = true <-> protected n.
Proof.
  intros n. unfold is_header_denied, find_matching_denied_header. split; intros H.
  - destruct (find _ deny_list) as [d|] eqn:E; [|discriminate]. apply find_some in E. destruct E as [I E].
    apply String.eqb_eq in E. subst. cbn in I.
    repeat (destruct I as [I|I]; [subst; constructor|]). contradiction.
  - inversion H; reflexivity.
Qed.

Lemma not_denied : forall n, is_header_denied n = false <-> ~ protected n.
Proof. intros n. rewrite <- denied_protected. destruct (is_header_denied n); split; congruence. Qed.

(** ** Header maps *)

Lemma in_append : forall m n v e, In e (append m n v) <-> In e m \/ e = (n, v).
Proof. intros. unfold append. rewrite in_app_iff. cbn. intuition congruence. Qed.

Lemma in_remove : forall m n e, In e (remove m n) <-> In e m /\ fst e <> n.
Proof. intros. unfold remove. rewrite filter_In, negb_true_iff, String.eqb_neq. reflexivity. Qed.

Lemma in_insert : forall m n v e, In e (insert m n v) <-> (In e m /\ fst e <> n) \/ e = (n, v).
Proof. intros. unfold insert. rewrite in_append, in_remove. reflexivity. Qed.

Lemma in_removes : forall l m e, In e (fold_left remove l m) <-> In e m /\ ~ In (fst e) l.
Proof.
  induction l as [|n l IH]; intros m e; cbn; [tauto|]. rewrite IH, in_remove. intuition congruence.
Qed.

Lemma in_get_all : forall m n v, In v (get_all m n) <-> In (n, v) m.
Proof.
  intros m n v. unfold get_all. rewrite in_map_iff. split.
  - intros ([n' v'] & E & I). cbn in E. subst. apply filter_In in I. destruct I as [I E]. apply String.eqb_eq in E. cbn in E. congruence.
  - intros I. exists (n, v). split; [reflexivity|]. apply filter_In. split; [exact I|]. apply String.eqb_refl.
Qed.

Lemma get_some : forall m n v, get m n = Some v -> In (n, v) m.
Proof.
  intros m n v H. apply in_get_all. unfold get in H. destruct (get_all m n); [discriminate|]. cbn in H. injection H as ->. left. reflexivity.
Qed.

Lemma get_all_nil : forall m n, get_all m n = [] -> forall w, ~ In (n, w) m.
Proof. intros m n H w I. apply in_get_all in I. rewrite H in I. destruct I. Qed.

Lemma get_none : forall m n, get m n = None -> forall w, ~ In (n, w) m.
Proof. intros m n H. apply get_all_nil. unfold get in H. destruct (get_all m n); [reflexivity|discriminate]. Qed.

Lemma in_appends : forall n vs m e, In e (fold_left (fun m v => append m n v) vs m) <-> In e m \/ (fst e = n /\ In (snd e) vs).
Proof.
  intros n. induction vs as [|v vs IH]; intros m [a b]; cbn; [tauto|]. rewrite IH, in_append. cbn. intuition congruence.
Qed.

Lemma value_same : forall s v, header_value s = Some v -> v = s.
Proof. intros s v H. unfold header_value in H. destruct (value_chars s); congruence. Qed.

Lemma in_forwards : forall rename es m e, In e (fold_left (forward_one rename) es m) <->
  In e m \/ exists x, In x es /\ e = (match option_and_then rename header_name with Some r => r | None => fst x end, snd x).
Proof.
  intros rename. induction es as [|x es IH]; intros m e; cbn [fold_left].
  - split; [auto|]. intros [H|(x & [] & _)]; exact H.
  - rewrite IH. unfold forward_one. destruct (option_and_then rename header_name) as [r|]; rewrite in_append; cbn [In];
      (split; [intros [[H|H]|(y & I & H)]|intros [H|(y & [<-|I] & H)]]; eauto 6).
Qed.

(** ** What one rule adds *)

Lemma rule_adds : forall client m r n v, In (n, v) (apply_rule client m r) -> In (n, v) m \/ contributes client r n v.
Proof.
  intros client m r n v H. destruct r as [source default rename|a b|source|a rename default]; cbn [apply_rule] in H.
  - unfold handle_forward in H. destruct source as [s|p].
    + destruct (header_name s) as [s'|] eqn:S; [|auto].
      destruct rename as [r|].
      * destruct (header_name r) as [r'|] eqn:R.
        2: { apply in_remove in H. tauto. }
        destruct (is_header_denied r'). { apply in_remove in H. tauto. }
        destruct (get_all client s') as [|w ws] eqn:G.
        -- cbn [fold_left] in H. destruct default as [d|]; cbn [option_and_then] in H.
           2: { apply in_remove in H. tauto. }
           destruct (header_value d) as [d'|] eqn:D. 2: { apply in_remove in H. tauto. }
           assert (d' = d) as -> by (eapply value_same; exact D).
           apply in_insert in H. destruct H as [[H _]|H]; [apply in_remove in H; tauto|]. injection H as -> ->.
           right. eapply c_default_as; try eassumption. apply get_all_nil. exact G.
        -- assert (H' : In (n, v) (fold_left (fun m v => append m r' v) (w :: ws) (remove m s'))).
           { destruct (option_and_then default header_value); exact H. }
           apply in_appends in H'. destruct H' as [H'|[E I]]; [apply in_remove in H'; tauto|].
           right. cbn in E, I. subst n. eapply c_forward_as; try eassumption. apply in_get_all. rewrite G. exact I.
      * destruct (is_header_denied s'). { apply in_remove in H. tauto. }
        destruct (get_all client s') as [|w ws] eqn:G.
        -- cbn [fold_left] in H. destruct default as [d|]; cbn [option_and_then] in H.
           2: { apply in_remove in H. tauto. }
           destruct (header_value d) as [d'|] eqn:D. 2: { apply in_remove in H. tauto. }
           assert (d' = d) as -> by (eapply value_same; exact D).
           apply in_insert in H. destruct H as [[H _]|H]; [apply in_remove in H; tauto|]. injection H as -> ->.
           right. eapply c_default; try eassumption. apply get_all_nil. exact G.
        -- assert (H' : In (n, v) (fold_left (fun m v => append m s' v) (w :: ws) (remove m s'))).
           { destruct (option_and_then default header_value); exact H. }
           apply in_appends in H'. destruct H' as [H'|[E I]]; [apply in_remove in H'; tauto|].
           right. cbn in E, I. subst n. eapply c_forward; try eassumption. apply in_get_all. rewrite G. exact I.
    + apply in_forwards in H. destruct H as [H|([x y] & I & E)]; [auto|]. right.
      apply filter_In in I. destruct I as [I P]. apply filter_In in I. destruct I as [I D]. cbn [fst snd] in *.
      apply negb_true_iff in D. apply not_denied in D.
      destruct rename as [r|]; cbn [option_and_then] in E.
      * destruct (header_name r) as [r'|] eqn:R; injection E as -> ->.
        -- eapply c_pattern_as; eassumption.
        -- apply c_pattern; try assumption. intros r0 R0. congruence.
      * injection E as -> ->. apply c_pattern; try assumption. discriminate.
  - unfold handle_insert in H. destruct (header_name a) as [a'|] eqn:A; [|auto]. destruct (header_value b) as [b'|] eqn:B; [|auto].
    destruct (is_header_denied a'); [auto|]. assert (b' = b) as -> by (eapply value_same; exact B).
    apply in_append in H. destruct H as [H|H]; [auto|]. injection H as -> ->. right. apply c_insert; assumption.
  - left. unfold handle_remove in H. destruct source as [s|p].
    + destruct (header_name s); [|exact H]. apply in_remove in H. tauto.
    + apply in_removes in H. tauto.
  - unfold handle_rename_duplicate in H. destruct (header_name a) as [a'|] eqn:A; [|auto].
    destruct (header_name rename) as [r'|] eqn:R; [|auto]. destruct (is_header_denied r'); [auto|].
    destruct (get client a') as [w|] eqn:G.
    + rewrite !in_append in H. destruct H as [[H|H]|H]; [auto|right..]; injection H as -> ->;
        eapply c_duplicate; try eassumption; auto using get_some.
    + destruct default as [d|]; cbn [option_and_then] in H; [|auto]. destruct (header_value d) as [d'|] eqn:D; [|auto].
      assert (d' = d) as -> by (eapply value_same; exact D).
      rewrite !in_append in H. destruct H as [[H|H]|H]; [auto|right..]; injection H as -> ->;
        eapply c_duplicate_default; try eassumption; auto using get_none.
Qed.

(** ** C34 *)

Lemma rule_protects : forall client m r n v, checked r -> protected n -> In (n, v) (apply_rule client m r) -> In (n, v) m.
Proof.
  intros client m r n v C P H. destruct r as [source default rename|a b|source|a rename default].
  - cbn [apply_rule] in H. unfold handle_forward in H. destruct source as [s|p].
    + destruct (header_name s) as [s'|] eqn:S; [|auto].
      destruct (match rename with Some r => header_name r | None => Some s' end) as [t|]; [|apply in_remove in H; tauto].
      destruct (is_header_denied t) eqn:D; [apply in_remove in H; tauto|]. apply not_denied in D.
      assert (K : In (n, v) (fold_left (fun m v => append m t v) (get_all client s') (remove m s'))).
      { destruct (option_and_then default header_value) as [d|]; [|exact H].
        destruct (get_all client s'); [|exact H]. apply in_insert in H. destruct H as [[H _]|H]; [exact H|].
        injection H as -> ->. contradiction. }
      apply in_appends in K. destruct K as [K|[E _]]; [apply in_remove in K; tauto|]. cbn in E. subst. contradiction.
    + apply in_forwards in H. destruct H as [H|([x y] & I & E)]; [exact H|]. exfalso.
      apply filter_In in I. destruct I as [I _]. apply filter_In in I. destruct I as [_ D]. cbn [fst snd] in *.
      apply negb_true_iff, not_denied in D. cbn [checked] in C.
      destruct rename as [r|]; cbn [option_and_then] in E; [destruct (header_name r) as [r'|] eqn:R|]; injection E as -> ->; auto.
      apply (C r' eq_refl P).
  - cbn [apply_rule] in H. unfold handle_insert in H. destruct (header_name a) as [a'|]; [|auto]. destruct (header_value b) as [b'|]; [|auto].
    destruct (is_header_denied a') eqn:D; [auto|]. apply not_denied in D.
    apply in_append in H. destruct H as [H|H]; [auto|]. injection H as -> ->. contradiction.
  - apply rule_adds in H. destruct H as [H|H]; [exact H|inversion H].
  - cbn [apply_rule checked] in *. unfold handle_rename_duplicate in H. destruct (header_name a) as [a'|]; [|auto].
    destruct (header_name rename) as [r'|]; [|auto]. destruct (is_header_denied r') eqn:D; [auto|]. apply not_denied in D.
    destruct (match get client a' with Some v => Some v | None => _ end) as [w|]; [|auto].
    rewrite !in_append in H. destruct H as [[H|H]|H]; [exact H|exfalso..]; injection H as -> ->; [eapply C; eauto|contradiction].
Qed.

Lemma rules_protect : forall client rules m n v, Forall checked rules -> protected n ->
  In (n, v) (apply_header_rules client rules m) -> In (n, v) m.
Proof.
  intros client. induction rules as [|r rules IH]; intros m n v F P H; [exact H|].
  inversion F as [|? ? C F']; subst. cbn in H. apply IH in H; [|assumption..]. eapply rule_protects; eassumption.
Qed.

Lemma extension_clean : forall m n v, protected n -> ~ In (n, v) (extension_headers m).
Proof.
  intros m n v P H. unfold extension_headers in H. apply in_removes in H. destruct H as [I H]. apply H. clear H. cbn [fst].
  apply in_flat_map. exists n. split; [apply (in_map fst) in I; exact I|]. cbn beta.
  apply denied_protected in P. unfold is_header_denied in P. destruct (find_matching_denied_header n) as [d|] eqn:E; [|discriminate].
  apply find_some in E. destruct E as [_ E]. apply String.eqb_eq in E. subst. left. reflexivity.
Qed.

(** Whatever the client sends, whatever rules there are by default and for the
    subgraph and whatever headers an extension returns, no protected header is in
    the request; provided that no pattern rule renames to a protected name and no
    rule duplicates a protected header. *)
Theorem C34_protected_partial : forall client default_rules extension rules n v,
  Forall checked default_rules -> Forall checked rules -> protected n ->
  ~ In (n, v) (subgraph_headers client default_rules extension rules).
Proof.
  intros client default_rules extension rules n v D R P H. unfold subgraph_headers in H.
  apply rules_protect in H; [|assumption..]. destruct extension as [f|].
  - revert H. apply extension_clean. exact P.
  - apply rules_protect in H; [exact H|assumption..].
Qed.

(** Only [rename] is checked when a header is duplicated: the client's own host,
    or body length, is sent along. *)
Theorem C34_duplicate_refuted : exists client rules n v, protected n /\ In (n, v) client /\
  In (n, v) (subgraph_headers client [] None rules).
Proof.
  exists [("content-length", "27")], [RenameDuplicate "Content-Length" "x-length" None], "content-length", "27".
  split; [apply p_length|]. split; [left; reflexivity|]. vm_compute. auto.
Qed.

(** The new name isn't checked when a pattern rule renames. *)
Theorem C34_pattern_refuted : exists client rules n v, protected n /\ (forall w, ~ In (n, w) client) /\
  In (n, v) (subgraph_headers client [] None rules).
Proof.
  exists [("x-real-host", "evil.example")], [Forward (Pattern (fun n => n =? "x-real-host")) None (Some "Host")], "host", "evil.example".
  split; [apply p_host|]. split; [intros w [H|[]]; discriminate|]. vm_compute. auto.
Qed.

(** ** C43 *)

(** Every header was put there by a rule, which got the value from the client or the configuration. *)
Theorem C43_origin : forall client rules m n v, In (n, v) (apply_header_rules client rules m) ->
  In (n, v) m \/ exists r, In r rules /\ contributes client r n v.
Proof.
  intros client. induction rules as [|r rules IH]; intros m n v H; [auto|]. cbn in H. apply IH in H.
  destruct H as [H|(q & I & C)]; [|right; exists q; cbn; auto]. apply rule_adds in H. destruct H as [H|H]; [auto|].
  right. exists r. cbn. auto.
Qed.

Lemma get_all_app : forall a b n, get_all (a ++ b)%list n = (get_all a n ++ get_all b n)%list.
Proof. intros. unfold get_all. rewrite filter_app, map_app. reflexivity. Qed.

Lemma get_all_append : forall m n v k, get_all (append m n v) k = (get_all m k ++ (if String.eqb n k then [v] else []))%list.
Proof. intros. unfold append. rewrite get_all_app. unfold get_all at 2. cbn. destruct (n =? k); reflexivity. Qed.

Lemma get_all_remove : forall m n k, get_all (remove m n) k = if String.eqb n k then [] else get_all m k.
Proof.
  intros m n k. unfold get_all, remove. induction m as [|[a v] m IH]; cbn; [destruct (n =? k); reflexivity|].
  destruct (String.eqb_spec a n) as [->|A]; cbn.
  - rewrite IH. destruct (String.eqb_spec n k) as [->|K]; [reflexivity|]. reflexivity.
  - destruct (String.eqb_spec a k) as [->|K]; cbn.
    + destruct (String.eqb_spec n k); [congruence|]. rewrite IH. reflexivity.
    + exact IH.
Qed.

Lemma get_all_appends : forall n vs m k, get_all (fold_left (fun m v => append m n v) vs m) k =
  (get_all m k ++ (if String.eqb n k then vs else []))%list.
Proof.
  intros n. induction vs as [|v vs IH]; intros m k; cbn [fold_left].
  - destruct (n =? k); rewrite app_nil_r; reflexivity.
  - rewrite IH, get_all_append, <- app_assoc. destruct (n =? k); reflexivity.
Qed.

(** What a rule forwards under its own name is exactly what the client sent, in
    order, or else the default. *)
Theorem C43_forwarded : forall client rules m s n default, header_name s = Some n -> ~ protected n ->
  get_all (apply_header_rules client (rules ++ [Forward (Name s) default None])%list m) n =
  match get_all client n with
  | [] => match default with Some d => match header_value d with Some v => [v] | None => [] end | None => [] end
  | vs => vs
  end.
Proof.
  intros client rules m s n default S P. unfold apply_header_rules. rewrite fold_left_app. cbn [fold_left apply_rule].
  set (m' := fold_left _ rules m). unfold handle_forward. rewrite S. apply not_denied in P. rewrite P.
  destruct (get_all client n) as [|w ws] eqn:G.
  - cbn [fold_left]. destruct default as [d|]; cbn [option_and_then].
    + destruct (header_value d).
      * unfold insert. rewrite get_all_append, !get_all_remove, String.eqb_refl. reflexivity.
      * rewrite get_all_remove, String.eqb_refl. reflexivity.
    + rewrite get_all_remove, String.eqb_refl. reflexivity.
  - assert (E : get_all (fold_left (fun m v => append m n v) (w :: ws) (remove m' n)) n = w :: ws).
    { rewrite get_all_appends, get_all_remove, String.eqb_refl. reflexivity. }
    destruct (option_and_then default header_value); exact E.
Qed.

(** A removed header is gone. *)
Theorem C43_removed : forall client rules m s n, header_name s = Some n ->
  get_all (apply_header_rules client (rules ++ [Remove (Name s)])%list m) n = [].
Proof.
  intros client rules m s n S. unfold apply_header_rules. rewrite fold_left_app. cbn [fold_left apply_rule handle_remove]. rewrite S, get_all_remove, String.eqb_refl. reflexivity.
Qed.

Theorem C43_removed_pattern : forall client rules m (p : string -> bool) n, p n = true ->
  get_all (apply_header_rules client (rules ++ [Remove (Pattern p)])%list m) n = [].
Proof.
  intros client rules m p n P. unfold apply_header_rules. rewrite fold_left_app. cbn [fold_left apply_rule handle_remove]. set (m' := fold_left _ rules m).
  destruct (get_all (fold_left remove (filter p (map fst m')) m') n) as [|v vs] eqn:G; [reflexivity|]. exfalso.
  assert (I : In v (v :: vs)) by (left; reflexivity). rewrite <- G in I. apply in_get_all, in_removes in I.
  destruct I as [I H]. apply H. cbn. apply filter_In. split; [|exact P]. apply (in_map fst) in I. exact I.
Qed.

(** The names a rule is about. *)
Definition mentions (client : header_map) (r : rule) (n : string) : Prop :=
  match r with
  | Forward (Name s) _ rename => header_name s = Some n \/ exists r', rename = Some r' /\ header_name r' = Some n
  | Forward (Pattern p) _ rename => p n = true \/ exists r', rename = Some r' /\ header_name r' = Some n
  | Insert s _ => header_name s = Some n
  | Remove (Name s) => header_name s = Some n
  | Remove (Pattern p) => p n = true
  | RenameDuplicate s r _ => header_name s = Some n \/ header_name r = Some n
  end.

Lemma get_all_removes : forall l m n, ~ In n l -> get_all (fold_left remove l m) n = get_all m n.
Proof.
  induction l as [|a l IH]; intros m n H; [reflexivity|]. cbn [fold_left In] in *. rewrite IH by tauto. rewrite get_all_remove.
  destruct (String.eqb_spec a n); [|reflexivity]. subst. tauto.
Qed.

Lemma get_all_forwards : forall rename n es m,
  (forall e, In e es -> match option_and_then rename header_name with Some r => r | None => fst e end <> n) ->
  get_all (fold_left (forward_one rename) es m) n = get_all m n.
Proof.
  intros rename n. induction es as [|e es IH]; intros m H; [reflexivity|]. cbn [fold_left]. rewrite IH.
  2: { intros x X. apply H. right. exact X. }
  specialize (H e (or_introl eq_refl)). unfold forward_one. destruct (option_and_then rename header_name) as [r|];
    rewrite get_all_append; (match goal with |- context [String.eqb ?a n] => destruct (String.eqb_spec a n); [contradiction|] end);
    apply app_nil_r.
Qed.

Lemma rule_others : forall client m r n, ~ mentions client r n -> get_all (apply_rule client m r) n = get_all m n.
Proof.
  intros client m r n M. destruct r as [source default rename|a b|source|a rename default]; cbn [apply_rule mentions] in *.
  - unfold handle_forward. destruct source as [s|p].
    + destruct (header_name s) as [s'|] eqn:S; [|reflexivity].
      assert (N1 : s' <> n) by (intros ->; apply M; auto).
      assert (R : get_all (remove m s') n = get_all m n).
      { rewrite get_all_remove. destruct (String.eqb_spec s' n); [contradiction|reflexivity]. }
      destruct (match rename with Some r => header_name r | None => Some s' end) as [t|] eqn:T; [|exact R].
      assert (N2 : t <> n).
      { intros ->. destruct rename as [r|]; [apply M; eauto|congruence]. }
      destruct (is_header_denied t); [exact R|].
      assert (K : get_all (fold_left (fun m v => append m t v) (get_all client s') (remove m s')) n = get_all m n).
      { rewrite get_all_appends, R. destruct (String.eqb_spec t n); [contradiction|]. apply app_nil_r. }
      destruct (option_and_then default header_value) as [d|]; [|exact K].
      destruct (get_all client s'); [|exact K]. unfold insert. rewrite get_all_append, get_all_remove.
      destruct (String.eqb_spec t n); [contradiction|]. rewrite K. apply app_nil_r.
    + apply get_all_forwards. intros [x y] I. apply filter_In in I. destruct I as [I P]. cbn [fst] in *.
      destruct rename as [r|]; cbn [option_and_then]; [destruct (header_name r) as [r'|] eqn:R|]; intros ->; apply M; eauto.
  - unfold handle_insert. destruct (header_name a) as [a'|]; [|reflexivity]. destruct (header_value b); [|reflexivity].
    destruct (is_header_denied a'); [reflexivity|]. rewrite get_all_append.
    destruct (String.eqb_spec a' n); [subst; exfalso; auto|]. apply app_nil_r.
  - unfold handle_remove. destruct source as [s|p].
    + destruct (header_name s) as [s'|]; [|reflexivity]. rewrite get_all_remove.
      destruct (String.eqb_spec s' n); [subst; exfalso; auto|reflexivity].
    + apply get_all_removes. intros I. apply filter_In in I. tauto.
  - unfold handle_rename_duplicate. destruct (header_name a) as [a'|] eqn:A; [|reflexivity].
    destruct (header_name rename) as [r'|] eqn:R; [|reflexivity]. destruct (is_header_denied r'); [reflexivity|].
    destruct (match get client a' with Some v => Some v | None => _ end); [|reflexivity].
    rewrite !get_all_append. destruct (String.eqb_spec a' n); [subst; exfalso; auto|].
    destruct (String.eqb_spec r' n); [subst; exfalso; auto|]. rewrite !app_nil_r. reflexivity.
Qed.

(** Rules leave the headers alone that they don't mention. *)
Theorem C43_others : forall client rules m n, Forall (fun r => ~ mentions client r n) rules ->
  get_all (apply_header_rules client rules m) n = get_all m n.
Proof.
  intros client. induction rules as [|r rules IH]; intros m n F; [reflexivity|]. inversion F; subst. unfold apply_header_rules in *. cbn [fold_left].
  rewrite IH by assumption. apply rule_others. assumption.
Qed.

(** ** Example *)

Example C34_example :
  subgraph_headers [("authorization", "a"); ("x-1", "b"); ("x-1", "c"); ("host", "h"); ("x-2", "d")]
    [Forward (Name "Authorization") None None; Forward (Pattern (fun n => prefix "x-" n)) None None; Insert "Host" "evil"; Insert "v" "1"]
    None
    [Forward (Name "x-1") None (Some "y"); Remove (Name "X-2"); Forward (Name "host") None None; Forward (Name "z") (Some "def") None;
     RenameDuplicate "x-2" "w" None] =
  [("authorization", "a"); ("v", "1"); ("y", "b"); ("y", "c"); ("z", "def"); ("x-2", "d"); ("w", "d")].
Proof. vm_compute. reflexivity. Qed.
