(** C123, continued: query strings, and requests that are written and read again. *)
From Coq Require Import List Bool Ascii String NArith ZArith Lia Sorting.Permutation.
From Verif.Requests Require Import Model Spec Properties.
Import ListNotations.
Open Scope string_scope.
Open Scope list_scope.

Lemma app_assoc_s : forall a b c : string, ((a ++ b) ++ c)%string = (a ++ (b ++ c))%string.
Proof. induction a as [|x a IH]; intros b c; [reflexivity|]. cbn [String.append]. rewrite IH. reflexivity. Qed.

Fixpoint Chars (P : ascii -> Prop) (s : string) : Prop :=
  match s with EmptyString => True | String c s => P c /\ Chars P s end.

(** What escapes are made of. *)
Definition safe (c : ascii) : Prop := c <> "&"%char /\ c <> "="%char.

Lemma digit_ok : forall n, (n < 16)%N -> hex_value (digit n) = Some n /\ safe (digit n).
Proof.
  intros n L. assert (H : In n (map N.of_nat (seq 0 16))).
  { apply in_map_iff. exists (N.to_nat n). split; [lia|]. apply in_seq. lia. }
  cbn [seq map In] in H. repeat (destruct H as [<-|H]; [vm_compute; split; [reflexivity|split; discriminate]|]). destruct H.
Qed.

Lemma plain_ok : forall c, plain c = true -> safe c /\ Ascii.eqb c "+" = false /\ Ascii.eqb c "%" = false.
Proof.
  intros c H. split; [split|split].
  - intros ->. discriminate.
  - intros ->. discriminate.
  - destruct (Ascii.eqb c "+") eqn:E; [|reflexivity]. apply Ascii.eqb_eq in E. subst c. discriminate.
  - destruct (Ascii.eqb c "%") eqn:E; [|reflexivity]. apply Ascii.eqb_eq in E. subst c. discriminate.
Qed.

Lemma byte_digits : forall c,
  (N.div (N_of_ascii c) 16 < 16)%N /\ (N.modulo (N_of_ascii c) 16 < 16)%N /\
  ascii_of_N (16 * N.div (N_of_ascii c) 16 + N.modulo (N_of_ascii c) 16) = c.
Proof.
  intros c. pose proof (N_ascii_bounded c) as B.
  assert (NZ : (16 <> 0)%N) by discriminate. pose proof (N.div_mod (N_of_ascii c) 16 NZ) as D.
  pose proof (N.mod_lt (N_of_ascii c) 16 NZ) as M. rewrite <- D, ascii_N_embedding. split; [|split; [exact M|reflexivity]].
  apply N.div_lt_upper_bound; [exact NZ|exact B].
Qed.

Lemma encode_safe : forall s, Chars safe (encode s).
Proof.
  induction s as [|c s IH]; cbn [encode]; [exact Logic.I|]. destruct (plain c) eqn:P.
  - split; [apply plain_ok, P|exact IH].
  - destruct (Ascii.eqb c " "); [split; [split; discriminate|exact IH]|].
    destruct (byte_digits c) as (A & B & _).
    split; [split; discriminate|]. split; [apply digit_ok, A|]. split; [apply digit_ok, B|exact IH].
Qed.

Lemma decode_encode : forall s, decode (encode s) = s.
Proof.
  induction s as [|c s IH]; cbn [encode]; [reflexivity|]. destruct (plain c) eqn:P.
  - destruct (plain_ok c P) as (_ & H1 & H2). cbn [decode]. rewrite H1, H2, IH. reflexivity.
  - destruct (Ascii.eqb c " ") eqn:E.
    + apply Ascii.eqb_eq in E. subst c. cbn [decode]. rewrite Ascii.eqb_refl, IH. reflexivity.
    + destruct (byte_digits c) as (A & B & C). destruct (digit_ok _ A) as [Ha _], (digit_ok _ B) as [Hb _].
      change (decode (String "%" (String (digit (N.div (N_of_ascii c) 16)) (String (digit (N.modulo (N_of_ascii c) 16)) (encode s)))))
        with (match hex_value (digit (N.div (N_of_ascii c) 16)), hex_value (digit (N.modulo (N_of_ascii c) 16)) with
              | Some x, Some y => String (ascii_of_N (16 * x + y)) (decode (encode s))
              | _, _ => String "%" (decode (String (digit (N.div (N_of_ascii c) 16)) (String (digit (N.modulo (N_of_ascii c) 16)) (encode s))))
              end).
      rewrite Ha, Hb, C, IH. reflexivity.
Qed.

Lemma split_safe : forall s rest, Chars (fun c => c <> "&"%char) s ->
  split "&" (s ++ String "&" rest)%string = s :: split "&" rest.
Proof.
  induction s as [|c s IH]; intros rest H; cbn [String.append split].
  - rewrite Ascii.eqb_refl. reflexivity.
  - destruct H as [H1 H2]. apply Ascii.eqb_neq in H1. rewrite H1, (IH _ H2). reflexivity.
Qed.

Lemma split_last : forall s, Chars (fun c => c <> "&"%char) s -> split "&" s = [s].
Proof.
  induction s as [|c s IH]; intros H; cbn [split]; [reflexivity|]. destruct H as [H1 H2].
  apply Ascii.eqb_neq in H1. rewrite H1, (IH H2). reflexivity.
Qed.

Lemma cut_safe : forall k v, Chars (fun c => c <> "="%char) k -> cut (k ++ String "=" v)%string = (k, v).
Proof.
  induction k as [|c k IH]; intros v H; cbn [String.append cut].
  - rewrite Ascii.eqb_refl. reflexivity.
  - destruct H as [H1 H2]. apply Ascii.eqb_neq in H1. rewrite H1, (IH v H2). reflexivity.
Qed.

Lemma chars_impl : forall (P Q : ascii -> Prop) s, (forall c, P c -> Q c) -> Chars P s -> Chars Q s.
Proof. intros P Q s H. induction s as [|c s IH]; [trivial|]. intros [A B]. split; [apply H, A|apply IH, B]. Qed.

Lemma chars_app : forall P a b, Chars P a -> Chars P b -> Chars P (a ++ b)%string.
Proof. intros P. induction a as [|c a IH]; intros b A B; [exact B|]. destruct A as [A1 A2]. split; [exact A1|apply IH; assumption]. Qed.

Lemma pair_part : forall k v, Chars (fun c => c <> "&"%char) (encode k ++ "=" ++ encode v)%string.
Proof.
  intros k v. apply chars_app; [eapply chars_impl; [|apply encode_safe]; intros c [H _]; exact H|].
  cbn [String.append]. split; [discriminate|]. eapply chars_impl; [|apply encode_safe]. intros c [H _]. exact H.
Qed.

Lemma pair_read : forall k v,
  (let '(a, b) := cut (encode k ++ "=" ++ encode v)%string in (decode a, decode b)) = (k, v).
Proof.
  intros k v. cbn [String.append]. rewrite cut_safe; [rewrite !decode_encode; reflexivity|].
  eapply chars_impl; [|apply encode_safe]. intros c [_ H]. exact H.
Qed.

Lemma part_not_empty : forall k v, String.eqb (encode k ++ "=" ++ encode v)%string "" = false.
Proof. intros k v. destruct (encode k); reflexivity. Qed.

(** Whatever the names and values of parameters are, as bytes, they survive a query string. *)
Theorem C123_query_string : forall l, parse_query (write_query l) = l.
Proof.
  intros l. unfold parse_query. induction l as [|[k v] l IH]; [reflexivity|]. destruct l as [|kv l].
  - cbn [write_query]. rewrite (split_last _ (pair_part k v)). cbn [filter]. rewrite part_not_empty. cbn [negb map].
    rewrite pair_read. reflexivity.
  - change (write_query ((k, v) :: kv :: l)) with (encode k ++ "=" ++ encode v ++ "&" ++ write_query (kv :: l))%string.
    assert (E : (encode k ++ "=" ++ encode v ++ "&" ++ write_query (kv :: l))%string =
                ((encode k ++ "=" ++ encode v) ++ String "&" (write_query (kv :: l)))%string).
    { rewrite !app_assoc_s. reflexivity. }
    rewrite E, (split_safe _ _ (pair_part k v)). cbn [filter]. rewrite part_not_empty. cbn [negb map].
    rewrite pair_read, IH. reflexivity.
Qed.

(** * Requests *)

Lemma write_hex_ok : forall l, Forall (fun n => (n < 256)%N) l -> Hex (write_hex l) l.
Proof.
  induction l as [|n l IH]; intros F; [constructor|]. apply Forall_cons_iff in F. destruct F as [L F]. cbn [write_hex].
  assert (NZ : (16 <> 0)%N) by discriminate. pose proof (N.div_mod n 16 NZ) as D. pose proof (N.mod_lt n 16 NZ) as M.
  assert (Q : (n / 16 < 16)%N) by (apply N.div_lt_upper_bound; [exact NZ|exact L]).
  rewrite D at 3. apply hex_byte; [apply hex_value_spec, digit_ok, Q|apply hex_value_spec, digit_ok, M|apply IH, F].
Qed.

Lemma says_persisted : forall p, (pq_version p < 4294967296)%N -> Forall (fun n => (n < 256)%N) (pq_hash p) ->
  SaysExtensions (write_persisted p) (Some p).
Proof.
  intros [n h] L F. cbn [pq_version pq_hash] in *. unfold write_persisted. cbn [pq_version pq_hash].
  eexists. split; [reflexivity|]. right. eexists. split; [apply values_one; reflexivity|].
  right. eexists. exists n, (write_hex h), h. split; [reflexivity|].
  split; [apply values_one; reflexivity|]. split; [exact L|]. split; [apply values_one; reflexivity|].
  split; [apply write_hex_ok, F|reflexivity].
Qed.

Lemma last_nodup : forall l k x, NoDup (map fst l) -> (Last k l x <-> In (k, x) l).
Proof.
  intros l k x ND. split.
  - intros (b & a & -> & _). apply in_or_app. right. left. reflexivity.
  - intros H. apply in_split in H. destruct H as (b & a & ->). exists b, a. split; [reflexivity|].
    rewrite map_app in ND. cbn [map fst] in ND. apply NoDup_remove_2 in ND. rewrite in_app_iff in ND. tauto.
Qed.

Lemma says_variables : forall m, NoDup (map fst m) -> SaysVariables (JObj m) m.
Proof.
  intros m ND. right. exists m. split; [reflexivity|]. split; [exact ND|]. intros k x. rewrite (last_nodup _ _ _ ND). reflexivity.
Qed.

(** Every request can be sent by POST. *)
Theorem C123_post_roundtrip : forall r, Writable r ->
  exists r', read_batch (write_body r) = Some (Single r') /\ Same r r'.
Proof.
  intros r [ND Hp]. assert (S' : Says (write_body r) r).
  { destruct r as [q o d m p]. unfold write_body. cbn [rq_query rq_operation rq_doc rq_variables rq_persisted] in *.
    eexists. split; [reflexivity|].
    assert (T : forall k l s, values k l = [JStr s] -> Optional k l SaysText None (Some s)).
    { intros k l s H. right. exists (JStr s). split; [apply values_one, H|]. right. exists s. split; reflexivity. }
    assert (Nn : forall B k l (R : json -> B -> Prop) b, values k l = [] -> Optional k l R b b).
    { intros B k l R b H. left. split; [apply values_nil, H|reflexivity]. }
    assert (V : forall l, values "variables" l = [JObj m] -> Optional "variables" l SaysVariables [] m).
    { intros l H. right. exists (JObj m). split; [apply values_one, H|apply says_variables, ND]. }
    assert (X : forall l, values "extensions" l = match p with Some p => [write_persisted p] | None => [] end ->
              Optional "extensions" l SaysExtensions None p).
    { intros l H. destruct p as [p|]; [|apply Nn, H]. right. exists (write_persisted p). split; [apply values_one, H|].
      destruct (Hp p eq_refl) as [A B]. apply says_persisted; assumption. }
    split; [destruct q; [apply T|apply Nn]; destruct o, d, p; reflexivity|].
    split; [destruct o; [apply T|apply Nn]; destruct q, d, p; reflexivity|].
    split; [destruct d; [apply T|apply Nn]; destruct q, o, p; reflexivity|].
    split; [apply V; destruct q, o, d, p; reflexivity|apply X; destruct q, o, d, p; reflexivity]. }
  destruct (C123_post_accepts _ _ S') as (r' & E & Sm). exists r'. split; [|exact Sm].
  unfold write_body in *. cbn [read_batch]. rewrite E. reflexivity.
Qed.

(** The parameters of a request, with [print] for JSON. *)
Definition write_params (print : json -> string) (name : string) (r : request) : list (string * string) :=
  match rq_query r with Some s => [("query", s)] | None => [] end ++
  match rq_operation r with Some s => [(name, s)] | None => [] end ++
  match rq_doc r with Some s => [("doc_id", s)] | None => [] end ++
  [("variables", print (JObj (rq_variables r)))] ++
  match rq_persisted r with Some p => [("extensions", print (write_persisted p))] | None => [] end.

(** Every request can be sent by GET, and is the same as when it is sent by POST: provided its operation is named by
    operation_name. *)
Theorem C123_get_roundtrip_partial : forall parse print r body,
  (forall v, parse (print v) = Some v) -> Writable r ->
  exists r1 r2,
    extract parse false body (Some (write_query (write_params print "operation_name" r))) = Some (Single r1) /\ Same r r1 /\
    extract parse true (print (write_body r)) None = Some (Single r2) /\ Same r r2.
Proof.
  intros parse print r body P W. destruct (C123_post_roundtrip r W) as (r2 & E2 & S2). destruct W as [ND Hp].
  assert (G : Given parse "operation_name" (write_params print "operation_name" r) r).
  { destruct r as [q o d m p]. unfold write_params, Given. cbn [rq_query rq_operation rq_doc rq_variables rq_persisted] in *.
    assert (T : forall k l s, values k l = [s] -> Optional k l (fun s (o : option string) => o = Some s) None (Some s)).
    { intros k l s H. right. exists s. split; [apply values_one, H|reflexivity]. }
    assert (Nn : forall B k (l : list (string * string)) (R : string -> B -> Prop) b, values k l = [] -> Optional k l R b b).
    { intros B k l R b H. left. split; [apply values_nil, H|reflexivity]. }
    split; [destruct q; [apply T|apply Nn]; destruct o, d, p; reflexivity|].
    split; [destruct o; [apply T|apply Nn]; destruct q, d, p; reflexivity|].
    split; [destruct d; [apply T|apply Nn]; destruct q, o, p; reflexivity|].
    split.
    - right. exists (print (JObj m)). split; [apply values_one; destruct q, o, d, p; reflexivity|].
      exists (JObj m). split; [apply P|apply says_variables, ND].
    - destruct p as [p|]; [|apply Nn; destruct q, o, d; reflexivity]. right. exists (print (write_persisted p)).
      split; [apply values_one; destruct q, o, d; reflexivity|]. exists (write_persisted p). split; [apply P|].
      destruct (Hp p eq_refl) as [A B]. apply says_persisted; assumption. }
  destruct (C123_get_accepts _ _ _ G) as (r1 & E1 & S1). exists r1, r2. unfold extract.
  rewrite C123_query_string, E1, P. cbn [bind]. split; [reflexivity|]. split; [exact S1|]. split; [exact E2|exact S2].
Qed.

(** A batch is the list of its requests, whatever the query string. *)
Theorem C123_batch_roundtrip : forall parse print rs query,
  (forall v, parse (print v) = Some v) -> Forall Writable rs ->
  exists rs', extract parse true (print (JArr (map write_body rs))) query = Some (Batch rs') /\ Forall2 Same rs rs'.
Proof.
  intros parse print rs query P W. unfold extract. rewrite P. cbn [bind read_batch].
  assert (A : exists rs', read_all (map write_body rs) = Some rs' /\ Forall2 Same rs rs').
  { induction W as [|r rs Wr W IH]; [exists []; split; [reflexivity|constructor]|].
    destruct IH as (rs' & E & Sm). destruct (C123_post_roundtrip r Wr) as (r' & Er & Sr). exists (r' :: rs').
    split; [|constructor; assumption].
    assert (Rr : read_request (write_body r) = Some r').
    { unfold read_batch, write_body in Er. apply bind_some in Er. destruct Er as (x & Hx & Er). injection Er as ->. exact Hx. }
    cbn [map read_all]. rewrite Rr, E. reflexivity. }
  destruct A as (rs' & E & Sm). exists rs'. rewrite E. split; [reflexivity|exact Sm].
Qed.

(** A POST request has nothing of the query string, and without a query string a GET request has nothing at all: its body is not
    read. *)
Theorem C123_sources : forall parse,
  (forall body q1 q2, extract parse true body q1 = extract parse true body q2) /\
  forall body, extract parse false body None =
    Some (Single {| rq_query := None; rq_operation := None; rq_doc := None; rq_variables := []; rq_persisted := None |}).
Proof. intros parse. split; [reflexivity|]. intros body. reflexivity. Qed.

(** All of a body and all of a query string: what is read is what they say. *)
Theorem C123_extract : forall parse post body query b, extract parse post body query = Some b ->
  if post then exists v, parse body = Some v /\ match b with Single r => Says v r | Batch rs => exists l, v = JArr l /\ Forall2 Says l rs end
  else exists r, b = Single r /\ forall l, query = Some (write_query l) -> Given parse "operation_name" l r.
Proof.
  intros parse [] body query b E; unfold extract in E; apply bind_some in E; destruct E as (x & Hx & E).
  - exists x. split; [exact Hx|apply C123_batch, E].
  - injection E as <-. exists x. split; [reflexivity|]. intros l ->. rewrite C123_query_string in Hx. apply C123_get, Hx.
Qed.

(** Not so: GET and POST requests are the same. By the specification the parameter is operationName; it is ignored. *)
Theorem C123_operation_name_refuted : exists parse print r r1 r2,
  Writable r /\ rq_operation r = Some "b" /\
  extract parse false "" (Some (write_query (write_params print "operationName" r))) = Some (Single r1) /\
  extract parse true (print (write_body r)) None = Some (Single r2) /\
  rq_operation r1 = None /\ rq_operation r2 = Some "b".
Proof.
  set (r := {| rq_query := Some "query a { x } query b { y }"; rq_operation := Some "b"; rq_doc := None; rq_variables := []; rq_persisted := None |}).
  exists (fun s => if String.eqb s "v" then Some (JObj []) else Some (write_body r)),
    (fun v => match v with JObj [] => "v" | _ => "body" end), r. eexists. eexists.
  split; [split; [constructor|intros p E; discriminate]|]. split; [reflexivity|].
  split; [vm_compute; reflexivity|]. split; [vm_compute; reflexivity|]. split; reflexivity.
Qed.

(** The parameter is ignored whatever else there is: no GET request that follows the specification has an operation. *)
Theorem C123_operation_name_ignored : forall parse l r,
  ~ In "operation_name" (map fst l) -> read_params parse l = Some r -> rq_operation r = None.
Proof.
  intros parse l r N1 E. apply C123_get in E. destruct E as (_ & [[_ H]|(v & (b & a & -> & _) & _)] & _); [exact H|].
  exfalso. apply N1. rewrite map_app, in_app_iff. right. left. reflexivity.
Qed.

(** Not so: a member that is null is as good as absent. It is for all members but the extensions. *)
Theorem C123_null_extensions_refuted : exists l r,
  read_batch (JObj l) = Some (Single r) /\ read_batch (JObj (("extensions", JNull) :: l)) = None /\
  read_batch (JObj (("variables", JNull) :: ("operationName", JNull) :: ("doc_id", JNull) :: l)) = Some (Single r).
Proof.
  exists [("query", JStr "{ a }")]. eexists. split; [vm_compute; reflexivity|]. split; vm_compute; reflexivity.
Qed.

(** A request with all there is, and one that has too much. *)
Example ex_full :
  read_batch (JObj [("variables", JObj [("a", JInt 1); ("b", JBool true); ("a", JInt 2)]); ("unknown", JArr []); ("query", JStr "q");
                    ("extensions", JObj [("persistedQuery", JObj [("sha256Hash", JStr "00fF"); ("version", JInt 1)]); ("trace", JNull)])]) =
  Some (Single {| rq_query := Some "q"; rq_operation := None; rq_doc := None; rq_variables := [("a", JInt 2); ("b", JBool true)];
                  rq_persisted := Some {| pq_version := 1; pq_hash := [0; 255]%N |} |}).
Proof. vm_compute. reflexivity. Qed.

Example ex_twice : read_batch (JObj [("query", JStr "a"); ("query", JStr "b")]) = None.
Proof. vm_compute. reflexivity. Qed.

Example ex_batch : read_batch (JArr [JObj [("query", JStr "a")]; JStr "b"]) = None.
Proof. vm_compute. reflexivity. Qed.

Example ex_query_string :
  parse_query "query=%7B+a%20%7D&&x&variables=%7b%7D&doc_id=a=b%" =
  [("query", "{ a }"); ("x", ""); ("variables", "{}"); ("doc_id", "a=b%")].
Proof. vm_compute. reflexivity. Qed.
