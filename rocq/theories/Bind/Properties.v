(** C86-C88: the binding of an operation *)
From Coq Require Import String List Bool Arith NArith Lia Permutation.
From Verif.Bind Require Import Model Spec Run Args Proofs More.
Import ListNotations.
Local Open Scope string_scope.
Local Open Scope nat_scope.
Local Open Scope list_scope.

(** ** C86: what is bound is the operation of the document *)
Theorem C86_tree S D fuel root sels s r :
  well_formed S -> bind_root S D fuel root sels = (s, r) -> st_diverged s = false -> st_errors s = [] ->
  exists ys, resolves_all S D root sels ys /\ reads_set s r ys /\ forall zs, reads_set s r zs -> zs = ys.
Proof.
  intros WF H Hd He. destruct (bind_root_good S D WF _ _ _ _ _ H Hd He) as [ys [G R]]. exists ys. split; [now apply good_resolves|split; [exact R|]].
  intros zs Hz. symmetry. exact (proj1 (proj2 (reads_fun s)) _ _ R _ Hz).
Qed.
Theorem C86_fields S D fuel root sels s r :
  well_formed S -> bind_root S D fuel root sels = (s, r) -> st_diverged s = false -> st_errors s = [] ->
  exists ys out N, resolves_all S D root sels ys /\ (forall k, N <= k -> fields k s r = Some out) /\ reads_all s out (flat_map flatten ys).
Proof.
  intros WF H Hd He. destruct (bind_root_good S D WF _ _ _ _ _ H Hd He) as [ys [G R]]. destruct (fields_flatten s r ys R) as [N [out [E F]]].
  exists ys, out, N. split; [now apply good_resolves|auto].
Qed.
(** Binding ends when no fragment contains itself *)
Theorem C86_ends S D root sels : acyclic D -> exists N, forall fuel, N <= fuel -> st_diverged (fst (bind_root S D fuel root sels)) = false.
Proof. apply acyclic_ends. Qed.
(** Each fragment is bound once, however often it is spread: what is bound is never larger than the document. *)
Theorem C86_size S D fuel root sels s r : acyclic D -> bind_root S D fuel root sels = (s, r) ->
  List.length (st_data s) + List.length (st_typenames s) + List.length (st_inlines s) + List.length (st_spreads s) <= document_size D sels /\
  List.length (st_shared s) <= document_size D sels /\ List.length (st_frags s) <= List.length (doc_frags D).
Proof. intros HA H. destruct (bound_sizes S D _ _ _ _ _ HA H) as [A [B C]]. unfold nodes in *. split; [exact A|split; [lia|exact C]]. Qed.
Theorem C86_fits S D fuel root sels s r : acyclic D -> bind_root S D fuel root sels = (s, r) ->
  (N.of_nat (document_size D sels) <= 65535)%N -> (N.of_nat (List.length (doc_frags D)) <= 65535)%N -> overflows s = false.
Proof.
  intros HA H H1 H2. destruct (C86_size _ _ _ _ _ _ _ HA H) as [A [B C]]. unfold overflows, too_long. rewrite !orb_false_iff, !N.ltb_ge. repeat split; lia.
Qed.

(** *** Examples *)
Module Ex.
Definition mk (id : nat) (n : name) (ty : nat) (hid def nn : bool) : argdef := {| a_id := id; a_name := n; a_inaccessible := hid; a_type := ty; a_default := def; a_nonnull := nn |}.
(** types: 0 Query, 1 User (object), 2 Node (interface of User), 3 Int, 4 Robot (object), 5 Mutation;
    fields: 0 Query.user(id: Int!, n: Int = 1, hidden: Int!), 1 User.id, 2 User.name, 3 Node.id, 4 Query.node, 5 __schema, 6 Query.self, 7 Mutation.query, 8 User.secret *)
Definition sch : schema := {|
  s_kind := fun t => match t with 0 => KObject | 1 => KObject | 2 => KInterface | 3 => KScalar | 4 => KObject | 5 => KObject | _ => KInput end;
  s_type := fun n => if String.eqb n "Query" then Some 0 else if String.eqb n "User" then Some 1 else if String.eqb n "Node" then Some 2 else
            if String.eqb n "Int" then Some 3 else if String.eqb n "Robot" then Some 4 else None;
  s_tname := fun t => match t with 0 => "Query" | 1 => "User" | 2 => "Node" | 3 => "Int" | _ => "Robot" end;
  s_type_inaccessible := fun _ => false;
  s_fields := fun t => match t with 0 => [("user", 0); ("node", 4); ("__schema", 5); ("self", 6)] | 1 => [("id", 1); ("name", 2); ("secret", 8)] | 2 => [("id", 3)] | 5 => [("query", 7)] | _ => [] end;
  s_field_inaccessible := fun f => f =? 8;
  s_field_type := fun f => match f with 0 => 1 | 4 => 2 | 5 => 4 | 6 => 0 | 7 => 0 | _ => 3 end;
  s_args := fun f => match f with 0 => [mk 0 "id" 0 false false true; mk 1 "n" 0 false true false; mk 2 "hidden" 0 true false true] | _ => [] end;
  s_intersects := fun a b => (a =? b) || match a, b with 1, 2 | 2, 1 => true | _, _ => false end;
  s_coerces := fun _ v => v <? 100;
  s_boolean := 9; s_query := 0; s_mutation := Some 5; s_subscription := None; s_meta_fields := [5]; s_no_introspection := true |}.
Lemma wf : well_formed sch.
Proof.
  constructor.
  - intros f. cbn. destruct f as [|f]; cbn; [|constructor]. repeat constructor; cbn; intuition discriminate.
  - intros n t. cbn.
    repeat match goal with |- context [String.eqb n ?k] => destruct (String.eqb_spec n k) as [-> | _]; [intros [= <-]; reflexivity|] end. discriminate.
Qed.
Definition fld (n : name) (l : list selection) : selection := Field None n [] [] l.
Definition dskip (v : nat) : directive := {| d_name := "skip"; d_args := [("if", v)] |}.
Definition dinclude (v : nat) : directive := {| d_name := "include"; d_args := [("if", v)] |}.
Definition doc (l : list selection) (fs : list (name * (name * list selection))) : document := {| doc_ops := [{| o_type := Query; o_name := None; o_sels := l |}]; doc_frags := fs |}.
(** { u: user(id: 7) @include(if: 1) @skip(if: 0) { ...F __typename } node { ...F ... on User { name } } }  fragment F on User { id } *)
Definition sels : list selection :=
  [Field (Some "u") "user" [("id", 7)] [dinclude 1; dskip 0] [Spread "F" []; fld "__typename" []]; fld "node" [Spread "F" []; Inline (Some "User") [] [fld "name" []]]].
Definition d : document := doc sels [("F", ("User", [fld "id" []]))].
Lemma d_acyclic : acyclic d.
Proof.
  exists (fun _ => 0). intros n c l x m L Hx Hm. exfalso. inversion L as [? ? E1 E2|? ? ? ? ? L']; subst; [|inversion L'].
  destruct Hx as [<- | []]. inversion Hm as [|? ? ? ? ? ? ? Hi|]; subst. destruct Hi.
Qed.
End Ex.
Example C86_example :
  let '(s, r) := bind_root Ex.sch Ex.d 2 0 Ex.sels in
  st_errors s = [] /\ st_diverged s = false /\ List.length (st_frags s) = 1 /\ List.length (st_data s) = 4 /\
  reads_set s r [TField 0 "u" [(0, Given 7); (1, Default)] [Skip 0; Include 1] [TSpread 1 [] [TField 1 "id" [] [] []]; TTypename "__typename" []];
                 TField 4 "node" [] [] [TSpread 1 [] [TField 1 "id" [] [] []]; TInline (Some 1) [] [TField 2 "name" [] [] []]]] /\
  fields 4 s r = Some [IdField 1; IdField 3] /\ overflows s = false.
Proof.
  vm_compute. do 4 (split; [reflexivity|]). split; [|split; reflexivity].
  assert (Z : forall s, reads_set s (0, 0) []) by (intros; constructor; [cbn; lia|cbn; constructor]).
  constructor; [cbn; lia|]. cbn. constructor; [|constructor; [|constructor]].
  - eapply (Rd_field _ 1 {| df_def := 0 |}); [reflexivity|]. constructor; [cbn; lia|]. cbn. constructor; [|constructor; [|constructor]].
    + eapply (Rd_spread _ 0 {| sp_frag := 0 |} {| fr_cond := 1 |}); [reflexivity|reflexivity|]. constructor; [cbn; lia|]. cbn. constructor; [|constructor].
      eapply (Rd_field _ 0 {| df_def := 1 |}); [reflexivity|]. apply Z.
    + eapply (Rd_typename _ 0 {| tf_key := _ |}). reflexivity.
  - eapply (Rd_field _ 3 {| df_def := 4 |}); [reflexivity|]. constructor; [cbn; lia|]. cbn. constructor; [|constructor; [|constructor]].
    + eapply (Rd_spread _ 1 {| sp_frag := 0 |} {| fr_cond := 1 |}); [reflexivity|reflexivity|]. constructor; [cbn; lia|]. cbn. constructor; [|constructor].
      eapply (Rd_field _ 0 {| df_def := 1 |}); [reflexivity|]. apply Z.
    + eapply (Rd_inline _ 0 {| in_cond := Some 1 |}); [reflexivity|]. constructor; [cbn; lia|]. cbn. constructor; [|constructor].
      eapply (Rd_field _ 2 {| df_def := 2 |}); [reflexivity|]. apply Z.
Qed.
(** A valid operation that is too long: the server panics instead of answering. *)
Theorem C86_many_refuted : exists S D root sels fuel s r,
  well_formed S /\ acyclic D /\ bind_root S D fuel root sels = (s, r) /\ st_diverged s = false /\ st_errors s = [] /\ overflows s = true.
Proof.
  set (n := N.to_nat 65536).
  assert (H : forall bf k p s, exists s' ids, bind_list Ex.sch bf p (repeat (Ex.fld "__typename" []) k) s = (s', ids) /\
    st_diverged s' = st_diverged s /\ st_errors s' = st_errors s /\ List.length (st_typenames s') = k + List.length (st_typenames s)).
  { intros bf. induction k as [|k IH]; intros p s; cbn [repeat bind_list]; [exists s, []; auto|].
    rewrite bind_selection_eq. cbn. match goal with |- context [bind_list _ _ p _ ?s1] => destruct (IH p s1) as [s' [ids [E [A [B C]]]]]; rewrite E end.
    do 2 eexists. split; [reflexivity|]. cbn in *. rewrite app_length in C. cbn in C. split; [exact A|split; [exact B|lia]]. }
  destruct (H (bind_fragment Ex.sch (Ex.doc [] []) 0) n 0 init) as [s' [ids [E [A [B C]]]]].
  exists Ex.sch, (Ex.doc [] []), 0, (repeat (Ex.fld "__typename" []) n), 0. do 2 eexists.
  split; [apply Ex.wf|split; [|split; [unfold bind_root, bind_set; rewrite E; reflexivity|split; [exact A|split; [exact B|]]]]].
  - exists (fun _ => 0). intros m c l x k L. inversion L.
  - unfold overflows. apply orb_true_iff; left. apply orb_true_iff; left. apply orb_true_iff; left. apply orb_true_iff; left. apply orb_true_iff; right.
    unfold too_long. apply N.ltb_lt. cbn [push_shared st_typenames]. rewrite C. cbn [init st_typenames List.length]. rewrite Nat.add_0_r. unfold n. rewrite N2Nat.id. lia.
Qed.

(** ** C87: an operation is accepted exactly when nothing is wrong with it, and diagnostics say what is wrong *)
Theorem C87_accepts S D fuel root sels s r :
  well_formed S -> bind_root S D fuel root sels = (s, r) -> st_diverged s = false ->
  (st_errors s = [] <-> forall p x e, position_of S D root sels p x -> ~ fault S D p x e).
Proof. intros WF. now apply bind_root_accepts. Qed.
Theorem C87_blames S D fuel root sels s r :
  well_formed S -> bind_root S D fuel root sels = (s, r) -> st_diverged s = false ->
  forall e, In e (st_errors s) -> exists p x, position_of S D root sels p x /\ fault S D p x e.
Proof. intros WF H Hd e He. exact (bind_root_blames S D WF _ _ _ _ _ H Hd e He). Qed.
(** Clients cannot tell an inaccessible field, argument or type from one that does not exist. *)
Theorem C87_inaccessible S D fuel root sels s r p alias n args dirs l f :
  well_formed S -> bind_root S D fuel root sels = (s, r) -> st_diverged s = false -> st_errors s = [] ->
  position_of S D root sels p (Field alias n args dirs l) -> n <> "__typename" -> lookup n (s_fields S p) f ->
  s_field_inaccessible S f = false /\ forall m v, In (m, v) args -> exists a, In a (s_args S f) /\ a_name a = m /\ a_inaccessible a = false.
Proof.
  intros WF H Hd He HP Hn L. pose proof (proj1 (C87_accepts _ _ _ _ _ _ _ WF H Hd) He) as HF.
  destruct (bind_root_good S D WF _ _ _ _ _ H Hd He) as [ys [G _]]. destruct (good_positions _ _ _ _ _ G _ _ HP) as [y Gy].
  inversion Gy; subst; [contradiction|].
  match goal with V : visible_field _ _ _ ?g |- _ => destruct V as [K L' I']; pose proof (lookup_fun _ _ _ _ L L'); subst g end.
  split; [exact I'|]. intros m v Hi.
  destruct (existsb (fun a => String.eqb (a_name a) m && negb (a_inaccessible a)) (s_args S f)) eqn:E.
  - apply existsb_exists in E. destruct E as [a [Ha E]]. apply andb_true_iff in E. destruct E as [E1 E2]. apply String.eqb_eq in E1. apply negb_true_iff in E2. exists a. auto.
  - exfalso. eapply HF; [exact HP|]. eapply Fault_arg; [exact Hn|constructor; eauto|]. eapply Fault_unknown; [exact Hi|].
    intros [a [[H1 H2] H3]]. apply Bool.not_true_iff_false in E. apply E. apply existsb_exists. exists a. split; [exact H1|]. rewrite H3, H2, String.eqb_refl. reflexivity.
Qed.
Example C87_example :
  (* { user(id: 7) { secret, name { id } } node { ...F, ...G } user(m: 1, n: 200) }  fragment F on Robot { id } *)
  st_errors (fst (bind_root Ex.sch (Ex.doc [] [("F", ("Robot", [Ex.fld "id" []]))]) 2 0
    [Field None "user" [("id", 7)] [] [Ex.fld "secret" []; Ex.fld "name" [Ex.fld "id" []]]; Ex.fld "node" [Spread "F" []; Spread "G" []];
     Field None "user" [("m", 1); ("n", 200); ("hidden", 1)] [{| d_name := "skip"; d_args := [] |}] [Ex.fld "__typename" []]; Ex.fld "node" []]))
  = [UnknownField 1 "secret"; CannotHaveSelectionSet 2; DisjointTypeCondition 2 "Robot"; UnknownFragment "G";
     MissingArgument 0 "id"; BadValue 0 200; UnknownArgument 0 "m"; MissingDirectiveArgument "skip"; LeafMustBeAScalarOrEnum 4].
Proof. vm_compute. reflexivity. Qed.

(** *** Rules of GraphQL that are not checked *)
Definition accepted (S : schema) (D : document) (sels : list selection) : Prop :=
  exists fuel s r, bind_root S D fuel (s_query S) sels = (s, r) /\ st_diverged s = false /\ st_errors s = [].
Ltac accept k := exists k; do 2 eexists; split; [vm_compute; reflexivity|split; reflexivity].
(** Field Selection Merging: { user(id: 1) { x: id x: name } } *)
Theorem C87_merge_refuted : exists S sels a b k l,
  well_formed S /\ accepted S (Ex.doc sels []) sels /\ sels = [Field None "user" k [] l] /\ l = [Field (Some "x") a [] [] []; Field (Some "x") b [] [] []] /\ a <> b.
Proof.
  exists Ex.sch, [Field None "user" [("id", 1)] [] [Field (Some "x") "id" [] [] []; Field (Some "x") "name" [] [] []]], "id", "name". do 2 eexists.
  split; [apply Ex.wf|split; [accept 0|split; [reflexivity|split; [reflexivity|discriminate]]]].
Qed.
(** Argument Names, Leaf Field Selections: { __typename(x: 1) { anything } } *)
Theorem C87_typename_refuted : exists S args sels, well_formed S /\ args <> [] /\ sels <> [] /\ accepted S (Ex.doc [] []) [Field None "__typename" args [] sels].
Proof. exists Ex.sch, [("x", 1)], [Ex.fld "anything" []]. split; [apply Ex.wf|split; [discriminate|split; [discriminate|accept 0]]]. Qed.
(** Directives Are Defined, Argument Names, Directives Are Unique Per Location: { __typename @skip(x: 1, y: 2) @skip(if: 1) @nope } *)
Theorem C87_directives_refuted : exists S dirs, well_formed S /\ accepted S (Ex.doc [] []) [Field None "__typename" [] dirs []] /\
  (exists x, In x dirs /\ d_name x = "nope") /\ (exists x m v w, In x dirs /\ d_name x = "skip" /\ d_args x = [(m, v); w] /\ m <> "if") /\ ~ NoDup (map d_name dirs).
Proof.
  exists Ex.sch, [{| d_name := "skip"; d_args := [("x", 1); ("y", 2)] |}; Ex.dskip 1; {| d_name := "nope"; d_args := [] |}].
  split; [apply Ex.wf|split; [accept 0|split; [|split]]].
  - eexists. split; [right; right; left; reflexivity|reflexivity].
  - do 4 eexists. split; [left; reflexivity|split; [reflexivity|split; [reflexivity|discriminate]]].
  - intros H. cbn in H. inversion H as [|? ? X _]; subst. apply X. now left.
Qed.
(** Fragments Must Be Used, Fragment Name Uniqueness, and the rules inside of unused fragments *)
Theorem C87_fragments_refuted : exists S D sels n c l x, well_formed S /\ accepted S D sels /\ ~ NoDup (map fst (doc_frags D)) /\
  In (n, (c, l)) (doc_frags D) /\ In x l /\ (forall y, In y sels -> ~ spreads_in y n) /\ fault S D 1 x (UnknownField 1 "nope").
Proof.
  exists Ex.sch, (Ex.doc [] [("F", ("User", [Ex.fld "nope" []])); ("F", ("Unknown", []))]), [Ex.fld "__typename" []], "F", "User", [Ex.fld "nope" []], (Ex.fld "nope" []).
  split; [apply Ex.wf|split; [accept 0|split; [|split; [now left|split; [now left|split]]]]].
  - intros H. cbn in H. inversion H as [|? ? X _]; subst. apply X. now left.
  - intros y [<- | []] H. inversion H as [|? ? ? ? ? ? ? Hi|]; subst. destruct Hi.
  - apply Fault_field; [discriminate|discriminate|]. intros f [_ L _]. cbn in L. inversion L as [|? ? ? ? ? L1]; subst. inversion L1 as [|? ? ? ? ? L2]; subst. inversion L2 as [|? ? ? ? ? L3]; subst. inversion L3.
Qed.

(** ** C88: which operation, and whether it may ask about the schema *)
(** The operation that is executed: the one asked for, or the only one. The binder does not panic on its name. *)
Theorem C88_operation D n : match select_operation D n with
  | inr m => exists o, the_operation D m = Some o /\ In o (doc_ops D) /\ match n with Some k => o_name o = Some k | None => doc_ops D = [o] end
  | inl MissingOperationName => n = None /\ 2 <= List.length (doc_ops D)
  | inl MissingOperations => n = None /\ doc_ops D = []
  | inl (UnknownOperation k) => n = Some k /\ forall o, In o (doc_ops D) -> o_name o <> Some k
  end.
Proof.
  unfold select_operation. destruct n as [k|].
  - destruct (find (named k) (doc_ops D)) as [o|] eqn:F.
    + exists o. cbn [the_operation]. split; [exact F|]. apply find_some in F. destruct F as [F E]. split; [exact F|]. unfold named in E.
      destruct (o_name o) as [m|]; [|discriminate]. apply String.eqb_eq in E. congruence.
    + split; [reflexivity|]. intros o Ho E. pose proof (find_none _ _ F _ Ho) as Q. unfold named in Q. rewrite E, String.eqb_refl in Q. discriminate.
  - destruct (doc_ops D) as [|o [|o' l]] eqn:E; cbn [List.length Nat.ltb Nat.leb].
    + auto.
    + exists o. split; [|split; [now left|reflexivity]]. unfold the_operation. destruct (o_name o) as [m|] eqn:Eo; rewrite E; [|reflexivity].
      cbn [find]. unfold named. rewrite Eo, String.eqb_refl. reflexivity.
    + split; [reflexivity|lia].
Qed.
(** A query is accepted when introspection is disabled exactly when none of its root fields, in fragments or not, is __schema or __type. *)
Theorem C88_introspection S D fuel o s r :
  well_formed S -> bind_root S D fuel (s_query S) (o_sels o) = (s, r) -> st_diverged s = false -> st_errors s = [] -> o_type o = Query -> s_no_introspection S = true ->
  exists ys N b, resolves_all S D (s_query S) (o_sels o) ys /\ (forall k, N <= k -> introspection_accepted S k o s r = Some b) /\
    (b = true <-> forall f key args conds subs, In (TField f key args conds subs) (flat_map flatten ys) -> ~ In f (s_meta_fields S)).
Proof.
  intros WF H Hd He Ho Hi. destruct (C86_fields _ _ _ _ _ _ _ WF H Hd He) as [ys [out [N [R [E F]]]]].
  set (ok := fun id => match id with IdField n => match nth_error (st_data s) n with Some f => negb (existsb (Nat.eqb (df_def f)) (s_meta_fields S)) | None => true end | _ => true end).
  exists ys, N, (forallb ok out). split; [exact R|split].
  - intros k Hk. unfold introspection_accepted. rewrite Ho, Hi, (E _ Hk). reflexivity.
  - clear -F. revert F. generalize (flat_map flatten ys). intros zs F. induction F as [|id ids y zs R _ IH]; [split; [intros _ ? ? ? ? ? []|reflexivity]|]. cbn [forallb]. rewrite andb_true_iff, IH. clear IH. split.
    + intros [A B] f key args conds subs [-> | Hin]; [|eapply B; eauto]. inversion R as [|n df subs' N' R'| |]; subst. cbn [ok] in A. rewrite N' in A.
      apply negb_true_iff in A. intros Hin. apply Bool.not_true_iff_false in A. apply A. apply existsb_exists. exists (df_def df). split; [exact Hin|apply Nat.eqb_refl].
    + intros A. split.
      * inversion R as [|n df subs' N' R'| |]; subst; try reflexivity. cbn [ok]. rewrite N'. apply negb_true_iff. apply Bool.not_true_iff_false. intros B. apply existsb_exists in B.
        destruct B as [m [B1 B2]]. apply Nat.eqb_eq in B2. subst m. eapply A; [left; reflexivity|exact B1].
      * intros f key args conds subs Hin. eapply A. right. exact Hin.
Qed.
Example C88_example :
  let D := Ex.doc [] [("F", ("Query", [Ex.fld "__schema" [Ex.fld "__typename" []]]))] in
  let o := {| o_type := Query; o_name := None; o_sels := [Inline None [] [Spread "F" []]] |} in
  let '(s, r) := bind_root Ex.sch D 1 0 (o_sels o) in st_errors s = [] /\ introspection_accepted Ex.sch 9 o s r = Some false /\
  select_operation {| doc_ops := [o; o]; doc_frags := [] |} None = inl MissingOperationName.
Proof. vm_compute. auto. Qed.
(** Only root fields of queries are looked at: { self { __schema { __typename } } } and mutation { query { __schema { __typename } } } pass. *)
Theorem C88_nested_refuted : exists S o s r t f key,
  well_formed S /\ s_no_introspection S = true /\ o_type o = Query /\ bind_root S (Ex.doc [] []) 0 (s_query S) (o_sels o) = (s, r) /\ st_errors s = [] /\
  introspection_accepted S 9 o s r = Some true /\ reads_set s r [TField t "self" [] [] [TField f key [] [] [TTypename "__typename" []]]] /\ In f (s_meta_fields S).
Proof.
  exists Ex.sch, {| o_type := Query; o_name := None; o_sels := [Ex.fld "self" [Ex.fld "__schema" [Ex.fld "__typename" []]]] |}. do 2 eexists. exists 6, 5, "__schema".
  split; [apply Ex.wf|split; [reflexivity|split; [reflexivity|split; [vm_compute; reflexivity|split; [reflexivity|split; [reflexivity|split; [|now left]]]]]]].
  constructor; [cbn; lia|]. cbn. constructor; [|constructor].
  eapply (Rd_field _ 1 {| df_def := 6 |}); [reflexivity|]. constructor; [cbn; lia|]. cbn. constructor; [|constructor].
  eapply (Rd_field _ 0 {| df_def := 5 |}); [reflexivity|]. constructor; [cbn; lia|]. cbn. constructor; [|constructor].
  eapply (Rd_typename _ 0 {| tf_key := _ |}). reflexivity.
Qed.
Theorem C88_mutation_refuted : exists S o root s r f,
  well_formed S /\ s_no_introspection S = true /\ o_type o = Mutation /\ root_type S o = inr root /\ bind_root S (Ex.doc [] []) 0 root (o_sels o) = (s, r) /\ st_errors s = [] /\
  introspection_accepted S 9 o s r = Some true /\ In f (map df_def (st_data s)) /\ In f (s_meta_fields S).
Proof.
  exists Ex.sch, {| o_type := Mutation; o_name := None; o_sels := [Ex.fld "query" [Ex.fld "__schema" [Ex.fld "__typename" []]]] |}, 5. do 2 eexists. exists 5.
  split; [apply Ex.wf|split; [reflexivity|split; [reflexivity|split; [reflexivity|split; [vm_compute; reflexivity|split; [reflexivity|split; [reflexivity|split; now left]]]]]]].
Qed.
