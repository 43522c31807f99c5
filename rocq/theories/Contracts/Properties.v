(** C97: what @inaccessible hides.  C98: what a contract decides.  C99: what a contract leaves. *)
From Coq Require Import String List Arith ZArith Bool Lia.
From Verif.Contracts Require Import Model Spec Finalize Complete Decisions Walks.
Import ListNotations.
Local Open Scope nat_scope.
Local Open Scope list_scope.

(** All sites of a schema, to look at examples. *)
Definition sites (g : graph) : list site :=
  map SType (types g) ++ map SField (ids (g_fields g)) ++ map SValue (ids (g_values g)) ++ map SEnumValue (ids (g_enum_values g)).
Definition shown (g : graph) (o : outcome marks) : option (list site) :=
  match o with Done m => Some (filter (fun s => negb (m s)) (sites g)) | _ => None end.
Definition of_list (l : list site) : marks := fun s => existsb (site_eqb s) l.

Ltac fin := intros; repeat match goal with
  | H : _ \/ _ |- _ => destruct H
  | H : False |- _ => destruct H
  | H : Some _ = Some _ |- _ => injection H as H
  end; subst; cbn in *; try (exfalso; lia); try discriminate; intuition (try lia; try congruence).
Ltac index n := do 9 (destruct n as [|n]; [cbn in *; fin|]); cbn in *; fin.

(** type Query { user(filter: Filter!): User  search(text: String): Result  __schema: String }
    type User implements Node { name: String  secret: Secret }   type Secret implements Node { key: String }
    interface Node { id: String }   union Any = User | Secret   union Result = Secret
    enum Color { RED BLUE }   input Filter { key: String!  color: Color } *)
Definition ex : graph := MkGraph
  ["String"%string]
  [MkObject [0; 1; 2] []; MkObject [3; 4] [0]; MkObject [5] [0]]
  [MkInterface [6] [1; 2]]
  [[1; 2]; [2]]
  [[0; 1]]
  [[2; 3]]
  [MkField (TObject 1) (EObject 0) [0]; MkField (TUnion 1) (EObject 0) [1]; MkField (TScalar 0) (EObject 0) [];
   MkField (TScalar 0) (EObject 1) []; MkField (TObject 2) (EObject 1) []; MkField (TScalar 0) (EObject 2) []; MkField (TScalar 0) (EInterface 0) []]
  [MkValue (TInput 0) true false (PField 0); MkValue (TScalar 0) false false (PField 1);
   MkValue (TScalar 0) true false (PInput 0); MkValue (TEnum 0) false false (PInput 0)]
  [0; 0] 0 None None [2].

Ltac wf_graph :=
  split;
  [ intros [n|n] f; index n
  | intros n; index n
  | intros n H o; index n
  | intros n v; index n
  | intros n v; index n
  | intros n; index n
  | intros n; index n
  | intros n v; index n
  | intros n; index n ].
Ltac wf_type_graph :=
  split;
  [ intros n; index n
  | intros n; index n
  | intros n i; index n
  | intros n i; index n
  | intros n i; index n
  | intros n; fin
  | cbn; lia
  | intros n; fin
  | intros n; fin ].
Lemma ex_wf : wf ex. Proof. wf_graph. Qed.
Lemma ex_types : wf_types ex. Proof. wf_type_graph. Qed.

(** ** C97 *)

(** Propagation always ends, keeps what was marked, and hides nothing more than it has to. *)
Theorem C97_sound : forall g m, wf g -> wf_types g -> exists m', finalize_inaccessible g m = Done m' /\
  (forall s, m s = true -> m' s = true) /\ (forall s, m' s = true -> hidden g m s).
Proof.
  intros g m W WT. destruct (finalize_done g W WT m) as [m' [E F]]. exists m'. split; [exact E|]. split; [exact (fi_le _ _ _ F)|].
  exact (finalize_sound g W m m' E).
Qed.
(** What is left makes sense for clients; for the types of input values, if none of them loses its
    last part in the process. *)
Theorem C97_usable : forall g m, wf g -> wf_types g -> exists m', finalize_inaccessible g m = Done m' /\
  usable g m' (forall v, v < List.length (g_values g) -> ~ emptied g m (v_ty (value_of g v))).
Proof.
  intros g m W WT. destruct (finalize_done g W WT m) as [m' [E F]]. exists m'. split; [exact E|].
  exact (finalize_usable g W WT m m' E).
Qed.
(** And exactly what has to be hidden is, under the same condition (C97_value_refuted otherwise). *)
Theorem C97_exact_partial : forall g m, wf g -> wf_types g ->
  (forall v, v < List.length (g_values g) -> ~ emptied g m (v_ty (value_of g v))) ->
  exists m', finalize_inaccessible g m = Done m' /\ forall s, m' s = true <-> hidden g m s.
Proof.
  intros g m W WT NE. destruct (finalize_done g W WT m) as [m' [E F]]. exists m'. split; [exact E|]. intro s. split.
  - exact (finalize_sound g W m m' E s).
  - exact (finalize_complete g W WT m m' E NE s).
Qed.
(** Without marks, and without internal values or types without parts, everything is visible. *)
Theorem C97_nothing : forall g m, wf g -> wf_types g -> (forall s, m s = false) ->
  (forall v, v < List.length (g_values g) -> v_internal (value_of g v) = false) ->
  (forall o, o < List.length (g_objects g) -> o_fields (object_of g o) <> []) ->
  (forall o, o < List.length (g_interfaces g) -> i_fields (interface_of g o) <> []) ->
  (forall o, o < List.length (g_unions g) -> union_of g o <> []) ->
  (forall o, o < List.length (g_enums g) -> enum_of g o <> []) ->
  (forall o, o < List.length (g_inputs g) -> input_of g o <> []) ->
  exists m', finalize_inaccessible g m = Done m' /\ forall s, m' s = false.
Proof.
  intros g m W WT M I1 Po Pi Pu Pe Pn. destruct (finalize_done g W WT m) as [m' [E _]]. exists m'. split; [exact E|].
  intro s. destruct (m' s) eqn:K; [|reflexivity]. exfalso. apply (finalize_sound g W m m' E) in K.
  induction K as [s H|v L H|v L H IH|v f L P R N H IH|v o L P R N H IH|f L H IH|o L H IH|i L H IH|u L H IH|e L H IH|o L H IH]; try assumption.
  - rewrite M in H; discriminate.
  - rewrite (I1 v L) in H; discriminate.
  - destruct (some_in _ _ (Po o L)) as [x Hx]. exact (IH x Hx).
  - destruct (some_in _ _ (Pi i L)) as [x Hx]. exact (IH x Hx).
  - destruct (some_in _ _ (Pu u L)) as [x Hx]. exact (IH x Hx).
  - destruct (some_in _ _ (Pe e L)) as [x Hx]. exact (IH x Hx).
  - destruct (some_in _ _ (Pn o L)) as [x Hx]. exact (IH x Hx).
Qed.
(** The flags of unions and interfaces are exact. *)
Theorem C97_flags : forall g m u, (union_has_hidden g m u = true <-> exists o, In o (union_of g u) /\ m (SType (TObject o)) = true) /\
  (interface_has_hidden g m u = true <-> exists o, In o (i_possible (interface_of g u)) /\ m (SType (TObject o)) = true).
Proof.
  intros g m u. unfold union_has_hidden, interface_has_hidden. rewrite !existsb_exists. split; split.
  - intros [s [H K]]. apply in_map_iff in H. destruct H as [o [<- H]]. exists o. split; assumption.
  - intros [o [H K]]. exists (object_site o). split; [apply in_map, H|exact K].
  - intros [s [H K]]. apply in_map_iff in H. destruct H as [o [<- H]]. exists o. split; assumption.
  - intros [o [H K]]. exists (object_site o). split; [apply in_map, H|exact K].
Qed.
(** Secret.key and Filter.key are marked: Secret, Result, Query.search and User.secret go, and so do
    Filter and Query.user. *)
Example C97_ex : shown ex (finalize_inaccessible ex (of_list [SField 5; SValue 2])) =
  Some [SType (TScalar 0); SType (TObject 0); SType (TObject 1); SType (TInterface 0); SType (TUnion 0); SType (TEnum 0);
        SField 2; SField 3; SField 6; SValue 1; SValue 3; SEnumValue 0; SEnumValue 1].
Proof. vm_compute. reflexivity. Qed.
Example C97_nothing_ex : shown ex (finalize_inaccessible ex (of_list [])) = Some (sites ex).
Proof. vm_compute. reflexivity. Qed.
(** An internal value and a required argument: the value is hidden, its field isn't. A marked union. *)
Definition ex_internal : graph := MkGraph
  ["String"%string] [MkObject [0; 1] []; MkObject [2] []] [] [[1]] [] []
  [MkField (TScalar 0) (EObject 0) [0]; MkField (TUnion 0) (EObject 0) []; MkField (TScalar 0) (EObject 1) []]
  [MkValue (TScalar 0) true true (PField 0)] [] 0 None None [].
Example C97_internal_ex : shown ex_internal (finalize_inaccessible ex_internal (of_list [SType (TUnion 0)])) =
  Some [SType (TScalar 0); SType (TObject 0); SType (TObject 1); SField 0; SField 2].
Proof. vm_compute. reflexivity. Qed.
Example C97_flags_ex :
  match finalize_inaccessible ex (of_list [SField 5]) with
  | Done m => (map (union_has_hidden ex m) [0; 1], interface_has_hidden ex m 0) = ([true; true], true)
  | _ => False end /\
  (union_has_hidden ex (of_list []) 0, interface_has_hidden ex (of_list [SType (TObject 0)]) 0) = (false, false).
Proof. vm_compute. split; reflexivity. Qed.

(** All values of an enum are hidden: the enum is, but a required argument of that type stays, and
    so does the field, which can't be called any more. The same with an input object whose only
    field is hidden. *)
Definition ex_enum : graph := MkGraph
  ["String"%string] [MkObject [0; 1] []] [] [] [[0]] [[1]]
  [MkField (TScalar 0) (EObject 0) [0]; MkField (TScalar 0) (EObject 0) [2]]
  [MkValue (TEnum 0) true false (PField 0); MkValue (TScalar 0) false false (PInput 0); MkValue (TInput 0) true false (PField 1)]
  [0] 0 None None [].
Lemma ex_enum_wf : wf ex_enum. Proof. wf_graph. Qed.
Lemma ex_enum_types : wf_types ex_enum. Proof. wf_type_graph. Qed.
Theorem C97_value_refuted : exists g m m', wf g /\ wf_types g /\ finalize_inaccessible g m = Done m' /\
  (exists f v e, In v (f_args (field_of g f)) /\ v_ty (value_of g v) = TEnum e /\ v_required (value_of g v) = true /\
     m' (SField f) = false /\ m' (SValue v) = false /\ m' (SType (TEnum e)) = true) /\
  (exists f v o, In v (f_args (field_of g f)) /\ v_ty (value_of g v) = TInput o /\ v_required (value_of g v) = true /\
     m' (SField f) = false /\ m' (SValue v) = false /\ m' (SType (TInput o)) = true).
Proof.
  exists ex_enum, (of_list [SEnumValue 0; SValue 1]).
  destruct (finalize_inaccessible ex_enum (of_list [SEnumValue 0; SValue 1])) as [m'| |] eqn:E; [|vm_compute in E; discriminate|vm_compute in E; discriminate].
  exists m'. split; [exact ex_enum_wf|]. split; [exact ex_enum_types|]. split; [reflexivity|].
  vm_compute in E. injection E as <-. split; [exists 0, 0, 0|exists 1, 2, 0]; cbn; intuition.
Qed.
(** As a consequence doing it again, as contracts do, hides more. *)
Theorem C97_twice_refuted : exists g m m' m'', wf g /\ wf_types g /\ finalize_inaccessible g m = Done m' /\ finalize_inaccessible g m' = Done m'' /\
  exists f, m' (SField f) = false /\ m'' (SField f) = true.
Proof.
  exists ex_enum, (of_list [SEnumValue 0]).
  destruct (finalize_inaccessible ex_enum (of_list [SEnumValue 0])) as [m'| |] eqn:E; [|vm_compute in E; discriminate|vm_compute in E; discriminate].
  destruct (finalize_inaccessible ex_enum m') as [m''| |] eqn:E2.
  - exists m', m''. split; [exact ex_enum_wf|]. split; [exact ex_enum_types|]. split; [reflexivity|]. split; [exact E2|].
    exists 0. vm_compute in E. injection E as <-. vm_compute in E2. injection E2 as <-. split; reflexivity.
  - destruct (finalize_done ex_enum ex_enum_wf ex_enum_types m') as [x [X _]]. congruence.
  - destruct (finalize_done ex_enum ex_enum_wf ex_enum_types m') as [x [X _]]. congruence.
Qed.

(** ** C98 *)

(** The decision of a site is the strongest one of its directives, the default without any. *)
Theorem C98_decides : forall (accessible : bool) sites answer l s,
  (forall x, In x answer -> i8 x) -> results sites answer l ->
  decided (if accessible then 0%Z else (-1)%Z) l s (decide accessible sites answer s).
Proof. intros accessible sites answer l s I8 [L H]. exact (decide_decided accessible sites answer l s I8 L H). Qed.
(** Two orders of the directives give the same decision, except for ties between showing and hiding. *)
Theorem C98_order : forall accessible sites answer l sites' answer' l' s,
  (forall x, In x answer -> i8 x) -> (forall x, In x answer' -> i8 x) ->
  results sites answer l -> results sites' answer' l' -> (forall r, In r l <-> In r l') ->
  (forall r r', In r l -> In r' l -> In s (snd r) -> In s (snd r') -> fst r <> (- fst r' - 1)%Z) ->
  decide accessible sites answer s = decide accessible sites' answer' s.
Proof.
  intros accessible sites answer l sites' answer' l' s I8 I8' R R' P T.
  pose proof (C98_decides accessible _ _ _ s I8 R) as A. pose proof (C98_decides accessible _ _ _ s I8' R') as B.
  apply (decided_perm _ _ l) in B; [|intro r; symmetry; apply P].
  destruct (decided_tie _ _ _ _ _ A B) as [K|K]; [exact K|]. exfalso.
  destruct A as [[r [A1 [A2 [A3 _]]]]|[A1 A2]]; destruct B as [[q [B1 [B2 [B3 _]]]]|[B1 B2]].
  - apply (T r q A1 B1 A2 B2). rewrite A3, B3. exact K.
  - exact (B2 r A1 A2).
  - exact (A2 q B1 B2).
  - rewrite A1, B1 in K. destruct accessible; lia.
Qed.
(** What gets hidden given the decisions. *)
Theorem C98_hides : forall g d, wf g -> (forall s, i8 (d s)) -> forall s, exists_site g s -> (contract_marks g d s = true <-> hides g d s).
Proof. intros g d W I8 s R. exact (contract_marks_hides g W d I8 s R). Qed.

(** Everything hidden by default, User.name shown: User is too, with its other fields hidden. Hiding
    Query with more strength than showing one of its fields hides both. *)
Definition ex_decisions (l : list (site * Z)) (s : site) : Z :=
  match find (fun p => site_eqb (fst p) s) l with Some p => snd p | None => (-1)%Z end.
Example C98_hides_ex : filter (fun s => negb (contract_marks ex (ex_decisions [(SField 3, 1%Z)]) s)) (sites ex) = [SType (TObject 1); SField 3] /\
  filter (fun s => negb (contract_marks ex (ex_decisions [(SType (TObject 0), (-5)%Z); (SField 0, 3%Z); (SType (TObject 2), 127%Z)]) s)) (sites ex)
    = [SType (TObject 2); SField 5] /\
  filter (fun s => negb (contract_marks ex (ex_decisions [(SType (TObject 0), (-128)%Z); (SField 0, (-3)%Z); (SValue 0, 5%Z); (SValue 3, 1%Z); (SEnumValue 1, 1%Z)]) s)) (sites ex)
    = [SType (TEnum 0); SType (TInput 0); SValue 3; SEnumValue 1].
Proof. vm_compute. split; [|split]; reflexivity. Qed.
Example C98_decides_ex : map (decide false [[SField 0; SField 1]; [SField 0]; [SField 2; SField 1]] [3%Z; (-5)%Z]) (map SField [0; 1; 2; 3])
  = [(-5)%Z; 3%Z; (-1)%Z; (-1)%Z] /\
  map (decide true [[SField 0; SField 1]; [SField 0]] [(-5)%Z; 127%Z; 7%Z]) (map SField [0; 1; 2]) = [127%Z; (-5)%Z; 0%Z].
Proof. vm_compute. split; reflexivity. Qed.

(** With a tie the order in which the hash map gives the directives decides. *)
Theorem C98_order_refuted : exists g sites answer sites' answer' s, wf g /\
  (forall p, In p (combine answer sites) <-> In p (combine answer' sites')) /\
  (forall x, In x answer -> i8 x) /\
  contract_marks g (decide true sites answer) s <> contract_marks g (decide true sites' answer') s.
Proof.
  exists ex, [[SField 3]; [SField 3]], [2%Z; (-3)%Z], [[SField 3]; [SField 3]], [(-3)%Z; 2%Z], (SField 3).
  split; [exact ex_wf|]. split; [intro p; cbn; tauto|]. split; [intros x [<-|[<-|[]]]; split; lia|]. vm_compute. discriminate.
Qed.

(** ** C99 *)

(** A contract always gives a schema; introspection and the type Query stay, whatever it decides;
    what it hides otherwise is hidden; the schema makes sense for clients; with
    [hide] types that can't be reached are hidden. *)
Theorem C99_contract : forall g m (accessible hide : bool) sites answer l, wf g -> wf_types g -> wf_meta g ->
  (forall x, In x answer -> i8 x) -> results sites answer l ->
  exists m' d, construct g m accessible hide sites answer = Done m' /\
    (forall s, decided (if accessible then 0%Z else (-1)%Z) l s (d s)) /\
    (forall s, meta g s -> m' s = false) /\
    m' (SType (TObject (g_query g))) = false /\
    (hide = false -> forall s, builtin g s -> m' s = false) /\
    (forall s, exists_site g s -> m s = true \/ hides g d s -> ~ builtin g s -> ~ root g s -> ~ meta g s -> m' s = true) /\
    usable g m' False.
Proof.
  intros g m accessible hide sites answer l W WT WM I8 R.
  assert (D : forall s, decided (if accessible then 0%Z else (-1)%Z) l s (decide accessible sites answer s)) by (intro s; apply C98_decides; assumption).
  assert (D8 : forall s, i8 (decide accessible sites answer s)).
  { intro s. destruct (D s) as [[r [A [_ [B _]]]]|[A _]]; [|rewrite A; destruct accessible; split; lia].
    rewrite <- B. destruct R as [R1 R2]. destruct (In_nth _ _ (0%Z, []) A) as [i [Hi <-]]. rewrite R1 in Hi. rewrite (R2 i Hi). cbn [fst].
    destruct (nth_in_or_default i answer (-1)%Z) as [K|K]; [apply I8, K|rewrite K; split; lia]. }
  unfold construct. set (d := decide accessible sites answer) in *. set (mc := update_inaccessible m (contract_marks g d)).
  destruct (finalize_stages g W WT hide mc) as [m1 [m2 [m' [E St]]]]. exists m', d. split; [exact E|]. split; [exact D|].
  split; [intros s H; exact (kept g W WT WM hide mc m1 m2 m' St s (or_introl H))|].
  split; [exact (kept g W WT WM hide mc m1 m2 m' St _ (or_intror eq_refl))|].
  split; [intros Hh s B; exact (builtin_kept g W hide mc m1 m2 m' St s B Hh)|].
  split.
  - intros s X H N1 N2 N3. apply (stays_hidden g W WT hide mc m1 m2 m' St s); try assumption.
    unfold mc, update_inaccessible. apply orb_true_iff. destruct H as [H|H]; [left; exact H|right].
    apply (contract_marks_hides g W d D8 s X). exact H.
  - pose proof (finalize_usable g W WT m2 m' (st_final _ _ _ _ _ _ St)) as U. destruct U. split; try assumption. intros [].
Qed.
(** Nothing else is hidden: only what [hidden] says, starting with those, and with types that can't
    be reached. *)
Theorem C99_only : forall g m accessible hide sites answer l, wf g -> wf_types g ->
  (forall x, In x answer -> i8 x) -> results sites answer l ->
  exists m' d m1 m2, construct g m accessible hide sites answer = Done m' /\
    (forall s, decided (if accessible then 0%Z else (-1)%Z) l s (d s)) /\
    (forall s, exists_site g s -> (m1 s = true <-> (m s = true \/ hides g d s) /\ ~ builtin g s /\ ~ root g s /\ ~ meta g s)) /\
    (forall s, m2 s = true <-> m1 s = true \/ exists t, s = SType t /\ hide = true /\ ~ reachable g m1 t) /\
    (forall s, m2 s = true -> m' s = true) /\
    (forall s, m' s = true -> hidden g m2 s).
Proof.
  intros g m accessible hide sites answer l W WT I8 R.
  assert (D : forall s, decided (if accessible then 0%Z else (-1)%Z) l s (decide accessible sites answer s)) by (intro s; apply C98_decides; assumption).
  assert (D8 : forall s, i8 (decide accessible sites answer s)).
  { intro s. destruct (D s) as [[r [A [_ [B _]]]]|[A _]]; [|rewrite A; destruct accessible; split; lia].
    rewrite <- B. destruct R as [R1 R2]. destruct (In_nth _ _ (0%Z, []) A) as [i [Hi <-]]. rewrite R1 in Hi. rewrite (R2 i Hi). cbn [fst].
    destruct (nth_in_or_default i answer (-1)%Z) as [K|K]; [apply I8, K|rewrite K; split; lia]. }
  unfold construct. set (d := decide accessible sites answer) in *. set (mc := update_inaccessible m (contract_marks g d)).
  destruct (finalize_stages g W WT hide mc) as [m1 [m2 [m' [E St]]]]. exists m', d, m1, m2. split; [exact E|]. split; [exact D|].
  split; [|split; [|split]].
  - intros s X. rewrite (st_accessible _ _ _ _ _ _ St s). unfold mc, update_inaccessible. rewrite orb_true_iff, (contract_marks_hides g W d D8 s X). reflexivity.
  - intros [t|f|v|x]; [|rewrite (st_parts _ _ _ _ _ _ St) by reflexivity; split; [intro K; left; exact K|intros [K|[t [K _]]]; [exact K|discriminate]] ..].
    rewrite (st_types _ _ _ _ _ _ St t). split; (intros [K|K]; [left; exact K|right]); [exists t; split; [reflexivity|exact K]|].
    destruct K as [t' [K1 K2]]. injection K1 as <-. exact K2.
  - destruct (finalize_done g W WT m2) as [x [E2 F]]. pose proof (st_final _ _ _ _ _ _ St) as E'. rewrite E2 in E'. injection E' as ->. exact (fi_le _ _ _ F).
  - exact (finalize_sound g W m2 m' (st_final _ _ _ _ _ _ St)).
Qed.
(** Hiding the types that can't be reached leaves the others reachable. *)
Theorem C99_reach : forall g m, exists m', hide_unreachable g m = Done m' /\
  (forall t, m' (SType t) = false <-> reachable g m t) /\ (forall t, reachable g m' t <-> reachable g m t).
Proof.
  intros g m. destruct (hide_unreachable_at g m) as [m' [E [A B]]]. exists m'. split; [exact E|]. split.
  - intro t. split; intro H.
    + destruct (m (SType t)) eqn:K; [rewrite (proj2 (A t) (or_introl K)) in H; discriminate|].
      (* reachability is decided by the walk *)
      destruct (walk_met g m (visible_next g m) (visible_light g m) (visible_none g m) (rev (map object_site (roots g)))) as [r [_ Hr]].
      destruct (r (SType t)) eqn:Q.
      * apply Hr, met_reachable in Q. destruct Q as [x [X1 X2]]. injection X1 as <-. exact X2.
      * exfalso. rewrite (proj2 (A t)) in H; [discriminate|]. right. intro R.
        assert (r (SType t) = true) by (apply Hr, met_reachable; exists t; split; [reflexivity|exact R]). congruence.
    + destruct (m' (SType t)) eqn:K; [|reflexivity]. apply A in K. destruct K as [K|K]; [|contradiction].
      rewrite (reachable_visible g m t H) in K. discriminate.
  - intro t. symmetry. exact (reachable_mono g m m' A B t).
Qed.

Lemma ex_meta : wf_meta ex.
Proof.
  assert (M : forall s, meta ex s -> s = SField 2 \/ s = SType (TScalar 0)).
  { intros s H. induction H as [f H|f v M IH H|f M IH|v M IH|o f M IH H|o i M IH H|i f M IH H|i o M IH H|u o M IH H|e x M IH H|o v M IH H];
      try (destruct IH as [K|K]; try discriminate; injection K as ->; cbn in *; tauto).
    - destruct H as [<-|[]]. left; reflexivity. }
  split; [discriminate| | | | | |]; intros o H; apply M in H; destruct H; discriminate.
Qed.
(** A contract that shows User.name and Query.user only: the latter can't be called without its
    argument, which is hidden. One that hides Filter.key, the answer being missing. *)
Example C99_ex : shown ex (construct ex (of_list []) false true [[SField 3; SField 0]] [5%Z]) =
    Some [SType (TScalar 0); SType (TObject 0); SType (TObject 1); SField 2; SField 3] /\
  shown ex (construct ex (of_list [SField 5]) true true [[SValue 2]] []) =
    Some [SType (TScalar 0); SType (TObject 0); SType (TObject 1); SType (TInterface 0); SType (TEnum 0); SField 2; SField 3; SField 6; SValue 1; SValue 3; SEnumValue 0; SEnumValue 1].
Proof. vm_compute. split; reflexivity. Qed.

(** Types are looked for before fields are hidden: Query.hidden goes because of its required
    argument, and the type that only it leads to stays. *)
Definition ex_late : graph := MkGraph
  ["String"%string] [MkObject [0; 1] []; MkObject [2] []] [] [] [] []
  [MkField (TScalar 0) (EObject 0) []; MkField (TObject 1) (EObject 0) [0]; MkField (TScalar 0) (EObject 1) []]
  [MkValue (TScalar 0) true false (PField 1)] [] 0 None None [0].
Lemma ex_late_wf : wf ex_late. Proof. wf_graph. Qed.
Lemma ex_late_types : wf_types ex_late. Proof. wf_type_graph. Qed.
Theorem C99_unreachable_refuted : exists g sites answer m', wf g /\ wf_types g /\ construct g (of_list []) true true sites answer = Done m' /\
  exists t, in_range g t /\ m' (SType t) = false /\ ~ reachable g m' t.
Proof.
  exists ex_late, [[SValue 0]], [(-5)%Z].
  destruct (construct ex_late (of_list []) true true [[SValue 0]] [(-5)%Z]) as [m'| |] eqn:E; [|vm_compute in E; discriminate|vm_compute in E; discriminate].
  exists m'. split; [exact ex_late_wf|]. split; [exact ex_late_types|]. split; [reflexivity|].
  exists (TObject 1). split; [cbn; lia|]. vm_compute in E. injection E as <-. split; [reflexivity|].
  intro R. assert (K : forall m t, m (SField 1) = true -> reachable ex_late m t -> t = TObject 0 \/ t = TScalar 0).
  { intros m t F1 Rt. induction Rt as [o H K|e f R1 IH H1 H2 H3|e f v R1 IH H1 H2 H3 H4 H5|o v R1 IH H1 H2 H3|o i R1 IH H K|i o R1 IH H K|u o R1 IH H K];
      try (destruct IH as [X|X]; discriminate);
      try (destruct IH as [X|X]; [injection X as ->; cbn in H; tauto|discriminate]).
    - destruct H as [k [H1 H2]]. injection H1 as <-. cbn in H2. destruct H2 as [->|[H2|H2]]; [left; reflexivity|discriminate|discriminate].
    - destruct IH as [X|X]; destruct e as [n|n]; try discriminate. injection X as ->. cbn in H1. destruct H1 as [<-|[<-|[]]]; [right; reflexivity|congruence].
    - destruct IH as [X|X]; destruct e as [n|n]; try discriminate. injection X as ->. cbn in H1. destruct H1 as [<-|[<-|[]]]; [destruct H3|congruence].
    }
  assert (Q : TObject 1 = TObject 0 \/ TObject 1 = TScalar 0); [|destruct Q; discriminate].
  exact (K _ _ eq_refl R).
Qed.

(** ** Endpoints *)
(** A contract can't change the endpoint of a subgraph: only asking for the url it already has is
    followed, which changes nothing. *)
Definition endpoints (st : list (string * nat) * list string) : list (string * string) :=
  map (fun s => (fst s, nth (snd s) (snd st) EmptyString)) (fst st).
Theorem C99_endpoint_refuted :
  (forall name url st, (forall s, In s (fst st) -> snd s < List.length (snd st)) -> endpoints (update_endpoint name url st) = endpoints st) /\
  exists name url st, In name (map fst (fst st)) /\ ~ In (name, url) (endpoints (update_endpoint name url st)).
Proof.
  split.
  - intros name url [sub urls] R. unfold update_endpoint. destruct (subgraph_index sub name) as [i|] eqn:E; [|reflexivity].
    cbv zeta. set (s := nth i sub (""%string, 0)).
    destruct (String.eqb (nth (snd s) urls ""%string) url) eqn:U; [|reflexivity]. apply String.eqb_eq in U.
    assert (I : i < List.length sub).
    { assert (K : forall l k, (fix go (l : list (string * nat)) (i : nat) := match l with [] => None | s :: r => if String.eqb (fst s) name then Some i else go r (S i) end) l k = Some i -> i < k + List.length l).
      { intro l; induction l as [|x l IH]; intros k H; [discriminate|]. destruct (String.eqb (fst x) name); [injection H as ->; simpl; lia|]. apply IH in H. simpl; lia. }
      apply (K sub 0) in E. exact E. }
    assert (Sin : In s sub) by (apply nth_In; exact I).
    assert (P : forall l k p, (fix go (l : list string) (i : nat) := match l with [] => None | u :: r => if String.eqb u url then Some i else go r (S i) end) l k = Some p ->
        exists j, p = k + j /\ nth j l ""%string = url).
    { intro l; induction l as [|x l IH]; intros k p H; [discriminate|]. destruct (String.eqb x url) eqn:X.
      - apply String.eqb_eq in X. injection H as <-. exists 0. split; [lia|exact X].
      - destruct (IH (S k) p H) as [j [J1 J2]]. exists (S j). split; [lia|exact J2]. }
    assert (P' : url_position urls url <> None).
    { assert (K : forall l k, In url l -> (fix go (l : list string) (i : nat) := match l with [] => None | u :: r => if String.eqb u url then Some i else go r (S i) end) l k <> None).
      { intro l; induction l as [|x l IH]; intros k H; [destruct H|]. destruct (String.eqb x url) eqn:X; [discriminate|].
        apply IH. destruct H as [->|H]; [rewrite String.eqb_refl in X; discriminate|exact H]. }
      apply (K urls 0). rewrite <- U. apply nth_In. apply (R s Sin). }
    destruct (url_position urls url) as [p|] eqn:Up; [|congruence].
    destruct (P urls 0 p Up) as [j [J1 J2]]. simpl in J1. subst p.
    unfold endpoints. cbn [fst snd].
    rewrite <- (firstn_skipn i sub) at 3. rewrite !map_app. f_equal.
    assert (Sk : skipn i sub = s :: skipn (S i) sub).
    { assert (Q : forall (l : list (string * nat)) k, k < List.length l -> skipn k l = nth k l (""%string, 0) :: skipn (S k) l).
      { intro l; induction l as [|x l IH]; intros k Hk; simpl in Hk; [lia|]. destruct k; [reflexivity|]. apply (IH k). lia. }
      exact (Q sub i I). }
    rewrite Sk. cbn [map fst snd]. f_equal. f_equal. congruence.
  - exists "a"%string, "http://new"%string, ([("a"%string, 0)], ["http://old"%string]). split; [left; reflexivity|].
    vm_compute. intros [H|[]]. discriminate.
Qed.
