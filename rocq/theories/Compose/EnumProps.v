(* C54: the values of a composed enum. *)
From Coq Require Import String List Bool Arith ZArith Lia Permutation.
From Verif.SchemaDiff Require Import Search.
From Verif.Compose Require Import Model Spec Facts SchemaFacts GroupFacts.
Import ListNotations.
Local Open Scope string_scope.
Local Open Scope list_scope.

Lemma used_in_input_spec : forall gs n, used_in_input gs n = true <-> in_input gs n.
Proof.
  intros gs n. unfold used_in_input, in_input. rewrite existsb_exists. split.
  - intros (d & I & E). apply existsb_exists in E. destruct E as (f & J & E).
    unfold all_defs in I. apply in_flat_map in I. destruct I as (g & G & I).
    exists g, d, f. split; [exact G|]. split; [exact I|]. split; [exact J|].
    apply orb_true_iff in E. destruct E as [E|E].
    + left. apply existsb_exists in E. destruct E as (a & A & E). apply String.eqb_eq in E. exists a. auto.
    + right. apply andb_true_iff in E. destruct E as (K & E). apply String.eqb_eq in E.
      destruct (d_kind d); try discriminate. auto.
  - intros (g & d & f & G & I & J & H). exists d. split; [unfold all_defs; apply in_flat_map; exists g; auto|].
    apply existsb_exists. exists f. split; [exact J|]. apply orb_true_iff. destruct H as [(a & A & <-)|(K & <-)].
    + left. apply existsb_exists. exists a. split; [exact A|]. apply String.eqb_refl.
    + right. rewrite K, String.eqb_refl. reflexivity.
Qed.

Lemma used_in_output_spec : forall gs n, used_in_output gs n = true <-> in_output gs n.
Proof.
  intros gs n. unfold used_in_output, in_output. rewrite existsb_exists. split.
  - intros (d & I & E). apply andb_true_iff in E. destruct E as (O & E). apply existsb_exists in E. destruct E as (f & J & E).
    unfold all_defs in I. apply in_flat_map in I. destruct I as (g & G & I). apply String.eqb_eq in E.
    exists g, d, f. split; [exact G|]. split; [exact I|]. split; [exact J|]. split; [|exact E].
    unfold is_output in O. destruct (d_kind d); try discriminate; auto.
  - intros (g & d & f & G & I & J & K & <-). exists d. split; [unfold all_defs; apply in_flat_map; exists g; auto|].
    apply andb_true_iff. split; [unfold is_output; destruct K as [-> | ->]; reflexivity|].
    apply existsb_exists. exists f. split; [exact J|]. apply String.eqb_refl.
Qed.

(* every group of equal values, with its directives *)
Lemma value_groups_spec : forall l : list (name * directives),
  let r := flat_map value_group (groups fst l) in
  (forall x, In x (map fst r) <-> In x (map fst l)) /\ NoDup (map fst r) /\
  (forall x ds, In (x, ds) r -> ds = collect (map snd (sel fst l x))).
Proof.
  intros l. cbv zeta. destruct (groups_spec (@fst name directives) l) as (ns & -> & ND & M).
  assert (E : flat_map value_group (map (sel fst l) ns) = map (fun n => (n, collect (map snd (sel fst l n)))) ns).
  { assert (H : forall n, In n ns -> exists d r, sel fst l n = (n, d) :: r).
    { intros n I. apply M in I.
      assert (NE : sel fst l n <> nil) by (apply sel_nonempty; exact I).
      destruct (sel fst l n) as [|(m, d) r] eqn:S; [congruence|].
      assert (J : In (m, d) (sel fst l n)) by (rewrite S; left; reflexivity).
      apply sel_in in J. destruct J as (_ & J). cbn in J. subst m. exists d, r. reflexivity. }
    clear ND M. induction ns as [|n ns IH]; [reflexivity|]. cbn [map flat_map].
    destruct (H n (or_introl eq_refl)) as (d & r & S). rewrite S. cbn [value_group List.app]. f_equal.
    apply IH. intros m I. apply H. right. exact I. }
  rewrite E. clear E. rewrite map_map. cbn [fst]. rewrite map_id. split; [|split; [exact ND|]].
  - intros x. apply M.
  - intros x ds I. apply in_map_iff in I. destruct I as (n & X & _). injection X as <- <-. reflexivity.
Qed.

(* The definitions of a name, in all the subgraphs, are enums and no root. *)
Definition enum_in (gs : list subgraph) (n : name) : Prop :=
  (exists g, In g gs /\ has_kind g n KEnum) /\
  (forall g d, In g gs -> In d (g_defs g) -> d_name d = n -> d_kind d = KEnum) /\
  (forall g, In g gs -> NoDup (map d_name (g_defs g)) /\ is_root g n = false) /\
  ~ In n root_names.

Definition has_value (gs : list subgraph) (n x : name) (g : subgraph) (d : definition) : Prop :=
  In g gs /\ In d (g_defs g) /\ d_name d = n /\ In x (map fst (d_values d)).

Theorem C54_values : forall gs s n, compose gs = Composed s -> enum_in gs n ->
  exists vs, lookup s n = Some (DEnum vs) /\
  (* only input: what every subgraph has *)
  (in_input gs n -> ~ in_output gs n ->
     vs <> nil /\
     forall x, In x (map fst vs) <-> forall g d, In g gs -> In d (g_defs g) -> d_name d = n -> In x (map fst (d_values d))) /\
  (* no input: what any subgraph has *)
  (~ in_input gs n -> NoDup (map fst vs) /\ forall x, In x (map fst vs) <-> exists g d, has_value gs n x g d) /\
  (* both: the subgraphs have the same *)
  (in_input gs n -> in_output gs n ->
     forall g d, In g gs -> In d (g_defs g) -> d_name d = n -> map fst (d_values d) = map fst vs).
Proof.
  intros gs s n C ((g0 & G0 & d0 & D0 & N0 & K0) & KE & WF & NR).
  destruct (composed_inv gs s C) as (OK & _ & _).
  destruct (lookup_inserted gs s n C) as (L & _). rewrite (inserted_group gs n NR) in L. unfold group_items in L.
  assert (AN : defs_named gs n = all_named gs n).
  { assert (H : forall g, In g gs -> is_root g n = false) by (intros g I; apply WF; exact I).
    clear - H. unfold defs_named, all_named. induction gs as [|g l IH]; [reflexivity|]. cbn [flat_map].
    rewrite (H g (or_introl eq_refl)). rewrite IH; [reflexivity|]. intros g' I. apply H. right. exact I. }
  assert (GO : diags_of (merge_group gs (all_named gs n)) = nil).
  { rewrite <- AN. unfold compose_subgraphs in OK. rewrite !diags_of_app in OK.
    apply app_eq_nil in OK. destruct OK as (_ & O). apply app_eq_nil in O. destruct O as (O & _).
    rewrite diags_of_flat_map, flat_map_nil in O. apply O. apply definition_names_in.
    rewrite <- N0. apply in_map. unfold all_defs. apply in_flat_map. exists g0. auto. }
  rewrite AN in L. clear AN OK.
  assert (V : forall v, In v (all_named gs n) <-> In (v_graph v) gs /\ In (v_def v) (g_defs (v_graph v)) /\ d_name (v_def v) = n).
  { intros v. rewrite all_named_in. split.
    - intros (I & E). apply definition_by_name_some in E. tauto.
    - intros (I & J & E). rewrite <- E. split; [exact I|]. apply definition_by_name_in; [apply WF; exact I|exact J]. }
  assert (VI : forall g d, In g gs -> In d (g_defs g) -> d_name d = n -> In (mkdview g d) (all_named gs n)).
  { intros g d I J E. apply V. auto. }
  assert (VK : forall v, In v (all_named gs n) -> d_kind (v_def v) = KEnum).
  { intros v I. apply V in I. destruct I as (I & J & E). apply (KE (v_graph v)); assumption. }
  pose proof (VI g0 d0 G0 D0 N0) as I0.
  assert (HEI : is_entity_interface (all_named gs n) = false).
  { unfold is_entity_interface. destruct (find _ _) as [v|] eqn:F; [|reflexivity].
    apply find_some in F. destruct F as (I & _). rewrite (VK v I). reflexivity. }
  destruct (all_named gs n) as [|w ws] eqn:A; [contradiction|].
  assert (IW : In w (w :: ws)) by (left; reflexivity).
  assert (WN : d_name (v_def w) = n) by (apply V in IW; apply IW).
  unfold merge_group in *. rewrite WN, HEI, (VK w IW) in *.
  destruct (String.eqb n "join__Graph"); [discriminate|].
  unfold merge_enum in *. cbv zeta in *. rewrite WN in *.
  pose proof (used_in_input_spec gs n) as UI. pose proof (used_in_output_spec gs n) as UO.
  destruct (used_in_input gs n); [destruct (used_in_output gs n)|].
  - destruct (existsb (fun d => negb (names_eqb (value_names (v_def w)) (value_names (v_def d)))) (w :: ws)) eqn:E; [discriminate|].
    unfold inserted in L. cbn in L. rewrite String.eqb_refl in L. cbn in L.
    exists (map (with_sites (w :: ws)) (value_names (v_def w))). rewrite map_map. cbn [fst with_sites]. rewrite map_id. split; [exact L|]. split; [intros _ NO; exfalso; apply NO, UO; reflexivity|].
    split; [intros NI; exfalso; apply NI, UI; reflexivity|]. intros _ _ g d I J ND.
    pose proof (VI g d I J ND) as IV.
    destruct (names_eqb (value_names (v_def w)) (value_names d)) eqn:NE.
    + apply names_eqb_eq in NE. symmetry. exact NE.
    + exfalso. assert (existsb (fun d => negb (names_eqb (value_names (v_def w)) (value_names (v_def d)))) (w :: ws) = true); [|congruence].
      apply existsb_exists. exists (mkdview g d). cbn [v_def]. rewrite NE. auto.
  - rewrite diags_of_app in GO. apply app_eq_nil in GO. destruct GO as (GO & _). rewrite items_of_app in L.
    set (vs := filter (fun v => forallb (fun d => mem v (value_names (v_def d))) (w :: ws)) (value_names (v_def w))) in *.
    assert (NE : vs <> nil) by (intros E; rewrite E in GO; discriminate).
    exists (map (with_sites (w :: ws)) vs). rewrite map_map. cbn [fst with_sites]. rewrite map_id. split; [|split; [|split]].
    + destruct vs as [|x xs]; [congruence|]. unfold inserted in L. cbn in L. rewrite String.eqb_refl in L. exact L.
    + intros _ _. split; [intros E; apply map_eq_nil in E; congruence|]. intros x. unfold vs. rewrite filter_In, forallb_forall. split.
      * intros (_ & H) g d I J ND. apply mem_in. apply (H (mkdview g d)). apply VI; assumption.
      * intros H. assert (HW : forall v, In v (w :: ws) -> In x (value_names (v_def v))).
        { intros v IV. apply V in IV. destruct IV as (I & J & ND). apply (H (v_graph v)); assumption. }
        split; [apply HW; exact IW|]. intros v IV. apply mem_in. apply HW. exact IV.
    + intros NI. exfalso. apply NI, UI. reflexivity.
    + intros _ O. apply UO in O. discriminate.
  - destruct (value_groups_spec (flat_map (fun d => d_values (v_def d)) (w :: ws))) as (M & ND & _).
    match type of L with context [IEnum n ?x _] => set (vs := x) in * end. cbv zeta in M, ND. fold vs in M, ND.
    exists vs. split; [unfold inserted in L; cbn in L; rewrite String.eqb_refl in L; exact L|].
    split; [intros IN; apply UI in IN; discriminate|].
    split; [|intros IN; apply UI in IN; discriminate]. intros _. split; [exact ND|]. intros x. rewrite (M x), in_map_iff. split.
    + intros (p & <- & X). apply in_flat_map in X. destruct X as (v & IV & X). apply V in IV.
      exists (v_graph v), (v_def v). pose proof (in_map fst _ _ X). unfold has_value. tauto.
    + intros (g & d & I & J & N & X). apply in_map_iff in X. destruct X as (p & <- & X). exists p. split; [reflexivity|].
      apply in_flat_map. exists (mkdview g d). split; [apply VI; assumption|exact X].
Qed.

(* Thus an argument that the composed schema takes is a value of the enum in
   every subgraph, and what any subgraph returns is a value of the composed
   enum. *)
Theorem C54_fits : forall gs s n, compose gs = Composed s -> enum_in gs n ->
  exists vs, lookup s n = Some (DEnum vs) /\
  forall g d x, In g gs -> In d (g_defs g) -> d_name d = n ->
    (in_input gs n -> In x (map fst vs) -> In x (map fst (d_values d))) /\
    (in_output gs n -> In x (map fst (d_values d)) -> In x (map fst vs)) /\
    (In x (map fst vs) -> exists g' d', has_value gs n x g' d').
Proof.
  intros gs s n C E. destruct (C54_values gs s n C E) as (vs & L & IN & OUT & BOTH). exists vs. split; [exact L|].
  intros g d x I J N.
  assert (DI : in_input gs n \/ ~ in_input gs n).
  { destruct (used_in_input gs n) eqn:U; [left|right; rewrite <- used_in_input_spec; congruence]. apply used_in_input_spec. exact U. }
  assert (DO : in_output gs n \/ ~ in_output gs n).
  { destruct (used_in_output gs n) eqn:U; [left|right; rewrite <- used_in_output_spec; congruence]. apply used_in_output_spec. exact U. }
  destruct DI as [DI|DI], DO as [DO|DO].
  - pose proof (BOTH DI DO g d I J N) as X. rewrite X. split; [auto|]. split; [auto|].
    intros V. exists g, d. unfold has_value. rewrite X. auto.
  - destruct (IN DI DO) as (_ & M). split; [intros _ V; apply (proj1 (M x) V g); assumption|]. split; [contradiction|].
    intros V. exists g, d. unfold has_value. split; [exact I|]. split; [exact J|]. split; [exact N|]. apply (proj1 (M x) V g); assumption.
  - destruct (OUT DI) as (_ & M). split; [contradiction|]. split; [|intros V; apply M; exact V].
    intros _ V. apply M. exists g, d. unfold has_value. auto.
  - destruct (OUT DI) as (_ & M). split; [contradiction|]. split; [contradiction|]. intros V; apply M; exact V.
Qed.

(* An enum that is input and output, and differs, is refused. *)
Theorem C54_conflict : forall gs g g' d d',
  In g gs -> In g' gs -> In d (g_defs g) -> In d' (g_defs g') -> d_name d = d_name d' -> enum_in gs (d_name d) ->
  in_input gs (d_name d) -> in_output gs (d_name d) -> map fst (d_values d) <> map fst (d_values d') ->
  forall s, compose gs <> Composed s.
Proof.
  intros gs g g' d d' I I' J J' N E IN OUT NE s C.
  destruct (C54_values gs s _ C E) as (vs & _ & _ & _ & B). apply NE.
  rewrite (B IN OUT g d I J eq_refl), (B IN OUT g' d' I' J' (eq_sym N)). reflexivity.
Qed.

(* Two subgraphs with an enum: as an argument, as a result, and both. *)
Definition enum_graph (n : name) (values : list name) (input output : bool) : subgraph :=
  let t := mkftype "E" (mkwrapping false nil) in
  let int := mkftype "Int" (mkwrapping false nil) in
  let d := mkdirectives true false false false false false false false false false None nil nil in
  mkgraph n ApolloV2
    [mkdef "Query" KObject
       ([mkfield "a" int (if input then [mkargument "x" t None plain] else nil) None d] ++
        (if output then [mkfield "b" t nil None d] else nil)) nil nil nil plain;
     mkdef "E" KEnum nil (map (fun v => (v, plain)) values) nil nil plain]
    nil (Some "Query") None None.
Definition enum_of (o : outcome) : option (list name) :=
  match o with Composed s => match lookup s "E" with Some (DEnum vs) => Some (map fst vs) | _ => None end | _ => None end.

Example C54_example :
  enum_of (compose [enum_graph "g" ["A"; "B"] true false; enum_graph "h" ["B"; "C"] true false]) = Some ["B"] /\
  enum_of (compose [enum_graph "g" ["A"; "B"] false true; enum_graph "h" ["B"; "C"] false true]) = Some ["A"; "B"; "C"] /\
  compose [enum_graph "g" ["A"; "B"] true false; enum_graph "h" ["C"] true false] = Rejected [EmptyEnum "E"] /\
  compose [enum_graph "g" ["A"; "B"] true true; enum_graph "h" ["B"; "C"] true false] = Rejected [EnumMismatch "E"] /\
  enum_of (compose [enum_graph "g" ["A"; "B"] true true; enum_graph "h" ["A"; "B"] true false]) = Some ["A"; "B"] /\
  enum_in [enum_graph "g" ["A"; "B"] true false; enum_graph "h" ["B"; "C"] true false] "E".
Proof.
  repeat (split; [vm_compute; reflexivity|]). split; [|split; [|split]].
  - exists (enum_graph "g" ["A"; "B"] true false). split; [left; reflexivity|].
    eexists. split; [right; left; reflexivity|]. split; reflexivity.
  - intros g d [<-|[<-|[]]] [<-|[<-|[]]] N; cbn in N; try discriminate; reflexivity.
  - intros g [<-|[<-|[]]]; (split; [cbn; repeat constructor; cbn; intuition discriminate|reflexivity]).
  - cbn. intuition discriminate.
Qed.
