(* C58: what protects a part of a subgraph protects it in the composed schema. *)
From Coq Require Import String List Bool Arith ZArith Lia Permutation.
From Verif.SchemaDiff Require Import Search.
From Verif.Compose Require Import Model Spec Facts SchemaFacts GroupFacts KindFacts LookupFacts EnumProps Decide CoverProps.
Import ListNotations.
Local Open Scope string_scope.
Local Open Scope list_scope.

(* Who asks: whether they are known, and what they hold. *)
Record principal := mkprincipal { known_user : bool; has_scope : name -> Prop; has_policy : name -> Prop }.

(* Whom directives let in.  Of lists of scopes, one has to be held entirely. *)
Definition permits (p : principal) (d : directives) : Prop :=
  (authenticated d = true -> known_user p = true) /\
  (scopes d = nil \/ exists l, In l (scopes d) /\ forall x, In x l -> has_scope p x) /\
  (policies d = nil \/ exists l, In l (policies d) /\ forall x, In x l -> has_policy p x).

(* Directives that have what the directives of the subgraphs have. *)
Definition joins (ds : directives) (P : directives -> Prop) : Prop :=
  (authenticated ds = true <-> exists d, P d /\ authenticated d = true) /\
  (inaccessible ds = true <-> exists d, P d /\ inaccessible d = true) /\
  (forall l, In l (scopes ds) <-> exists d, P d /\ In l (scopes d)) /\
  (forall l, In l (policies ds) <-> exists d, P d /\ In l (policies d)).

Lemma collect_joins : forall l P, (forall d, In d l <-> P d) -> joins (collect l) P.
Proof.
  intros l P H. unfold joins, collect. cbn [authenticated inaccessible scopes policies].
  split; [|split; [|split]].
  - rewrite existsb_exists. split; intros (d & A & B); exists d; (split; [apply H; exact A|exact B]).
  - rewrite existsb_exists. split; intros (d & A & B); exists d; (split; [apply H; exact A|exact B]).
  - intros x. rewrite distinct_in by apply names_eqb_eq; rewrite in_flat_map.
    split; intros (d & A & B); exists d; (split; [apply H; exact A|exact B]).
  - intros x. rewrite distinct_in by apply names_eqb_eq; rewrite in_flat_map.
    split; intros (d & A & B); exists d; (split; [apply H; exact A|exact B]).
Qed.

Lemma plain_joins : forall P, (forall d, ~ P d) -> joins plain P.
Proof.
  intros P H. unfold joins. cbn. split; [|split; [|split]]; intros; split; try discriminate; try contradiction;
    intros (d & A & _); destruct (H d A).
Qed.

Section access.
  Variable gs : list subgraph.
  Variable s : schema.
  Hypothesis si : sound_input gs.
  Hypothesis C : compose gs = Composed s.

  Let ok : diags_of (compose_subgraphs gs) = nil := proj1 (composed_inv gs s C).

  Lemma type_joins : forall n ds, lookup_directives s n = Some ds -> joins ds (fun d => exists x, defines gs n x /\ d = d_dirs x).
  Proof.
    intros n ds L. destruct (all_named gs n) as [|v vs] eqn:E.
    - destruct (lookup_inserted gs s n C) as (_ & LD). rewrite (inserted_undefined gs si n E) in LD. unfold builtin_item in LD.
      destruct (mem n builtin_scalars); [|congruence]. cbn in LD. rewrite L in LD. injection LD as ->.
      apply plain_joins. intros d (x & D & _). apply (defines_view gs si) in D. destruct D as (w & W & _). rewrite E in W. contradiction.
    - assert (V : In v (all_named gs n)) by (rewrite E; left; reflexivity).
      destruct (lookup_view gs s si C n v V) as (LD & _).
      assert (X : ds = dirs_of (all_named gs n)).
      { rewrite L in LD. destruct (d_kind (v_def v)); try congruence. destruct (String.eqb n "join__FieldSet"); congruence. }
      subst ds. apply collect_joins. intros d. rewrite in_map_iff. split.
      + intros (w & <- & W). exists (v_def w). split; [apply (defines_view gs si); eauto|reflexivity].
      + intros (x & D & ->). apply (defines_view gs si) in D. destruct D as (w & W & <-). eauto.
  Qed.

  Lemma field_joins : forall n fs is f', lookup s n = Some (DObject fs is) \/ lookup s n = Some (DInterface fs is) -> In f' fs ->
    joins (of_dirs f') (fun d => exists x f, defines gs n x /\ In f (d_fields x) /\ f_name f = of_name f' /\ d = f_dirs f) /\
    forall i, In i (of_args f') ->
      joins (oi_dirs i) (fun d => exists x f a, defines gs n x /\ In f (d_fields x) /\ f_name f = of_name f' /\
                                                In a (f_args f) /\ a_name a = oi_name i /\ d = a_dirs a).
  Proof.
    intros n fs is f' L J. destruct (lookup_fields gs s si C n fs is L) as (v & I & K & P & F & _).
    apply (Permutation_in _ (Permutation_sym P)) in J.
    destruct (compose_fields_spec _ F) as (_ & B & _). destruct (B f' J) as (CF & _).
    destruct (compose_field_args _ _ CF) as (AD & AE & _ & DE).
    assert (LI : forall x, In x (sel vf_name (all_fields (all_named gs n)) (of_name f')) <->
                           In (v_parent x) (all_named gs n) /\ In (v_field x) (d_fields (v_def (v_parent x))) /\ vf_name x = of_name f').
    { intros x. rewrite sel_in, all_fields_in. tauto. }
    split.
    - rewrite DE. apply collect_joins. intros d. rewrite in_map_iff. split.
      + intros (x & <- & X). apply LI in X. destruct X as (V & X & N). exists (v_def (v_parent x)), (v_field x).
        split; [apply (defines_view gs si); eauto|auto].
      + intros (x & f & D & FI & N & ->). apply (defines_view gs si) in D. destruct D as (w & W & <-).
        exists (mkfview w f). split; [reflexivity|]. apply LI. unfold vf_name. cbn. auto.
    - intros i II. rewrite AE in II.
      destruct (sel vf_name (all_fields (all_named gs n)) (of_name f')) as [|y0 r0] eqn:SL; [contradiction|].
      assert (NE : y0 :: r0 <> nil) by discriminate.
      destruct (merge_field_arguments_spec _ NE AD) as (M1 & _). destruct (M1 i II) as (_ & _ & _ & _ & ->).
      apply collect_joins. intros d. rewrite in_map_iff. split.
      + intros (a & <- & A). apply sel_in in A. destruct A as (A & AN). apply all_args_in in A. destruct A as (AF & A).
        apply LI in AF. destruct AF as (V & X & N).
        exists (v_def (v_parent (v_of a))), (v_field (v_of a)), (v_arg a). split; [apply (defines_view gs si); eauto|auto].
      + intros (x & f & a & D & FI & N & A & AN & ->). apply (defines_view gs si) in D. destruct D as (w & W & <-).
        exists (mkaview (mkfview w f) a). split; [reflexivity|]. apply sel_in. split; [|exact AN].
        apply all_args_in. split; [|exact A]. apply LI. unfold vf_name. cbn. auto.
  Qed.

  Lemma input_joins : forall n o fs i, lookup s n = Some (DInput o fs) -> In i fs ->
    joins (oi_dirs i) (fun d => exists x f, defines gs n x /\ In f (d_fields x) /\ f_name f = oi_name i /\ d = f_dirs f).
  Proof.
    intros n o fs i L J. destruct (lookup_some gs s si C n _ L) as [(v & I)|(_ & V)]; [|congruence].
    pose proof (lookup_kind gs s si C n v _ I L) as K. cbn in K.
    destruct (lookup_view gs s si C n v I) as (_ & X).
    destruct (name_items_spec gs (si_wf gs si) (si_kinds gs si) (si_interfaces gs si) ok n v I) as (_ & _ & _ & _ & _ & ID & _).
    rewrite <- K in X, ID. rewrite L in X. injection X as -> ->.
    assert (NE : all_named gs n <> nil) by (intros E; rewrite E in I; contradiction).
    destruct (input_fields_spec n _ NE ID) as (A & _). destruct (A i J) as (_ & _ & _ & ->).
    apply collect_joins. intros d. rewrite in_map_iff. split.
    - intros (x & <- & X). apply sel_in in X. destruct X as (X & N). apply all_fields_in in X. destruct X as (V & X).
      exists (v_def (v_parent x)), (v_field x). split; [apply (defines_view gs si); eauto|auto].
    - intros (x & f & D & FI & N & ->). apply (defines_view gs si) in D. destruct D as (w & W & <-).
      exists (mkfview w f). split; [reflexivity|]. apply sel_in. split; [|exact N]. apply all_fields_in. auto.
  Qed.

  Lemma sites_joins : forall n x, joins (snd (with_sites (all_named gs n) x))
    (fun d => exists y, defines gs n y /\ In (x, d) (d_values y)).
  Proof.
    intros n x. unfold with_sites. cbn [snd]. apply collect_joins. intros d. rewrite in_flat_map. split.
    - intros (w & W & I). exists (v_def w). split; [apply (defines_view gs si); eauto|].
      destruct (find (fun p => String.eqb x (fst p)) (d_values (v_def w))) as [(y, e)|] eqn:F; [|contradiction].
      destruct I as [<-|[]]. apply find_some in F. destruct F as (F & E). apply String.eqb_eq in E. cbn in *. subst y. exact F.
    - intros (y & D & I). assert (D' := D). apply (defines_view gs si) in D. destruct D as (w & W & <-). exists w. split; [exact W|].
      destruct D' as (g & G & D & _).
      pose proof (find_unique _ fst _ (x, d) (wf_values g (si_wf gs si g G) _ D) I) as U. cbn [fst] in U.
      match goal with |- context [find ?q ?l] => replace (find q l) with (Some (x, d)) by (symmetry; exact U) end. left. reflexivity.
  Qed.

  Lemma value_joins : forall n vs x ds, lookup s n = Some (DEnum vs) -> In (x, ds) vs ->
    joins ds (fun d => exists y, defines gs n y /\ In (x, d) (d_values y)).
  Proof.
    intros n vs x ds L J. destruct (lookup_some gs s si C n _ L) as [(v & I)|(_ & V)]; [|congruence].
    pose proof (lookup_kind gs s si C n v _ I L) as K. cbn in K.
    destruct (lookup_view gs s si C n v I) as (_ & X). rewrite <- K in X. rewrite L in X.
    assert (E : vs = enum_values gs n (all_named gs n)) by congruence. clear X. subst vs.
    unfold enum_values in J. destruct (used_in_input gs n) eqn:UI.
    - assert (X : ds = snd (with_sites (all_named gs n) x)).
      { destruct (used_in_output gs n), (all_named gs n) as [|w ws]; try contradiction;
          apply in_map_iff in J; destruct J as (y & E & _); injection E as <- <-; reflexivity. }
      rewrite X. apply sites_joins.
    - assert (J' : In (x, ds) (flat_map value_group (groups fst (flat_map (fun d => d_values (v_def d)) (all_named gs n))))).
      { destruct (used_in_output gs n), (all_named gs n) as [|w ws]; try contradiction; exact J. }
      destruct (value_groups_spec (flat_map (fun d => d_values (v_def d)) (all_named gs n))) as (_ & _ & E).
      rewrite (E x ds J'). apply collect_joins. intros d. rewrite in_map_iff. split.
      + intros ((y & d') & <- & A). apply sel_in in A. destruct A as (A & N). cbn in N. subst y. apply in_flat_map in A.
        destruct A as (w & W & A). exists (v_def w). split; [apply (defines_view gs si); eauto|exact A].
      + intros (y & D & A). apply (defines_view gs si) in D. destruct D as (w & W & <-). exists (x, d). split; [reflexivity|].
        apply sel_in. split; [|reflexivity]. apply in_flat_map. eauto.
  Qed.
End access.

(* C58 *)
Theorem C58_types_partial : forall gs s n ds, sound_input gs -> compose gs = Composed s -> lookup_directives s n = Some ds ->
  joins ds (fun d => exists x, defines gs n x /\ d = d_dirs x).
Proof. intros gs s n ds SI C. apply (type_joins gs s SI C). Qed.

Theorem C58_fields_partial : forall gs s n fs is f', sound_input gs -> compose gs = Composed s ->
  lookup s n = Some (DObject fs is) \/ lookup s n = Some (DInterface fs is) -> In f' fs ->
  joins (of_dirs f') (fun d => exists x f, defines gs n x /\ In f (d_fields x) /\ f_name f = of_name f' /\ d = f_dirs f) /\
  forall i, In i (of_args f') ->
    joins (oi_dirs i) (fun d => exists x f a, defines gs n x /\ In f (d_fields x) /\ f_name f = of_name f' /\
                                              In a (f_args f) /\ a_name a = oi_name i /\ d = a_dirs a).
Proof. intros gs s n fs is f' SI C. apply (field_joins gs s SI C). Qed.

Theorem C58_inputs_partial : forall gs s n o fs i, sound_input gs -> compose gs = Composed s ->
  lookup s n = Some (DInput o fs) -> In i fs ->
  joins (oi_dirs i) (fun d => exists x f, defines gs n x /\ In f (d_fields x) /\ f_name f = oi_name i /\ d = f_dirs f).
Proof. intros gs s n o fs i SI C. apply (input_joins gs s SI C). Qed.

Theorem C58_values_partial : forall gs s n vs x ds, sound_input gs -> compose gs = Composed s ->
  lookup s n = Some (DEnum vs) -> In (x, ds) vs ->
  joins ds (fun d => exists y, defines gs n y /\ In (x, d) (d_values y)).
Proof. intros gs s n vs x ds SI C. apply (value_joins gs s SI C). Qed.

(* What this means for who is let in: everyone whom all subgraphs let in, and
   nobody whom a subgraph does not, if scopes and policies are each named by at
   most one of them. *)
Theorem C58_permits_partial : forall p ds P, joins ds P ->
  ((forall d, P d -> permits p d) -> permits p ds) /\
  ((forall d d', P d -> P d' -> scopes d <> nil -> scopes d' <> nil -> scopes d = scopes d') ->
   (forall d d', P d -> P d' -> policies d <> nil -> policies d' <> nil -> policies d = policies d') ->
   permits p ds -> forall d, P d -> permits p d) /\
  (permits p ds -> forall d, P d -> authenticated d = true -> known_user p = true).
Proof.
  intros p ds P (JA & _ & JS & JP).
  assert (EX : forall (sel : directives -> list (list name)) (h : name -> Prop),
    (forall l, In l (sel ds) <-> exists d, P d /\ In l (sel d)) ->
    ((forall d, P d -> sel d = nil \/ exists l, In l (sel d) /\ forall x, In x l -> h x) ->
     sel ds = nil \/ exists l, In l (sel ds) /\ forall x, In x l -> h x) /\
    ((forall d d', P d -> P d' -> sel d <> nil -> sel d' <> nil -> sel d = sel d') ->
     (sel ds = nil \/ exists l, In l (sel ds) /\ forall x, In x l -> h x) ->
     forall d, P d -> sel d = nil \/ exists l, In l (sel d) /\ forall x, In x l -> h x)).
  { intros sl h J. split.
    - intros H. destruct (sl ds) as [|l r] eqn:E; [left; reflexivity|right].
      destruct (proj1 (J l) (or_introl eq_refl)) as (d & D & I). destruct (H d D) as [X|(m & M & A)].
      + rewrite X in I. contradiction.
      + exists m. split; [|exact A]. apply J. eauto.
    - intros U [H|(l & L & A)] d D.
      + left. destruct (sl d) as [|m r] eqn:E; [reflexivity|]. exfalso.
        assert (X : In m (sl ds)) by (apply J; exists d; split; [exact D|rewrite E; left; reflexivity]). rewrite H in X. contradiction.
      + destruct (sl d) as [|m r] eqn:E; [left; reflexivity|right]. apply J in L. destruct L as (d' & D' & L).
        exists l. split; [|exact A]. rewrite <- E. rewrite (U d d' D D'); [exact L|congruence|].
        intros X. rewrite X in L. contradiction. }
  destruct (EX scopes (has_scope p) JS) as (S1 & S2). destruct (EX policies (has_policy p) JP) as (P1 & P2).
  split; [|split].
  - intros H. split; [|split].
    + intros A. apply JA in A. destruct A as (d & D & A). apply (proj1 (H d D)). exact A.
    + apply S1. intros d D. apply (H d D).
    + apply P1. intros d D. apply (H d D).
  - intros U1 U2 (A & B & E) d D. split; [|split].
    + intros X. apply A. apply JA. eauto.
    + apply S2; assumption.
    + apply P2; assumption.
  - intros (A & _) d D X. apply A. apply JA. eauto.
Qed.

Definition needs (ss : list (list name)) : directives :=
  mkdirectives true false false false false false false false false false None ss nil.
Definition login : directives := mkdirectives true false false false false true false false false false None nil nil.
Definition hidden : directives := mkdirectives true false true false false false false false false false None nil nil.

(* A type, a field, an argument, an input field and enum values of which one of
   two subgraphs protects each. *)
Definition access_g : subgraph := graph "g"
  [object "Query" [mkfield "user" (tnull "User") [mkargument "role" (tnull "Role") None hidden; arg "by" (tnull "By")] None shared];
   mkdef "User" KObject [mkfield "mail" (tnull "String") nil None (needs [["read"; "mail"]])] nil nil nil shared;
   mkdef "Role" KEnum nil [("ADMIN", plain); ("GUEST", plain)] nil nil plain;
   mkdef "By" KInputObject [infld "id" (tnull "ID") None] nil nil nil plain] nil.
Definition access_h : subgraph := graph "h"
  [object "Query" [fld_args "user" (tnull "User") [arg "role" (tnull "Role"); arg "by" (tnull "By")]];
   mkdef "User" KObject [mkfield "mail" (tnull "String") nil None shared] nil nil nil login;
   mkdef "Role" KEnum nil [("ADMIN", hidden); ("GUEST", plain)] nil nil plain;
   mkdef "By" KInputObject [mkfield "id" (tnull "ID") nil None hidden] nil nil nil plain] nil.

Example C58_example :
  sound_input [access_g; access_h] /\ exists s, compose [access_g; access_h] = Composed s /\
    option_map authenticated (lookup_directives s "User") = Some true /\
    (exists f, lookup s "User" = Some (DObject [f] nil) /\ scopes (of_dirs f) = [["read"; "mail"]]) /\
    (exists f, lookup s "Query" = Some (DObject [f] nil) /\
       map (fun i => (oi_name i, inaccessible (oi_dirs i))) (of_args f) = [("by", false); ("role", true)]) /\
    (exists i, lookup s "By" = Some (DInput false [i]) /\ inaccessible (oi_dirs i) = true) /\
    (exists vs, lookup s "Role" = Some (DEnum vs) /\ map (fun v => (fst v, inaccessible (snd v))) vs = [("ADMIN", true); ("GUEST", false)]).
Proof.
  split; [apply sound_inputb_ok; vm_compute; reflexivity|]. eexists. split; [vm_compute; reflexivity|].
  split; [vm_compute; reflexivity|]. split; [eexists; split; vm_compute; reflexivity|].
  split; [eexists; split; vm_compute; reflexivity|]. split; [eexists; split; vm_compute; reflexivity|].
  eexists. split; vm_compute; reflexivity.
Qed.

(* Two subgraphs that name scopes: those of either are enough. *)
Theorem C58_scopes_refuted : exists g h s f p,
  sound_input [g; h] /\ compose [g; h] = Composed s /\ lookup s "Query" = Some (DObject [f] nil) /\
  permits p (of_dirs f) /\
  exists d f', In d (g_defs h) /\ d_name d = "Query" /\ In f' (d_fields d) /\ f_name f' = of_name f /\ ~ permits p (f_dirs f').
Proof.
  exists (graph "g" [object "Query" [mkfield "a" (tnull "Int") nil None (needs [["read"]])]] nil).
  exists (graph "h" [object "Query" [mkfield "a" (tnull "Int") nil None (needs [["admin"]])]] nil).
  eexists. eexists. exists (mkprincipal false (fun x => x = "read") (fun _ => False)).
  split; [apply sound_inputb_ok; vm_compute; reflexivity|]. split; [vm_compute; reflexivity|].
  split; [vm_compute; reflexivity|]. split.
  - split; [discriminate|]. split; [right; exists ["read"]; split; [cbn; tauto|intros x [<-|[]]; reflexivity]|left; reflexivity].
  - eexists. eexists. split; [left; reflexivity|]. split; [reflexivity|]. split; [left; reflexivity|]. split; [reflexivity|].
    intros (_ & [H|(l & [<-|[]] & H)] & _); [discriminate|]. specialize (H "admin" (or_introl eq_refl)). discriminate.
Qed.

(* With entity interfaces: a field that an object gets from an interface
   object has no directives. *)
Definition entity_p : subgraph := graph "b"
  [object "Query" [fld "b" (tnull "Int")];
   mkdef "Media" KObject [fld "id" (treq "ID"); mkfield "sales" (tnull "Int") nil None login] nil nil by_id (keyed true)] nil.
Theorem C58_entity_interfaces_refuted : exists gs s fs f,
  (forall g, In g gs -> well_formed g) /\ compose gs = Composed s /\
  lookup s "Book" = Some (DObject fs ["Media"]) /\ In f fs /\ of_name f = "sales" /\ authenticated (of_dirs f) = false /\
  forall g d f', In g gs -> In d (g_defs g) -> In f' (d_fields d) -> f_name f' = "sales" -> authenticated (f_dirs f') = true.
Proof.
  exists [entity_g; entity_p]. eexists. eexists. eexists. split.
  { intros g [<-|[<-|[]]]; apply well_formedb_ok; vm_compute; reflexivity. }
  split; [vm_compute; reflexivity|]. split; [vm_compute; reflexivity|].
  split; [right; left; reflexivity|]. split; [reflexivity|]. split; [reflexivity|].
  intros g d f' [<-|[<-|[]]] D F N.
  - cbn in D. destruct D as [<-|[<-|[<-|[]]]]; cbn in F; repeat (destruct F as [<-|F]); try contradiction; discriminate.
  - cbn in D. destruct D as [<-|[<-|[]]]; cbn in F; repeat (destruct F as [<-|F]); try contradiction; try discriminate. reflexivity.
Qed.
