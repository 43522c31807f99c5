(** C89–C91: the query sent to a subgraph reads back as the planned operation, asks each object
    for what was planned for it, and has its variables in order. *)
From Coq Require Import String Ascii List Arith Bool Lia.
From Verif.Outgoing Require Import Model Spec Text Vars Proofs.
Import ListNotations.
Local Open Scope string_scope.
Local Open Scope nat_scope.
Local Open Scope list_scope.

(** The operation types of GraphQL. *)
Definition operation_word (k : kind) : string :=
  match k with Query => "query" | Mutation => "mutation" | Subscription => "subscription" end.

Section Theorems.
  Variable w : view.
  Variable client : list (string * ty).
  Variable eq_qq eq_qs : nat -> nat -> bool.
  Variable J : Type.
  Variable sem : value -> option J.
  Hypothesis view_fine : view_ok w.
  Hypothesis client_fine : client_ok client.
  (** The comparisons of values of the query and the schema are right. *)
  Hypothesis qq_fine : forall a b, eq_qq a b = true -> sem (VQuery a) = sem (VQuery b).
  Hypothesis qs_fine : forall a b, eq_qs a b = true -> sem (VQuery a) = sem (VSchema b).

  Lemma sem_fine : forall a b, same_value eq_qq eq_qs a b = true -> sem a = sem b.
  Proof.
    intros [u|x|a|a|a] [u'|y|b|b|b] H; cbn in H; try discriminate H; auto; try (apply Nat.eqb_eq in H; congruence).
    symmetry. auto.
  Qed.

  (** ** C89: the text is the operation *)
  Theorem C89_operation k o typename data lookup s vs :
    planned w client (PComp (CObj o)) data lookup ->
    build w client eq_qq eq_qs k o typename data lookup = (s, vs) ->
    exists sels, parse s = Some (AOp (operation_word k) (map (fun q => (qname q, qty q)) vs) sels) /\ sels <> [].
  Proof.
    intros P B. destruct (build_reads w client eq_qq eq_qs J sem view_fine client_fine sem_fine k o typename data lookup s vs P B)
      as (sels & R & _ & S & _). exists sels. split; [exact R|]. apply (S vs (incl_refl _)).
  Qed.

  Theorem C89_entities typename data lookup s x vs :
    planned w client PAny data lookup ->
    build_entities w client eq_qq eq_qs typename data lookup = (s, x, vs) ->
    exists sub, parse s = Some (AOp "query" ((x, TList (TName "_Any" true) true) :: map (fun q => (qname q, qty q)) vs)
                                   [AField None "_entities" [("representations", AVar x)] [] sub]) /\ sub <> [].
  Proof.
    intros P B. destruct (entities_reads w client eq_qq eq_qs J sem view_fine client_fine sem_fine typename data lookup s x vs P B)
      as (sub & R & _ & _ & S & _). exists sub. split; [exact R|]. apply (S vs (incl_refl _)).
  Qed.

  (** ** C90: every object is asked for what was planned *)
  Theorem C90_operation k o typename data lookup s vs :
    planned w client (PComp (CObj o)) data lookup ->
    build w client eq_qq eq_qs k o typename data lookup = (s, vs) ->
    exists op, parse s = Some op /\ asks w client J sem vs (PComp (CObj o)) typename data lookup (asels op).
  Proof.
    intros P B. destruct (build_reads w client eq_qq eq_qs J sem view_fine client_fine sem_fine k o typename data lookup s vs P B)
      as (sels & R & _ & S & _). eexists. split; [exact R|]. apply (S vs (incl_refl _)).
  Qed.

  Theorem C90_entities typename data lookup s x vs :
    planned w client PAny data lookup ->
    build_entities w client eq_qq eq_qs typename data lookup = (s, x, vs) ->
    exists op sub, parse s = Some op /\ asels op = [AField None "_entities" [("representations", AVar x)] [] sub]
      /\ asks w client J sem vs PAny typename data lookup sub.
  Proof.
    intros P B. destruct (entities_reads w client eq_qq eq_qs J sem view_fine client_fine sem_fine typename data lookup s x vs P B)
      as (sub & R & _ & _ & S & _). eexists. exists sub. split; [exact R|]. split; [reflexivity|]. apply (S vs (incl_refl _)).
  Qed.

  (** The fragments are spread where they can be, for the plans of [clean]. *)
  Theorem C90_spreads k o typename data lookup s vs :
    planned w client (PComp (CObj o)) data lookup ->
    clean w (PComp (CObj o)) (data ++ lookup) ->
    build w client eq_qq eq_qs k o typename data lookup = (s, vs) ->
    exists op, parse s = Some op /\ Forall (spread w (PComp (CObj o)) (data ++ lookup)) (asels op).
  Proof.
    intros P C B. destruct (build_reads w client eq_qq eq_qs J sem view_fine client_fine sem_fine k o typename data lookup s vs P B)
      as (sels & R & _ & S & _). eexists. split; [exact R|]. now apply (S vs (incl_refl _)).
  Qed.

  Theorem C90_entity_spreads typename data lookup s x vs :
    planned w client PAny data lookup ->
    clean w PAny (data ++ lookup) ->
    build_entities w client eq_qq eq_qs typename data lookup = (s, x, vs) ->
    exists op sub, parse s = Some op /\ asels op = [AField None "_entities" [("representations", AVar x)] [] sub]
      /\ Forall (spread w PAny (data ++ lookup)) sub.
  Proof.
    intros P C B. destruct (entities_reads w client eq_qq eq_qs J sem view_fine client_fine sem_fine typename data lookup s x vs P B)
      as (sub & R & _ & _ & S & _). eexists. exists sub. split; [exact R|]. split; [reflexivity|]. now apply (S vs (incl_refl _)).
  Qed.

  (** ** C91: variables *)

  (** Exactly the variables used are declared, once each. *)
  Theorem C91_scoped k o typename data lookup s vs :
    planned w client (PComp (CObj o)) data lookup ->
    build w client eq_qq eq_qs k o typename data lookup = (s, vs) ->
    exists op, parse s = Some op /\ well_scoped op.
  Proof.
    intros P B. destruct (build_reads w client eq_qq eq_qs J sem view_fine client_fine sem_fine k o typename data lookup s vs P B)
      as (sels & R & I & _ & U1 & U2). eexists. split; [exact R|]. unfold well_scoped. cbn [avars asels].
    unfold defs. rewrite map_map. cbn [fst]. split; [now apply (inv_nodup client client_fine)|].
    intros x. split; [apply U2|apply U1].
  Qed.

  (** For entities too, unless a variable of the client has the name chosen for the entities. *)
  Theorem C91_entities typename data lookup s x vs :
    planned w client PAny data lookup ->
    build_entities w client eq_qq eq_qs typename data lookup = (s, x, vs) ->
    exists op, parse s = Some op /\ (well_scoped op <-> ~ In x (map qname vs))
      /\ (In x (map qname vs) -> In x (map fst client)).
  Proof.
    intros P B. destruct (entities_reads w client eq_qq eq_qs J sem view_fine client_fine sem_fine typename data lookup s x vs P B)
      as (sub & R & Ex & I & _ & U1 & U2). eexists. split; [exact R|].
    pose proof (inv_nodup client client_fine vs I) as ND.
    split.
    - unfold well_scoped. cbn [avars asels map fst]. unfold defs. rewrite map_map. cbn [fst].
      change (map (fun q => qname q) vs) with (map qname vs). split.
      + intros [N _]. now inversion N.
      + intros N. split; [now constructor|]. intros z. cbn [flat_map sel_vars arg_vars snd app]. rewrite app_nil_r.
        cbn [In]. split; (intros [H|H]; [now left|right]); [now apply U2|now apply U1].
    - intros H. apply in_map_iff in H as (q & Eq & Hq).
      destruct (inv_in client vs I q Hq) as [(y & Hy & ->)|(k & n & L & Gn & _)].
      + cbn in Eq. rewrite <- Eq. apply in_map. now apply cdef_in.
      + exfalso. rewrite Gn, Ex in Eq. apply gname_inj in Eq as [_ Eq]. lia.
  Qed.

  (** A generated name is the first of var<n>, _var<n>, __var<n>, ... no variable of the client
      has; the search for it ends. *)
  Theorem C91_generated n : exists j,
    candidate client (S (length client)) "" n = Some (underscores j ++ "var" ++ decimal n)%string
    /\ ~ In (underscores j ++ "var" ++ decimal n)%string (map fst client)
    /\ forall i, i < j -> In (underscores i ++ "var" ++ decimal n)%string (map fst client).
  Proof. apply candidate_found. Qed.

  (** Without injected values, the variables sent are those declared, with the values of the
      planned arguments, save the undefined ones. *)
  Theorem C91_sent k o typename data lookup s vs :
    planned w client (PComp (CObj o)) data lookup -> no_injection data lookup ->
    build w client eq_qq eq_qs k o typename data lookup = (s, vs) ->
    exists l, sent J sem vs [] = Some l /\ NoDup (map fst l)
      /\ forall x j, In (x, j) l <-> exists q, In q vs /\ qname q = x /\ sem (qvalue q) = Some j.
  Proof.
    intros P Ni B. destruct (build_reads w client eq_qq eq_qs J sem view_fine client_fine sem_fine k o typename data lookup s vs P B)
      as (sels & _ & I & _).
    assert (K : Forall not_injected vs).
    { unfold build in B. destruct (selection w client eq_qq eq_qs (PComp (CObj o)) typename data lookup []) as [b vs'] eqn:E.
      injection B as _ <-. now apply (kept w client eq_qq eq_qs _ _ _ _ _ _ Ni E). }
    destruct (sent_spec J sem vs K (inv_nodup client client_fine vs I)) as (l & A & B' & C).
    exists l. unfold sent. rewrite A, app_nil_r. split; [reflexivity|]. now split.
  Qed.

  (** And the entities with them. *)
  Theorem C91_entities_sent typename data lookup s x vs r :
    planned w client PAny data lookup -> no_injection data lookup ->
    build_entities w client eq_qq eq_qs typename data lookup = (s, x, vs) -> ~ In x (map fst client) ->
    exists l, sent J sem vs [(x, r)] = Some l /\ NoDup (map fst l)
      /\ forall y j, In (y, j) l <-> (y = x /\ j = r) \/ exists q, In q vs /\ qname q = y /\ sem (qvalue q) = Some j.
  Proof.
    intros P Ni B Nx. destruct (entities_reads w client eq_qq eq_qs J sem view_fine client_fine sem_fine typename data lookup s x vs P B)
      as (sub & _ & _ & I & _).
    destruct (C91_entities typename data lookup s x vs P B) as (_ & _ & _ & Nq).
    assert (K : Forall not_injected vs).
    { unfold build_entities in B. destruct (selection w client eq_qq eq_qs PAny typename data lookup []) as [b vs'] eqn:E.
      injection B as _ _ <-. now apply (kept w client eq_qq eq_qs _ _ _ _ _ _ Ni E). }
    destruct (sent_spec J sem vs K (inv_nodup client client_fine vs I)) as (l & A & B' & C).
    exists (l ++ [(x, r)]). unfold sent. rewrite A. split; [reflexivity|]. split.
    - rewrite map_app. apply NoDup_snoc; [exact C|]. intros H. apply in_map_iff in H as ([y j] & Ey & Hy). cbn in Ey. subst y.
      apply B' in Hy as (q & Hq & Eq & _). apply Nx, Nq. rewrite <- Eq. now apply in_map.
    - intros y j. rewrite in_app_iff, B'. cbn [In]. split.
      + intros [H|[H|[]]]; [now right|injection H as <- <-; now left].
      + intros [[-> ->]|H]; [right; now left|now left].
  Qed.
End Theorems.

(** ** Examples *)
Definition tbl (l : list (nat * nat)) (a b : nat) : bool := existsb (fun p => Nat.eqb (fst p) a && Nat.eqb (snd p) b) l.
Definition mem (l : list nat) (a : nat) : bool := existsb (Nat.eqb a) l.

(** A view by tables: objects O0, O1, ...; interfaces I0, I1, .... *)
Definition ex_view (os is_ : list nat) (im me : list (nat * nat)) (ip up : list (list nat)) : view :=
  View (fun o => "O" ++ decimal o)%string (fun i => "I" ++ decimal i)%string
    (mem os) (mem is_) (tbl im) (tbl me) (fun i => nth i ip []) (fun u => nth u up []).

Fixpoint distinct (l : list nat) : bool := match l with [] => true | a :: r => negb (mem r a) && distinct r end.

Definition ex_check (os is_ : list nat) (im me : list (nat * nat)) (ip up : list (list nat)) : bool :=
  forallb (fun p => mem (nth (snd p) ip []) (fst p) && mem os (fst p) && mem is_ (snd p)) im
  && forallb (fun p => mem (nth (fst p) up []) (snd p)) me
  && forallb distinct ip.

Lemma mem_in l a : mem l a = true <-> In a l.
Proof.
  unfold mem. rewrite existsb_exists. split.
  - intros (b & Hb & E). apply Nat.eqb_eq in E. now subst b.
  - intros H. exists a. split; [exact H|apply Nat.eqb_refl].
Qed.

Lemma tbl_in l a b : tbl l a b = true -> In (a, b) l.
Proof.
  unfold tbl. rewrite existsb_exists. intros ([x y] & H & E). cbn in E. apply andb_prop in E as [E1 E2].
  apply Nat.eqb_eq in E1, E2. now subst.
Qed.

Lemma distinct_nodup l : distinct l = true -> NoDup l.
Proof.
  induction l as [|a l IH]; cbn; intros H; constructor.
  - apply andb_prop in H as [H _]. intros K. apply mem_in in K. now rewrite K in H.
  - apply IH. now apply andb_prop in H as [_ H].
Qed.

Lemma ex_view_ok os is_ im me ip up : ex_check os is_ im me ip up = true -> view_ok (ex_view os is_ im me ip up).
Proof.
  intros H. unfold ex_check in H. apply andb_prop in H as [H H3]. apply andb_prop in H as [H1 H2].
  rewrite forallb_forall in H1, H2, H3. constructor; cbn.
  - intros o. apply decimal_chars.
  - intros i. apply decimal_chars.
  - intros a b E. injection E as E. now apply decimal_inj.
  - intros a b E. injection E as E. now apply decimal_inj.
  - intros o i E. discriminate E.
  - intros o i E. apply tbl_in in E. specialize (H1 _ E). cbn in H1.
    apply andb_prop in H1 as [H1 _]. apply andb_prop in H1 as [H1 _]. now apply mem_in.
  - intros o i E. apply tbl_in in E. specialize (H1 _ E). cbn in H1.
    apply andb_prop in H1 as [H1 ?]. apply andb_prop in H1 as [_ H1]. now split.
  - intros u o E. apply tbl_in in E. specialize (H2 _ E). now apply mem_in.
  - intros i. destruct (nth_in_or_default i ip []) as [K| ->]; [|constructor]. apply distinct_nodup. now apply H3.
Qed.

(** Constructing plans for concrete data. *)
Ltac cases := repeat match goal with
  | H : In _ _ |- _ => progress cbn in H
  | H : _ \/ _ |- _ => destruct H as [H|H]
  | H : False |- _ => destruct H
  | H : _ = ?f |- _ => is_var f; subst f
  end.
Ltac plan := repeat (apply Planned;
  [ intros ? ?; cases; cbn; auto
  | intros ? ?; cases; cbn; auto
  | solve [now left | right; eexists; reflexivity]
  | intros ? ?; cases; cbn; (split; [reflexivity|]); (split; [reflexivity|]);
    repeat (constructor; [split; [reflexivity|split; [reflexivity|cbn; auto with arith]]|]); try constructor
  | let E := fresh "E" in intros ? ? ? E; cases; cbn in E; try discriminate E; injection E as <-; cbn [pdata plookup] ]).

Definition leaf (e : entity) (k n : string) : pfield := PField e k n [] None None false [] [].
Definition Int : ty := TName "Int" false.
Definition Ints : ty := TList (TName "Int" false) false.
Definition no_eq (_ _ : nat) : bool := false.

(** The subgraph has the objects O0 (the root), O1, O2, O3 and the interfaces I0 and I1.
    I0 is of O1, O2, O3 and implemented here by O1 only; I1 is of O1, O2, implemented by both;
    the union U0 has O1, O2. *)
Definition v1 : view := ex_view [0; 1; 2; 3] [0; 1] [(1, 0); (1, 1); (2, 1)] [(0, 1); (0, 2)] [[1; 2; 3]; [1; 2]] [[1; 2]].

(** [search(first: 3 as a variable, kind: TOP)] gives the union, under which a field of O1, one
    of I0 and one of I1 are planned; [again: search] uses the same value again, and the client's
    variable. *)
Definition plan1 : list pfield :=
  [ PField (EObj 0) "search" "search" [("first", Int, VQuery 7); ("kind", TName "Kind" false, VConst "TOP")]
      None (Some (CUni 0)) true
      [leaf (EObj 1) "a" "a"; leaf (EItf 0) "id" "id"; leaf (EItf 0) "id_0" "ident"; leaf (EItf 1) "n" "n"] [];
    PField (EObj 0) "again" "search" [("first", Int, VQuery 7); ("after", TName "String" false, VVariable 0)]
      None (Some (CUni 0)) false [] [] ].

Definition client1 : list (string * ty) := [("after", TName "String" true); ("var0", Int)].
Definition eq1 (a b : nat) : bool := Nat.eqb a b.

Example C89_example :
  build v1 client1 eq1 no_eq Query 0 false plan1 [] =
    ("query($_var0: Int, $after: String!) { search(first: $_var0, kind: TOP) { __typename ... on O1 { a } ... on O2 { id id_0: ident } ... on O3 { id id_0: ident } ... on I0 { id id_0: ident } ... on I1 { n } } again: search(first: $_var0, after: $after) { __typename @skip(if: true) } }",
     [QVar "_var0" Int (VQuery 7); QVar "after" (TName "String" true) (VVariable 0)])
  /\ view_ok v1 /\ client_ok client1 /\ planned v1 client1 (PComp (CObj 0)) plan1 []
  /\ parse "query { a { b } ... on T { c: d(x: $y, z: E) } }"
     = Some (AOp "query" [] [AField None "a" [] [] [AField None "b" [] [] []];
                             AInline "T" [AField (Some "c") "d" [("x", AVar "y"); ("z", AName "E")] [] []]])
  /\ parse "query { a { } }" = None.
Proof.
  split; [vm_compute; reflexivity|]. split; [apply ex_view_ok; vm_compute; reflexivity|].
  split.
  { split; [|repeat constructor]. cbn. constructor; [intros [H|[]]; discriminate H|]. constructor; [intros []|constructor]. }
  split; [|split; vm_compute; reflexivity]. plan.
Qed.

(** What is collected is determined. *)
Lemma collects_det w o l r : collects w o l r -> forall r', collects w o l r' -> r = r'.
Proof.
  induction 1 as [|a n args dirs sub l r Sk H IH|a n args sub l r H IH|c sub l r1 r2 Sa H1 IH1 H2 IH2|c sub l r Sa H IH];
    intros r' K; inversion K; subst; auto; try contradiction.
  all: try match goal with X : skipped [] |- _ => destruct X end.
  all: f_equal; auto.
Qed.

(** The object O2 gets the fields of I0 and of I1, once each. *)
Example C90_example :
  exists op sub1 sub2, parse (fst (build v1 client1 eq1 no_eq Query 0 false plan1 [])) = Some op
  /\ asels op = [AField None "search" [("first", AVar "_var0"); ("kind", AName "TOP")] [] sub1; sub2]
  /\ (forall r, collects v1 2 sub1 r <->
       r = [AField None "__typename" [] [] []; AField None "id" [] [] []; AField (Some "id_0") "ident" [] [] []; AField None "n" [] [] []]).
Proof.
  eexists _, _, _. split; [vm_compute; reflexivity|]. split; [reflexivity|]. cbn [asels].
  assert (V : view_ok v1) by (apply ex_view_ok; vm_compute; reflexivity).
  match goal with |- forall r, collects _ _ ?sub r <-> r = ?l => set (L := l); assert (C : collects v1 2 sub L) end.
  2:{ intros r. split; [intros H; symmetry; exact (collects_det _ _ _ _ C r H)|intros ->; exact C]. }
  unfold L. apply collects_field.
  apply collects_out; [intros H; apply (proj1 (satisfies_entity v1 V 2 (EObj 1))) in H; discriminate H|].
  apply (collects_in v1 2 "O2" _ _ [AField None "id" [] [] []; AField (Some "id_0") "ident" [] [] []]);
    [apply (proj2 (satisfies_entity v1 V 2 (EObj 2))); reflexivity|repeat (apply collects_field || apply collects_nil)|].
  apply collects_out; [intros H; apply (proj1 (satisfies_entity v1 V 2 (EObj 3))) in H; discriminate H|].
  apply collects_out; [intros H; apply (proj1 (satisfies_entity v1 V 2 (EItf 0))) in H; discriminate H|].
  apply (collects_in v1 2 "I1" _ _ [AField None "n" [] [] []] []);
    [apply (proj2 (satisfies_entity v1 V 2 (EItf 1))); reflexivity|repeat (apply collects_field || apply collects_nil)|constructor].
Qed.

(** *** Refuted: spreads are possible under any plan where the fields overlap their position

    The parent I1 is implemented by all its objects (O1); I0 is of O1 and O2 and implemented
    here by neither, though both exist: the fields of I0 are asked for on O2 as well, which
    cannot be at a position of type I1. *)
Definition v2 : view := ex_view [0; 1; 2] [0; 1] [(1, 1)] [] [[1; 2]; [1]] [].
Definition plan2 : list pfield :=
  [PField (EObj 0) "node" "node" [] None (Some (CItf 1)) false [leaf (EItf 0) "id" "id"] []].

Theorem C90_object_spread_refuted :
  exists w data s vs op,
    view_ok w /\ planned w [] (PComp (CObj 0)) data [] /\ overlapping w (PComp (CObj 0)) (data ++ [])
    /\ build w [] no_eq no_eq Query 0 false data [] = (s, vs) /\ parse s = Some op
    /\ ~ Forall (spread w (PComp (CObj 0)) (data ++ [])) (asels op).
Proof.
  exists v2, plan2. do 3 eexists.
  assert (V : view_ok v2) by (apply ex_view_ok; vm_compute; reflexivity).
  split; [exact V|]. split; [plan|]. split.
  { constructor.
    - intros f Hf. cases. exists 0. now split.
    - intros f c Hf E. cases. injection E as <-. constructor.
      + intros f Hf. cases. exists 1. cbn. auto.
      + intros f c Hf E. cases. discriminate E. }
  split; [vm_compute; reflexivity|]. split; [vm_compute; reflexivity|].
  cbn [asels]. intros H. apply Forall_inv in H. inversion H; subst.
  match goal with Hin : In f _ |- _ => cases end.
  match goal with E : field_type _ = Some _ |- _ => injection E as <- end.
  match goal with K : Forall _ _ |- _ => apply Forall_inv_tail, Forall_inv in K; inversion K; subst end.
  match goal with K : spread_possible _ _ _ |- _ => destruct K as (o & [Po _] & So) end.
  apply (proj1 (satisfies_entity v2 V o (EObj 2))) in So. subst o. discriminate Po.
Qed.

(** The parent I1 is of O1 and O2, implemented here by O1; I0 is of O1 and O3, implemented here
    by O3 only: a fragment on I0 is written, which no object at a position of type I1
    satisfies. *)
Definition v3 : view := ex_view [0; 1; 3] [0; 1] [(1, 1); (3, 0)] [] [[1; 3]; [1; 2]] [].

Theorem C90_interface_spread_refuted :
  exists w data s vs op,
    view_ok w /\ planned w [] (PComp (CObj 0)) data [] /\ overlapping w (PComp (CObj 0)) (data ++ [])
    /\ build w [] no_eq no_eq Query 0 false data [] = (s, vs) /\ parse s = Some op
    /\ ~ Forall (spread w (PComp (CObj 0)) (data ++ [])) (asels op).
Proof.
  exists v3, plan2. do 3 eexists.
  assert (V : view_ok v3) by (apply ex_view_ok; vm_compute; reflexivity).
  split; [exact V|]. split; [plan|]. split.
  { constructor.
    - intros f Hf. cases. exists 0. now split.
    - intros f c Hf E. cases. injection E as <-. constructor.
      + intros f Hf. cases. exists 1. cbn. auto.
      + intros f c Hf E. cases. discriminate E. }
  split; [vm_compute; reflexivity|]. split; [vm_compute; reflexivity|].
  cbn [asels]. intros H. apply Forall_inv in H. inversion H; subst.
  match goal with Hin : In f _ |- _ => cases end.
  match goal with E : field_type _ = Some _ |- _ => injection E as <- end.
  match goal with K : Forall _ _ |- _ => apply Forall_inv_tail, Forall_inv in K; inversion K; subst end.
  match goal with K : spread_possible _ _ _ |- _ => destruct K as (o & [Po _] & So) end.
  apply (proj1 (satisfies_entity v3 V o (EItf 0))) in So.
  apply tbl_in in Po, So. cases; congruence.
Qed.

(** *** Refuted: an entity is asked for the fields planned on its interfaces

    I0 is of O1 and O2, implemented here by O1 only, though O2 exists here too: for an O2 the
    fragment on I0 selects nothing. *)
Definition v4 : view := ex_view [0; 1; 2] [0] [(1, 0)] [] [[1; 2]] [].

Theorem C90_entities_refuted :
  exists w data s x vs op sub,
    view_ok w /\ overlapping w PAny (data ++ [])
    /\ (forall f, In f data -> exists i, pparent f = EItf i /\ iexists w i = true)
    /\ build_entities w [] no_eq no_eq false data [] = (s, x, vs) /\ parse s = Some op
    /\ asels op = [AField None "_entities" [("representations", AVar x)] [] sub]
    /\ possible w PAny 2 /\ wanted w 2 data data /\ data <> [] /\ collects w 2 sub [].
Proof.
  exists v4, [leaf (EItf 0) "id" "id"]. do 5 eexists.
  assert (V : view_ok v4) by (apply ex_view_ok; vm_compute; reflexivity).
  split; [exact V|]. split.
  { constructor.
    - intros f Hf. cases. exists 1. cbn. auto.
    - intros f c Hf E. cases. discriminate E. }
  split; [intros f Hf; cases; now exists 0|].
  split; [vm_compute; reflexivity|]. split; [vm_compute; reflexivity|]. split; [reflexivity|].
  split; [reflexivity|]. split; [constructor; [cbn; auto|constructor]|]. split; [discriminate|].
  apply collects_out; [|constructor].
  intros K. apply (proj1 (satisfies_entity v4 V 2 (EItf 0))) in K. discriminate K.
Qed.

(** *** Refuted: an object is only asked for fields planned for it

    The supergraph's type of [node] is the interface I0 of O1 and O2, the subgraph's the object
    O1: a field planned on O2, which exists in the subgraph, is asked for without a condition. *)
Definition plan5 : list pfield :=
  [PField (EObj 0) "node" "node" [] (Some (CObj 1)) (Some (CItf 0)) false [leaf (EItf 0) "id" "id"; leaf (EObj 2) "title" "title"] []].
Definition v5 : view := ex_view [0; 1; 2] [0] [(1, 0); (2, 0)] [] [[1; 2]] [].

Theorem C90_covariant_refuted :
  exists w data s vs op sub,
    view_ok w
    /\ (forall f c g, In f data -> psuptype f = Some c -> In g (pdata f) -> exists o, possible w (PComp c) o /\ applies w (pparent g) o)
    /\ build w [] no_eq no_eq Query 0 false data [] = (s, vs) /\ parse s = Some op
    /\ asels op = [AField None "node" [] [] sub]
    /\ exists f g, data = [f] /\ field_type f = Some (CObj 1) /\ In g (pdata f) /\ ~ applies w (pparent g) 1
         /\ exists r, collects w 1 sub r /\ In (AField None (pname g) [] [] []) r.
Proof.
  exists v5, plan5. do 4 eexists.
  split; [apply ex_view_ok; vm_compute; reflexivity|]. split.
  { intros f c g Hf E Hg. cases; cbn in E; injection E as <-.
    - exists 1. cbn. auto.
    - exists 2. cbn. auto. }
  split; [vm_compute; reflexivity|]. split; [vm_compute; reflexivity|]. split; [reflexivity|].
  eexists _, (leaf (EObj 2) "title" "title"). split; [reflexivity|]. split; [reflexivity|]. split; [cbn; auto|].
  split; [discriminate|]. eexists. split; [repeat (apply collects_field || apply collects_nil)|]. cbn. auto.
Qed.

(** *** Refuted: the variable for the entities is not one of the others *)
Definition client6 : list (string * ty) := [("var1", Int)].
Definition plan6 : list pfield := [PField (EObj 1) "f" "f" [("x", Int, VVariable 0)] None None false [] []].

Theorem C91_entities_refuted :
  exists w client data s x vs op,
    view_ok w /\ client_ok client /\ planned w client PAny data []
    /\ build_entities w client no_eq no_eq false data [] = (s, x, vs) /\ parse s = Some op
    /\ ~ well_scoped op /\ In x (map qname vs).
Proof.
  exists v4, client6, plan6. do 4 eexists.
  split; [apply ex_view_ok; vm_compute; reflexivity|]. split.
  { split; repeat constructor. intros []. }
  split; [plan|]. split; [vm_compute; reflexivity|]. split; [vm_compute; reflexivity|].
  split; [|now left]. intros [N _]. cbn in N. inversion N as [|? ? K _]; subst. apply K. now left.
Qed.

(** *** Refuted: variables are of a type allowed at the argument

    A client may give a variable of type Int for an argument of type [Int]
    (C70_single_for_list_refuted); the variable is declared to the subgraph with the client's
    type. *)
Theorem C91_type_refuted :
  exists w client data s vs op x t,
    view_ok w /\ client_ok client /\ planned w client (PComp (CObj 0)) data []
    /\ build w client no_eq no_eq Query 0 false data [] = (s, vs) /\ parse s = Some op
    /\ data = [PField (EObj 0) "f" "f" [("x", Ints, VVariable 0)] None None false [] []]
    /\ asels op = [AField None "f" [("x", AVar x)] [] []] /\ avars op = [(x, t)]
    /\ compatible t Ints = false.
Proof.
  exists v4, client6, [PField (EObj 0) "f" "f" [("x", Ints, VVariable 0)] None None false [] []]. do 5 eexists.
  split; [apply ex_view_ok; vm_compute; reflexivity|]. split.
  { split; repeat constructor. intros []. }
  split; [plan|]. split; [vm_compute; reflexivity|]. split; [vm_compute; reflexivity|].
  split; [reflexivity|]. split; [reflexivity|]. split; reflexivity.
Qed.

(** *** Refuted: the variables of any plan can be sent *)
Theorem C91_injection_refuted :
  exists w client data s vs,
    view_ok w /\ client_ok client /\ planned w client (PComp (CObj 0)) data []
    /\ build w client no_eq no_eq Query 0 false data [] = (s, vs)
    /\ forall J sem, sent J sem vs [] = None.
Proof.
  exists v4, client6, [PField (EObj 0) "f" "f" [("x", Int, VInjection 0)] None None false [] []]. do 2 eexists.
  split; [apply ex_view_ok; vm_compute; reflexivity|]. split.
  { split; repeat constructor. intros []. }
  split; [plan|]. split; [vm_compute; reflexivity|]. reflexivity.
Qed.

(** The entities of the earlier view, with a variable; and the variables sent, where the client's
    is not given. *)
Example C91_example :
  build_entities v1 client1 eq1 no_eq true
    [PField (EObj 1) "f" "f" [("x", Int, VQuery 3); ("y", Int, VSchema 3); ("z", Int, VVariable 1)] None None false [] []; leaf (EItf 1) "n" "n"] []
  = ("query($var3: [_Any!]!,$_var0: Int, $var1: Int, $var0: Int) { _entities(representations: $var3) { __typename ... on O1 { f(x: $_var0, y: $var1, z: $var0) } ... on I1 { n } } }",
     "var3", [QVar "_var0" Int (VQuery 3); QVar "var1" Int (VSchema 3); QVar "var0" Int (VVariable 1)])
  /\ sent nat (fun v => match v with VVariable _ => None | VQuery n | VSchema n => Some n | _ => Some 0 end)
       [QVar "_var0" Int (VQuery 3); QVar "var0" Int (VVariable 1)] [("var2", 9)]
     = Some [("_var0", 3); ("var2", 9)].
Proof. split; vm_compute; reflexivity. Qed.
