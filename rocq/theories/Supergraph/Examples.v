(** * C109: examples and fields that end up elsewhere *)

From Coq Require Import NArith Ascii String List Bool Arith Lia.
From Verif.Supergraph Require Import Model Spec Texts Lists Properties.
Import ListNotations.
Local Open Scope string_scope.
Local Open Scope nat_scope.
Local Open Scope list_scope.

Definition text_field (names : list string) (parents : list nat) (composed : string)
    (ds : list (join_field string string)) : option (read_field string string) :=
  supergraph_field String.eqb (fun t => t) Some (String.eqb "") (fun f => f) Some
    names parents composed true ds.

Definition text_compose (names : list string) (composed : string) (l : list (source string string)) :=
  compose String.eqb names composed l.

(** The hypotheses on types and field sets hold of texts. *)
Lemma text_ty a b : String.eqb a b = true <-> a = b.
Proof. apply String.eqb_eq. Qed.

Lemma text_fs f : String.eqb "" f = false -> f <> EmptyString.
Proof. intros E ->. discriminate. Qed.

Definition plain (g : nat) (t : string) : source string string := Source g t false false None None None.

(** A field of a type three subgraphs know.  The first defines it with another type
    than the composed one, the second provides fields and takes over from the
    third. *)
Definition three : list string := ["accounts"; "my-reviews"; "shop"].

Definition three_sources : list (source string string) :=
  [ Source 0 "String!" false false (Some "weight") None None;
    Source 1 "String" false false None (Some "id name") (Some ("shop", None));
    Source 2 "String" false false (Some "old") None None ].

Example C109_ex :
  text_field three [2; 0; 1; 1] "String" (text_compose three "String" three_sources)
  = Some (ReadField ["ACCOUNTS"; "MY_REVIEWS"] [("ACCOUNTS", "String!")]
            [("ACCOUNTS", "weight")] [("MY_REVIEWS", "id name")])
  /\ write (fun t => t) (String.eqb "") (fun f => f) three [2; 0; 1; 1]
       (text_compose three "String" three_sources)
     = [ Written (Some "ACCOUNTS") (Some "weight") None (Some "String!") false None;
         Written (Some "MY_REVIEWS") None (Some "id name") None false (Some "shop") ]
  /\ accepted three three_sources = true.
Proof. vm_compute. auto. Qed.

(** The same field satisfies the hypotheses of [C109_lower]. *)
Lemma enum_one n v w : enum_value n v -> enum_value n w -> v = w.
Proof. intros A B. apply variant_spec in A, B. congruence. Qed.

Lemma values_by_variant names :
  NoDup (map variant names) ->
  forall i j n m v, nth_error names i = Some n -> nth_error names j = Some m ->
    enum_value n v -> enum_value m v -> i = j.
Proof.
  intros U i j n m v A B C D. apply variant_spec in C, D.
  apply (proj1 (NoDup_nth_error (map variant names)) U).
  - rewrite map_length. apply nth_error_Some. congruence.
  - rewrite (map_nth_error variant i names A), (map_nth_error variant j names B). congruence.
Qed.

Lemma three_field : field_of string string three [2; 0; 1; 1] three_sources.
Proof.
  constructor.
  - apply values_by_variant. vm_compute. repeat (constructor; [cbn; intuition discriminate|]). constructor.
  - cbn. intuition (subst; lia).
  - cbn. repeat (constructor; [cbn; intuition discriminate|]). constructor.
  - cbn. intros s [<-|[<-|[<-|[]]]]; cbn; tauto.
Qed.

Example C109_ex_serves :
  exists r, text_field three [2; 0; 1; 1] "String" (text_compose three "String" three_sources) = Some r
  /\ forall v, In v (r_exists r) <->
       exists g n, serves string string three three_sources g /\ nth_error three g = Some n /\ enum_value n v.
Proof.
  apply (C109_lower string String.eqb (fun t => t) Some string (String.eqb "") (fun f => f) Some
           text_ty (fun t => eq_refl) (fun f _ => eq_refl) text_fs).
  - exact three_field.
  - reflexivity.
  - eexists. split; [left; reflexivity|].
    intros [s [n [l [J [O [_ A]]]]]]. cbn in A. injection A as <-.
    cbn in J. destruct J as [<-|[<-|[<-|[]]]]; cbn in O; discriminate.
  - intros s from l J O. cbn in J. destruct J as [<-|[<-|[<-|[]]]]; cbn in O; try discriminate.
    injection O as <- <-. exists "s"%char. split; [left; reflexivity|]. cbn. tauto.
Qed.

(** Directives that say no more than the parent are left out, and read back. *)
Example C109_ex_redundant :
  write (fun t => t) (String.eqb "") (fun f => f) three [2; 0; 0]
    (text_compose three "Int" [plain 0 "Int"; plain 2 "Int"]) = []
  /\ option_map r_exists (text_field three [2; 0; 0] "Int"
       (text_compose three "Int" [plain 0 "Int"; plain 2 "Int"])) = Some ["ACCOUNTS"; "SHOP"]
  /\ option_map r_exists (text_field three [2; 0; 1] "Int"
       (text_compose three "Int" [plain 0 "Int"; plain 2 "Int"])) = Some ["ACCOUNTS"; "SHOP"].
Proof. vm_compute. auto. Qed.

(** A field an entity interface gives to its implementers exists in no subgraph of
    its own. *)
Theorem C109_entity_interface ty ty_eqb render_ty parse_ty fs fs_empty render_fs parse_fs
    names parents (composed : ty) composite :
  supergraph_field (ty := ty) (fs := fs) ty_eqb render_ty parse_ty fs_empty render_fs parse_fs
    names parents composed composite [entity_interface_field]
  = Some (ReadField [] [] [] []).
Proof. unfold supergraph_field, write. cbn. reflexivity. Qed.

(** ** Where it fails *)

Definition takes (g : nat) (from : string) (l : option string) : source string string :=
  Source g "Int" false false None None (Some (from, l)).

(** Two subgraphs taking the field from each other are accepted; no directive is
    left and the field exists in a third subgraph that does not define it. *)
Theorem C109_cycle_refuted :
  exists names sources r,
    accepted names sources = true
    /\ field_of string string names [0; 1; 2] sources
    /\ ~ In 2 (map s_graph sources)
    /\ text_field names [0; 1; 2] "Int" (text_compose names "Int" sources) = Some r
    /\ exists n v, nth_error names 2 = Some n /\ enum_value n v /\ In v (r_exists r).
Proof.
  exists ["a"; "b"; "c"], [takes 0 "b" None; takes 1 "a" None], (ReadField ["A"; "B"; "C"] [] [] []).
  split; [reflexivity|]. split.
  { constructor.
    - apply values_by_variant. vm_compute. repeat (constructor; [cbn; intuition discriminate|]). constructor.
    - cbn. intuition (subst; lia).
    - cbn. repeat (constructor; [cbn; intuition discriminate|]). constructor.
    - cbn. intros s [<-|[<-|[]]]; cbn; tauto. }
  split; [cbn; intuition discriminate|]. split; [reflexivity|].
  exists "c", "C". split; [reflexivity|]. split; [apply variant_spec; reflexivity|cbn; tauto].
Qed.

(** An override of ten percent leaves the field with the other subgraph if that one
    is named [a], and takes it entirely if it is named [A]. *)
Theorem C109_label_refuted :
  exists names names' sources sources',
    names = ["a"; "b"] /\ names' = ["A"; "b"]
    /\ sources = [plain 0 "Int"; takes 1 "a" (Some "percent(10)")]
    /\ sources' = [plain 0 "Int"; takes 1 "A" (Some "percent(10)")]
    /\ accepted names sources = true /\ accepted names' sources' = true
    /\ option_map r_exists (text_field names [0; 1] "Int" (text_compose names "Int" sources))
       = Some ["A"; "B"]
    /\ option_map r_exists (text_field names' [0; 1] "Int" (text_compose names' "Int" sources'))
       = Some ["B"]
    /\ serves string string names' sources' 0.
Proof.
  do 4 eexists. split; [reflexivity|]. split; [reflexivity|]. split; [reflexivity|].
  split; [reflexivity|]. split; [reflexivity|]. split; [reflexivity|]. split; [reflexivity|].
  split; [reflexivity|].
  exists (plain 0 "Int"). split; [|split; [reflexivity|left; reflexivity]].
  split; [left; reflexivity|]. intros [s [n [l [J [O [F A]]]]]].
  cbn in A. injection A as <-. destruct J as [<-|[<-|[]]]; cbn in O; [discriminate|].
  injection O as <-. apply replaces_all_spec in F. vm_compute in F. discriminate.
Qed.

(** An override from a subgraph that does not exist takes the field from one that
    does, if its name is that one's value of [join__Graph]. *)
Theorem C109_missing_refuted :
  exists names sources,
    accepted names sources = true
    /\ ~ In "REVIEWS" names
    /\ sources = [plain 0 "Int"; takes 1 "REVIEWS" None]
    /\ option_map r_exists (text_field names [0; 1] "Int" (text_compose names "Int" sources)) = Some ["B"]
    /\ serves string string names sources 0.
Proof.
  exists ["reviews"; "b"]. eexists. split; [|split; [|split; [reflexivity|]]].
  2: { cbn. intuition discriminate. }
  { reflexivity. }
  split; [reflexivity|].
  exists (plain 0 "Int"). split; [|split; [reflexivity|left; reflexivity]].
  split; [left; reflexivity|]. intros [s [n [l [J [O [F A]]]]]].
  cbn in A. injection A as <-. destruct J as [<-|[<-|[]]]; cbn in O; discriminate.
Qed.

(** Two subgraphs whose names differ by a dash have one value of [join__Graph]: a
    field one of them defines exists in both. *)
Theorem C109_same_value_refuted :
  exists names sources,
    NoDup names /\ accepted names sources = true
    /\ sources = [plain 0 "Int"]
    /\ option_map r_exists (text_field names [0; 1] "Int" (text_compose names "Int" sources))
       = Some ["FOO_BAR"]
    /\ exists n, nth_error names 1 = Some n /\ enum_value n "FOO_BAR"
                 /\ ~ serves string string names sources 1.
Proof.
  exists ["foo-bar"; "foo_bar"]. eexists.
  split; [repeat (constructor; [cbn; intuition discriminate|]); constructor|].
  split; [|split; [reflexivity|]]; [reflexivity|].
  split; [reflexivity|].
  exists "foo_bar". split; [reflexivity|]. split; [apply variant_spec; reflexivity|].
  intros [s [[[<-|[]] _] [G _]]]. cbn in G. discriminate.
Qed.
