(** Subgraphs with links, and what doesn't hold. *)
From Coq Require Import List Bool Ascii String PeanoNat Lia.
From Verif.Links Require Import Model Spec Lemmas Properties.
Import ListNotations.
Local Open Scope string_scope.
Local Open Scope list_scope.

Definition str (s : string) : import := {| i_name := L s; i_as := None |}.
Definition ren (s a : string) : import := {| i_name := L s; i_as := Some (L a) |}.

(** [@link(url: "https://specs.apollo.dev/federation/v2.3", import: [...])] *)
Definition fed (imports : list import) : link :=
  {| l_url := L "https://specs.apollo.dev/federation/v2.3"; l_file := false; l_segments := Some [L "federation"; L "v2.3"]; l_as := None; l_imports := imports |}.
Definition composite (imports : list import) : link :=
  {| l_url := L "https://specs.grafbase.com/composite-schemas/v1"; l_file := false; l_segments := Some [L "composite-schemas"; L "v1"]; l_as := Some (L "composite"); l_imports := imports |}.
Definition other (imports : list import) : link :=
  {| l_url := L "file:///extensions/rest/v1/build"; l_file := true; l_segments := Some [L "extensions"; L "rest"; L "v1"; L "build"]; l_as := None; l_imports := imports |}.

Notation look_up links defs s := (match_directive_name (ingest links) false defs (L s)).

Definition subgraph : list link := [fed [str "@key"; ren "@shareable" "@shared"]; composite [str "@lookup"]; other [str "@restEndpoint"]].

Example ex_names : map (fun s => look_up subgraph [L "mine"] s)
    ["key"; "shared"; "federation__tag"; "lookup"; "composite__require"; "restEndpoint"; "rest__get"; "deprecated"; "mine"; "nothing"]
  = [Known Key; Known Shareable; Known Tag; Known Lookup; Known Require; Imported 2 (L "restEndpoint"); Qualified 2 (L "get"); Known Deprecated; LocallyDefined; NoMatch].
Proof. vm_compute. reflexivity. Qed.

(** Finding out about concrete imports. *)
Ltac no_at := cbn; discriminate.
Lemma one_import : forall l i0, l_imports l = [i0] -> forall k i, imports_of [l] k i -> k = 0 /\ i = i0.
Proof. intros l i0 E k i [l' [N0 I]]. destruct k as [|k]; [|destruct k; discriminate]. injection N0 as <-. rewrite E in I. destruct I as [<-|[]]. auto. Qed.

Lemma str_brings : forall s o n, brings (str s) o n -> L s = at_sign ++ o /\ n = o.
Proof. intros s o n [H [_ [_ H']]]. auto. Qed.

Example ex_unambiguous : unambiguous [fed [str "@key"]] (L "key").
Proof.
  split.
  - intros k i H. destruct (one_import (fed [str "@key"]) (str "@key") eq_refl _ _ H) as [-> ->]. left. exists (L "key"), (L "key"). split; [reflexivity|]. split; [no_at|]. split; [no_at|reflexivity].
  - intros k i o k' i' o' H H' B B'. destruct (one_import (fed [str "@key"]) (str "@key") eq_refl _ _ H) as [-> ->]. destruct (one_import (fed [str "@key"]) (str "@key") eq_refl _ _ H') as [-> ->]. split; [reflexivity|].
    destruct (str_brings _ _ _ B) as [_ <-]. destruct (str_brings _ _ _ B') as [_ <-]. reflexivity.
Qed.

Lemma plain_check : forall n, split_once n = None -> plain n.
Proof.
  intros n E a b ->. revert E. induction a as [|c a IH]; intros E; [discriminate|]. cbn [app] in E. destruct (a ++ sep ++ b) as [|d r] eqn:Q; [destruct a; discriminate|].
  rewrite split_cons in E. destruct (is_char "_" c && is_char "_" d); [discriminate|]. destruct (split_once (d :: r)) as [[x y]|] eqn:Z; [discriminate|]. apply IH. reflexivity.
Qed.

(** The theorems say so of [@key] and [@federation__tag]. *)
Example ex_key : look_up [fed [str "@key"]] [] "key" = Known Key.
Proof.
  apply (C116_imported [fed [str "@key"]] false [] 0 (fed [str "@key"]) (str "@key") (L "key") (L "key")).
  - reflexivity.
  - left. reflexivity.
  - split; [reflexivity|]. split; [no_at|]. split; [no_at|reflexivity].
  - apply plain_check. reflexivity.
  - exact ex_unambiguous.
  - apply (d_federation _ _ _ "key"); [exists (L "https://specs.apollo."), (L ".3"); reflexivity|cbn; tauto|reflexivity].
Qed.

Example ex_prefix : prefix_of (other []) (L "rest") /\ prefix_of (fed []) (L "federation").
Proof. split; apply namespace_spec; vm_compute; reflexivity. Qed.

(** ** What doesn't hold *)

(** A directive of the subgraph itself is taken for the one of federation if its name has [__] before it. *)
Theorem C116_prefix_refuted : exists links defs ns s d, In (L (ns ++ "__" ++ s)%string) defs /\ (forall l, In l links -> ~ prefix_of l (L ns))
  /\ (forall k i o, imports_of links k i -> ~ brings i o (L (ns ++ "__" ++ s)%string)) /\ d = Inaccessible /\ look_up links defs (ns ++ "__" ++ s)%string = Known d.
Proof.
  exists [], [L "acme__inaccessible"], "acme", "inaccessible", Inaccessible. split; [left; reflexivity|]. split; [intros l []|]. split; [|split; [reflexivity|vm_compute; reflexivity]].
  intros k i o [l [E _]]. destruct k; discriminate.
Qed.

(** With composite schemas linked as well, directives of federation that weren't imported are known. *)
Theorem C116_both_refuted : exists links n, (exists l, In l links /\ is_federation l) /\ plain n /\ not_imported links n
  /\ match_directive_name (ingest links) false [] n = Known Authenticated
  /\ match_directive_name (ingest [fed []]) false [] n = NoMatch.
Proof.
  exists [fed []; composite []], (L "authenticated"). split.
  { exists (fed []). split; [left; reflexivity|]. exists (L "https://specs.apollo."), (L ".3"). reflexivity. }
  split; [apply plain_check; reflexivity|]. split; [|split; vm_compute; reflexivity].
  intros k i o [l [E I]]. destruct k as [|[|k]]; [injection E as <-; destruct I|injection E as <-; destruct I|destruct k; discriminate].
Qed.

(** A directive that is imported is still available under the prefix (against the last rule of match_name.rs:21). *)
Theorem C116_last_rule_refuted : exists links n ns, (exists l i, In l links /\ In i (l_imports l) /\ brings i n n /\ prefix_of l ns)
  /\ match_directive_name (ingest links) false [] n = Known Key /\ match_directive_name (ingest links) false [] (ns ++ sep ++ n) = Known Key.
Proof.
  exists [fed [str "@key"]], (L "key"), (L "federation"). split; [|split; vm_compute; reflexivity].
  exists (fed [str "@key"]), (str "@key"). split; [left; reflexivity|]. split; [left; reflexivity|]. split.
  - split; [reflexivity|]. split; [no_at|]. split; [no_at|reflexivity].
  - apply namespace_spec. vm_compute. reflexivity.
Qed.

(** A directive that is imported under a name with [__] isn't known by it. *)
Theorem C116_alias_refuted : exists links l i o n, nth_error links 0 = Some l /\ In i (l_imports l) /\ brings i o n /\ denotes l o (Imported 0 o) (Known Authenticated)
  /\ match_directive_name (ingest links) false [] n = NoMatch.
Proof.
  exists [fed [ren "@authenticated" "@fed__authenticated"]], (fed [ren "@authenticated" "@fed__authenticated"]), (ren "@authenticated" "@fed__authenticated"), (L "authenticated"), (L "fed__authenticated").
  split; [reflexivity|]. split; [left; reflexivity|]. split; [|split; [|vm_compute; reflexivity]].
  - split; [reflexivity|]. split; [no_at|]. split; [no_at|reflexivity].
  - apply (d_federation _ _ _ "authenticated"); [exists (L "https://specs.apollo."), (L ".3"); reflexivity|cbn; tauto|reflexivity].
Qed.

(** A type that is imported hides the directive of the same name. *)
Theorem C116_type_refuted : exists links n, not_imported links n
  /\ match_directive_name (ingest []) false [] n = Known Policy /\ match_directive_name (ingest links) false [] n = Imported 0 n.
Proof.
  exists [other [str "policy"]], (L "policy"). split; [|split; vm_compute; reflexivity].
  intros k i o H B. destruct (one_import (other [str "policy"]) (str "policy") eq_refl _ _ H) as [-> ->]. destruct (str_brings _ _ _ B) as [Q _]. discriminate.
Qed.

(** A directive that the subgraph defines is unknown if its name has [__]. *)
Theorem C116_local_refuted : exists defs n, In n defs /\ match_directive_name (ingest []) false defs n = NoMatch.
Proof. exists [L "acme__audit"], (L "acme__audit"). split; [left; reflexivity|vm_compute; reflexivity]. Qed.

(** With a slash at the end the URL of a linked schema gives no prefix. *)
Theorem C116_slash_refuted : exists segments n, named_by segments n
  /\ forall l m, l_as l = None -> l_segments l = Some (segments ++ [[]]) -> ~ prefix_of l m.
Proof.
  exists [L "federation"; L "v2.3"], (L "federation"). split; [apply core_spec; vm_compute; reflexivity|].
  intros l m A SG H. apply namespace_spec in H. unfold namespace in H. rewrite A, SG in H. destruct (l_file l); vm_compute in H; discriminate.
Qed.
