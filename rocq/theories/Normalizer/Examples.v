(** Examples for the theorems of Documents.v, and documents for which the normal
    form isn't what it is meant to be (C45). *)

From Coq Require Import String List Bool ZArith.
From Verif Require Import Normalizer.Model Normalizer.Spec Normalizer.Normal Normalizer.Documents.
Import ListNotations.
Local Open Scope string_scope.
Local Open Scope list_scope.

Definition leaf (n : string) : selection := Field None n [] [] [].
Definition frag (n : string) (s : list selection) : definition := DFrag (Fragment n "User" [] s).
Definition query (s : list selection) : definition := DOp (Operation Query (Some "Q") [] [] s).

(** query Q { me: user(id: 1, kind: ADMIN) { ...A name } } and its two fragments,
    and an unrelated operation. *)
Definition doc1 : document :=
  [query [Field (Some "me") "user" [("id", VInt 1); ("kind", VEnum "ADMIN")] [] [Spread "A" []; leaf "name"]];
   frag "A" [Field None "avatar" [("size", VObj [("w", VInt 4)])] [] []; Spread "B" []];
   frag "B" [leaf "email"]; frag "Unused" [leaf "password"];
   DOp (Operation Mutation (Some "M") [] [] [leaf "logout"])].

Definition doc2 : document :=
  [frag "A" [Spread "B" []; Field (Some "pic") "avatar" [("size", VObj [])] [] []];
   frag "B" [leaf "email"];
   query [Field None "user" [("kind", VEnum "ADMIN"); ("id", VInt 234)] [] [leaf "name"; Spread "A" []]]].

Definition doc3 : document :=
  [query [Field None "user" [("id", VStr "234"); ("kind", VEnum "ADMIN")] [] [Spread "A" []; leaf "name"]];
   frag "A" [Field None "avatar" [("size", VObj [])] [] []; Spread "B" []]; frag "B" [leaf "email"]].

Example C45_example :
  normalize (Some "Q") doc1 =
    Some [frag "A" [Field None "avatar" [("size", VObj [])] [] []; Spread "B" []]; frag "B" [leaf "email"];
          query [Field None "user" [("id", VInt 0); ("kind", VEnum "ADMIN")] [] [leaf "name"; Spread "A" []]]] /\
  normalize (Some "Q") doc2 = normalize (Some "Q") doc1 /\
  normalize (Some "Q") doc3 <> normalize (Some "Q") doc1 /\
  normalize (Some "X") doc1 = None.
Proof. split; [reflexivity|]. split; [reflexivity|]. split; [vm_compute; discriminate|reflexivity]. Qed.

Example C45_example_hypotheses : unique_frags doc1 /\ callers_first (Some "Q") doc1.
Proof.
  split.
  - unfold unique_frags. cbn. repeat constructor; cbn; intuition discriminate.
  - intros f g Hf Hg _ Hs. cbn in Hf, Hg.
    repeat (destruct Hf as [Hf|Hf]; [try discriminate; injection Hf as <-|]); try contradiction; cbn in Hs;
      try contradiction; try (destruct Hs as [Hs|[]]; discriminate).
    destruct Hs as [Hs|[]].
    repeat (destruct Hg as [Hg|Hg]; [try discriminate; injection Hg as <-; cbn in Hs; try discriminate|]); try contradiction.
    exists (firstn 1 doc1), [], (skipn 3 doc1). reflexivity.
Qed.

(** So doc1 and doc2 ask the same query, and doc3 another one. *)
Example C45_example_same : same_query (Some "Q") doc1 doc2 /\ ~ same_query (Some "Q") doc1 doc3.
Proof.
  assert (U : forall d, d = doc2 \/ d = doc3 -> unique_frags d /\ callers_first (Some "Q") d).
  { intros d [->| ->]; (split; [unfold unique_frags; cbn; repeat constructor; cbn; intuition discriminate|]);
      intros f g Hf Hg _ Hs; cbn in Hf, Hg;
      repeat (destruct Hf as [Hf|Hf]; [try discriminate; injection Hf as <-|]); try contradiction; cbn in Hs;
        try contradiction; try (destruct Hs as [Hs|[]]; discriminate); destruct Hs as [Hs|[]];
      repeat (destruct Hg as [Hg|Hg]; [try discriminate; injection Hg as <-; cbn in Hs; try discriminate|]); try contradiction.
    - now (exists [], [], (skipn 2 doc2)).
    - now (exists (firstn 1 doc3), [], []). }
  destruct C45_example_hypotheses as [U1 C1], (U doc2) as [U2 C2], (U doc3) as [U3 C3]; auto.
  split.
  - apply C45_same_form_partial; auto.
  - intros H. apply C45_same_form_partial in H; auto. vm_compute in H. discriminate.
Qed.

(** *** Where it fails *)

(** A fragment that comes before the one that spreads it keeps its aliases and
    literals: the same query has two normal forms, depending on the order of the
    definitions. *)
Definition secret : definition := frag "B" [Field (Some "a") "find" [("ssn", VStr "078-05-1120")] [] []].

Theorem C45_order_refuted : exists d1 d2 r,
  unique_frags d1 /\ unique_frags d2 /\ same_query None d1 d2 /\ normalize None d1 <> normalize None d2 /\
  normalize None d1 = Some r /\ In secret r.
Proof.
  exists [secret; frag "A" [Spread "B" []]; query [Spread "A" []]],
         [frag "A" [Spread "B" []]; secret; query [Spread "A" []]].
  eexists. split; [|split; [|split; [|split; [|split; [reflexivity|]]]]].
  - unfold unique_frags. cbn. repeat constructor; cbn; intuition discriminate.
  - unfold unique_frags. cbn. repeat constructor; cbn; intuition discriminate.
  - split.
    + cbn [filter asked frag secret query]. constructor; [|constructor].
      eapply same_op_nf with (name := None); reflexivity.
    + intros n _. destruct (string_dec n "A") as [->|NA]; [left|destruct (string_dec n "B") as [->|NB]; [left|right]].
      * eexists _, _. split; [cbn; right; left; reflexivity|]. split; [cbn; left; reflexivity|].
        split; [reflexivity|]. apply same_frag_nf. reflexivity.
      * eexists _, _. split; [cbn; left; reflexivity|]. split; [cbn; right; left; reflexivity|].
        split; [reflexivity|]. apply same_frag_nf. reflexivity.
      * cbn. intuition congruence.
  - vm_compute. discriminate.
  - vm_compute. right; left. reflexivity.
Qed.

(** The normal form may spread a fragment that it has dropped. *)
Theorem C45_dangling_refuted : exists ds r f n,
  unique_frags ds /\ normalize None ds = Some r /\ In n (frag_names ds) /\
  In (DFrag f) r /\ In n (def_spreads (DFrag f)) /\ ~ In n (frag_names r).
Proof.
  exists [query [Spread "B" []]; frag "A" [Spread "C" []]; frag "B" [Spread "A" []]; frag "C" [leaf "id"]].
  eexists _, (Fragment "A" "User" [] [Spread "C" []]), "C".
  split; [unfold unique_frags; cbn; repeat constructor; cbn; intuition discriminate|].
  split; [reflexivity|]. split; [cbn; tauto|]. split; [vm_compute; left; reflexivity|].
  split; [left; reflexivity|]. vm_compute. intuition discriminate.
Qed.

(** Normalising a normal form may change it. *)
Theorem C45_idempotent_refuted : exists ds r,
  unique_frags ds /\ callers_first None ds /\ normalize None ds = Some r /\ normalize None r <> Some r.
Proof.
  exists [query [Spread "C" []]; frag "C" [Spread "B" []]; frag "B" [Spread "A" []]; frag "A" [leaf "id"]].
  eexists. split; [unfold unique_frags; cbn; repeat constructor; cbn; intuition discriminate|].
  split; [|split; [reflexivity|vm_compute; discriminate]].
  intros f g Hf Hg _ Hs. cbn in Hf, Hg.
  repeat (destruct Hf as [Hf|Hf]; [try discriminate; injection Hf as <-|]); try contradiction; cbn in Hs;
    try contradiction; destruct Hs as [Hs|[]];
  repeat (destruct Hg as [Hg|Hg]; [try discriminate; injection Hg as <-; cbn in Hs; try discriminate|]); try contradiction.
  - now (exists [query [Spread "C" []]], [], [frag "A" [leaf "id"]]).
  - now (exists [query [Spread "C" []]; frag "C" [Spread "B" []]], [], []).
Qed.

(** Two fields of the same name keep their order, so that the order of
    selections does show in the normal form. *)
Theorem C45_same_field_refuted : exists s t,
  normalize None [query [s; t]] <> normalize None [query [t; s]] /\ spreads s = [] /\ spreads t = [].
Proof.
  exists (Field (Some "a") "user" [("id", VInt 1)] [] [leaf "x"]), (Field (Some "b") "user" [("id", VInt 2)] [] [leaf "y"]).
  split; [vm_compute; discriminate|]. split; reflexivity.
Qed.
