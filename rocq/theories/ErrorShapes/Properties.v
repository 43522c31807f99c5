(** C15: a shape is marked as failing exactly when it contains a denied field. *)
From Coq Require Import List Arith Bool Lia.
From Verif.ErrorShapes Require Import Model Spec Proofs.
Import ListNotations.

(** C15, partial: missing are denied fields that are merged under a response key after another field
    (refuted below).  For any tree of shapes and any denied fields nothing panics and the [k]-th object is
    marked if and only if one of the fields it uses is denied. *)
Theorem C15_marked_iff_denied_partial : forall nf partitions errors,
  Forall (all_fields (fun f => f < nf)) partitions ->
  exists marks, has_error nf partitions errors = Some marks /\
  length marks = length (flat_map objects partitions) /\
  forall k gs, nth_error (flat_map objects partitions) k = Some gs ->
    nth_error marks k = Some true <-> exists f e, In (f, e) errors /\ used gs f.
Proof.
  intros nf ps errors F. destruct (has_error_spec nf ps errors F) as (marks & E & H). exists marks. split; [exact E|].
  split; [clear E; induction H; [reflexivity|cbn [length]; congruence]|]. clear E F.
  induction H as [|gs m objs marks Hm H IH]; intros k gs' Hk; [destruct k; discriminate Hk|].
  destruct k as [|k]; [|apply IH; exact Hk]. cbn [nth_error] in Hk. injection Hk as <-. cbn [nth_error].
  transitivity (m = true); [split; [congruence|intros ->; reflexivity]|]. rewrite Hm.
  split; intros (f & e & I & U); exists f, e; (split; [exact I|]).
  - unfold firsts in U. apply in_map_iff in U. destruct U as ([[g rest] s] & Eg & Ig). cbn [fst] in Eg. subst g. exists rest, s. exact Ig.
  - destruct U as (rest & s & U). unfold firsts. apply in_map_iff. exists (Data f, rest, s). split; [reflexivity|exact U].
Qed.

(** A field denied in a group where another field comes first is not noticed. *)
Theorem C15_merged_denied_field_refuted : exists nf partitions errors gs f e,
  Forall (all_fields (fun f => f < nf)) partitions /\ flat_map objects partitions = [gs] /\
  In (f, e) errors /\ merged gs f /\ has_error nf partitions errors = Some [false].
Proof.
  exists 2, [Objects [[(Data 0, [1], Leaf)]]], [(1, 7)], [(Data 0, [1], Leaf)], 1, 7.
  split; [|split; [reflexivity|split; [left; reflexivity|split; [|vm_compute; reflexivity]]]].
  - constructor; [|constructor]. constructor. intros gs g [<-|[]] [<-|[]]. cbn [fst snd]. split; [constructor|]. split.
    + intros f E. injection E as <-. lia.
    + intros f [<-|[]]. lia.
  - exists (Data 0), [1], Leaf. split; [left; reflexivity|right; left; reflexivity].
Qed.

(** Two partitions.  The first: an object with fields 0 and 1, where 0 is a list of two object types (2, 3)
    and (4), and 1 a derived entity with field 5.  The second: a lookup field with one object (6, 3).
    Denied: 3 and 5.  Objects in order: (2, 3), (4), (0, 1), (6, 3), lookup. *)
Definition tree : list shape :=
  [Objects [[(Data 0, [], Objects [[(Data 2, [], Leaf); (Data 3, [7], Leaf)]; [(Data 4, [], Leaf)]]); (Data 1, [], Derived [(5, [])])]];
   Objects [[(Lookup 0, [], Objects [[(Data 6, [], Leaf); (Data 3, [], Leaf)]])]]].
Example C15_example :
  has_error 8 tree [(3, 0); (5, 1); (3, 2)] = Some [true; false; false; true; false] /\
  shape_ids 8 (build_all tree) = Some [[4]; [5]; [0]; [1; 6]; [2]; [3]; [7]; []] /\
  has_error 8 tree [(1, 0)] = Some [false; false; true; false; false] /\
  has_error 8 tree [] = Some [false; false; false; false; false].
Proof. vm_compute. repeat split. Qed.
