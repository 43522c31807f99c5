(** Addresses, among them those of the tests of trusted_documents_client.rs, and names that lead elsewhere. *)
From Coq Require Import List Bool Ascii String NArith.
From Verif.Addresses Require Import Model Spec Properties.
Import ListNotations.

Definition show (l : list text) : list string := map string_of_list_ascii l.

Example ex_basic :
  show (trusted_document_url (T "000001AJ4G0000000000V6HYX8") (T "my-demo-client") (T "b1249cf1281")) =
  ["trusted-documents"; "branch"; "000001AJ4G0000000000V6HYX8"; "my-demo-client"; "b1249cf1281"]%string.
Proof. vm_compute. reflexivity. Qed.
Example ex_space :
  show (trusted_document_url (T "000001AJ4G0000000000V6HYX8") (T "Grafbase Dashboard") (T "b1249cf1281ffffffff")) =
  ["trusted-documents"; "branch"; "000001AJ4G0000000000V6HYX8"; "Grafbase%20Dashboard"; "b1249cf1281ffffffff"]%string.
Proof. vm_compute. reflexivity. Qed.
Example ex_plain : Plain (T "Grafbase Dashboard") /\ Plain (T "a?b#c") /\ Plain (T "...") /\ Forall HexDigit (T "b1249cf1281").
Proof.
  do 3 (split; [apply plain_intro; [vm_compute; reflexivity|discriminate|discriminate]|]).
  repeat (apply Forall_nil || apply Forall_cons); unfold HexDigit; cbn; tauto.
Qed.
Example ex_path :
  show (set_path (T "a/./b/../c//d\e/..")) = ["a"; "c"; ""; "d"; ""]%string /\
  show (set_path (T "/../a/%2E%2e/b/.")) = ["b"; ""]%string /\ show (set_path (T "")) = [""]%string.
Proof. vm_compute. auto. Qed.
Example ex_graph :
  show (graph_url (LatestVersion (T "shop") (T "feature/new cart"))) = ["graphs"; "shop"; "branch"; "feature%2Fnew+cart"]%string.
Proof. vm_compute. reflexivity. Qed.

(** A document of another branch and another client, and one of another client with escaped dots. *)
Theorem C119_branch_refuted : exists b c d b' c' d',
  Document b' c' d' (trusted_document_url b c d) /\ b' <> b /\ c' <> c /\ Plain b /\ Plain c.
Proof.
  exists (T "01GATEWAY"), (T "web"), (T "../../01OTHER/ios/deleteAll"), (T "01OTHER"), (T "ios"), (T "deleteAll").
  split; [vm_compute; reflexivity|]. split; [discriminate|]. split; [discriminate|].
  split; (apply plain_intro; [vm_compute; reflexivity|discriminate|discriminate]).
Qed.
Theorem C119_escaped_refuted : exists b c d c' d',
  Document b c' d' (trusted_document_url b c d) /\ c' <> c /\ Plain c /\ ~ In (T ".."%string) (split d).
Proof.
  exists (T "01GATEWAY"), (T "web"), (T "%2e%2E/ios/deleteAll"), (T "ios"), (T "deleteAll").
  split; [vm_compute; reflexivity|]. split; [discriminate|].
  split; [apply plain_intro; [vm_compute; reflexivity|discriminate|discriminate]|].
  vm_compute. intros K. repeat (destruct K as [K|K]; [discriminate|]). contradiction.
Qed.

(** The name of a client, a header of the request, can do so as well. *)
Theorem C119_client_refuted : exists b c d b' c',
  Document b' c' d (trusted_document_url b c d) /\ b' <> b /\ Plain d /\ Plain b.
Proof.
  exists (T "01GATEWAY"), (T "../01OTHER/ios"), (T "abc"), (T "01OTHER"), (T "ios").
  split; [vm_compute; reflexivity|]. split; [discriminate|].
  split; (apply plain_intro; [vm_compute; reflexivity|discriminate|discriminate]).
Qed.

(** Two identifiers of one address. *)
Theorem C119_distinct_refuted : exists b c d d', d <> d' /\ trusted_document_url b c d = trusted_document_url b c d'.
Proof. exists (T "b"), (T "c"), (T "a b"), (T "a%20b"). split; [discriminate|]. vm_compute. reflexivity. Qed.

(** A branch of two dots is no branch of a graph. *)
Theorem C119_graph_refuted : exists slug branch,
  Plain slug /\ show (graph_url (LatestVersion slug branch)) = ["graphs"; "shop"; ""]%string.
Proof.
  exists (T "shop"), (T ".."). split; [apply plain_intro; [vm_compute; reflexivity|discriminate|discriminate]|].
  vm_compute. reflexivity.
Qed.
