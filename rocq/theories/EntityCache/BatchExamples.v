(** Examples and counterexamples for C23. *)

From Coq Require Import List NArith Bool Lia Arith.
From Verif.OpCache Require Import Tiered.
From Verif.EntityCache Require Import Batch BatchProofs.
Import ListNotations.

(** Elements are what is read from them. *)
Definition elem := outcome nat.
Definition rd : elem -> outcome nat := fun e => e.

Definition run := execute elem nat rd.
Definition all : id -> bool := fun _ => true.
Definition list_of (es : list elem) : body elem := BObject [MData (DObject [DEntities (EList es true)] true)] true.
Definition always (b : body elem) : list id -> response elem := fun _ => Http b.

(** Object 20 has no key, 30 is in the cache. *)
Definition cached (i : id) : option elem := if i =? 30 then Some (Fields 3) else None.

Example C23_example :
  run [10; 20; 30; 40] (fun i => negb (i =? 20)) None (always (list_of [Fields 1; Null; Fields 4])) =
    ([(20, UEmpty); (10, UFields 1); (30, UEmpty); (40, UFields 4)], []) /\
  run [10; 20; 30; 40] (fun i => negb (i =? 20)) (Some cached) (always (list_of [Fields 1; Fields 4])) =
    ([(20, UEmpty); (30, UFields 3); (10, UFields 1); (40, UFields 4)], [(10, Fields 1); (40, Fields 4)]) /\
  (* too few, too many *)
  run [10; 20; 30] all None (always (list_of [Fields 1])) = ([(10, UFields 1); (20, UError); (30, UEmpty)], []) /\
  run [10] all None (always (list_of [Fields 1; Fields 2; Fields 3])) = ([(10, UFields 1)], []) /\
  (* no data *)
  run [10; 20] all None (always (BObject [MErrors (Some 1); MData DNull] true)) = ([(10, UError); (20, UEmpty)], []) /\
  convert [10; 30; 40] [SName entities_name; SIndex (Some 1); SName [112%N]] = Some (30, [OName [112%N]]).
Proof. repeat split; vm_compute; reflexivity. Qed.

Example C23_example_valid : valid elem nat rd (list_of [Fields 1; Null; Fields 4]).
Proof. cbn. repeat split; repeat constructor. Qed.

(** "Exactly one" fails: the element that cannot be read updates its object twice. *)
Theorem C23_once_refuted : exists parents complete sg,
  map fst (fst (run parents complete None sg)) = [10; 10; 20] /\ parents = [10; 20].
Proof.
  exists [10; 20], all, (always (BObject [MData (DObject [DEntities (EList [Fails false; Fields 2] true)] true)] true)).
  split; vm_compute; reflexivity.
Qed.

(** Unreadable errors after the data: all the data is followed by an error ... *)
Theorem C23_errors_after_data_refuted : exists parents complete sg,
  fst (run parents complete None sg) =
    [(10, UFields 1); (20, UFields 2); (10, UError); (20, UEmpty)] /\ parents = [10; 20].
Proof.
  exists [10; 20], all, (always (BObject [MData (DObject [DEntities (EList [Fields 1; Fields 2] true)] true); MErrors None] true)).
  split; vm_compute; reflexivity.
Qed.

(** ... whereas with the cache enabled the same response is taken without any error. *)
Theorem C23_errors_lost_refuted : exists parents complete c sg,
  fst (run parents complete (Some c) sg) = [(10, UFields 1); (20, UFields 2)] /\
  exists b, sg parents = Http b /\ ~ valid elem nat rd b.
Proof.
  exists [10; 20], all, (fun _ => None), (always (BObject [MData (DObject [DEntities (EList [Fields 1; Fields 2] true)] true); MErrors None] true)).
  split; [vm_compute; reflexivity|]. eexists. split; [reflexivity|]. intros (_ & _ & _ & V).
  apply Forall_cons_iff in V. destruct V as [_ V]. apply Forall_cons_iff in V. destruct V as [V _]. congruence.
Qed.

(** An object whose required fields are missing, and that was not asked for, is given
    the error of a failed request too. *)
Theorem C23_not_asked_refuted : exists parents complete sg,
  fst (run parents complete None sg) = [(10, UEmpty); (10, UError); (20, UEmpty)] /\ parents = [10; 20] /\ complete 10 = false.
Proof.
  exists [10; 20], (fun i => i =? 20), (fun _ => HttpError). split; [|split]; vm_compute; reflexivity.
Qed.

(** When the request for the others fails, what is in the cache is not used. *)
Theorem C23_hits_dropped_refuted : exists parents complete c sg,
  c 10 = Some (Fields 1) /\ fst (run parents complete (Some c) sg) = [(10, UError); (20, UEmpty)] /\ parents = [10; 20].
Proof.
  exists [10; 20], all, (fun i => if i =? 10 then Some (Fields 1) else None), (fun _ => HttpError).
  split; [|split]; vm_compute; reflexivity.
Qed.

(** The hypothesis of C23_updated_partial is needed: if the last cache entry cannot be
    read, and the response neither, the objects asked for are never updated. *)
Theorem C23_forgotten_refuted : exists parents complete c sg,
  fst (run parents complete (Some c) sg) = [(10, UError)] /\ In 20 parents.
Proof.
  exists [10; 20], all, (fun i => if i =? 10 then Some (Fails false) else None), (always BOther).
  split; [vm_compute; reflexivity|]. right. left. reflexivity.
Qed.
