(** Runs of gateways: examples for C24, C29, C30, and where they fail. *)

From Coq Require Import List Arith NArith Bool Lia.
From Verif.OpCache Require Import Tiered Model Spec Keys Properties.
Import ListNotations.
Local Open Scope nat_scope.

(** A toy world.  Its hash. *)
Definition toy_sha (t : bytes) : bytes := [(fold_left N.add t 0 mod 256)%N; 3%N; 7%N; 9%N].

(** A digest without collisions. *)
Fixpoint encode (l : bytes) : N :=
  match l with
  | [] => 0%N
  | x :: r => (2 ^ x * (2 * encode r + 1))%N
  end.

Definition toy_digest (b : bytes) : bytes := [encode b].

Lemma pow_odd : forall x y a b, (2 ^ x * (2 * a + 1) = 2 ^ y * (2 * b + 1))%N -> (x < y)%N -> False.
Proof.
  intros x y a b E L. replace y with (x + N.succ (y - x - 1))%N in E by lia.
  rewrite N.pow_add_r, <- N.mul_assoc in E. apply N.mul_cancel_l in E; [|apply N.pow_nonzero; lia].
  rewrite N.pow_succ_r' in E. lia.
Qed.

Lemma encode_inj : forall a b, encode a = encode b -> a = b.
Proof.
  induction a as [|x a IH]; intros [|y b] E; cbn [encode] in E; auto.
  - exfalso. pose proof (N.pow_nonzero 2 y ltac:(lia)). nia.
  - exfalso. pose proof (N.pow_nonzero 2 x ltac:(lia)). nia.
  - destruct (N.lt_trichotomy x y) as [L|[->|L]].
    + exfalso. eapply pow_odd; eassumption.
    + apply N.mul_cancel_l in E; [|apply N.pow_nonzero; lia]. f_equal. apply IH. lia.
    + exfalso. symmetry in E. eapply pow_odd; eassumption.
Qed.

(** Every document has an operation "A", which is also the first one; the plan
    shows what was planned. *)
Definition toy_op : Type := bytes * option bytes * bytes.
Definition toy_plan (s : bytes) (n : option bytes) (t : bytes) : option toy_op :=
  match n with
  | None => Some (s, n, t)
  | Some b => if beqb b [65%N] then Some (s, n, t) else None
  end.

(** Client "c" has a document "d", which changes. *)
Definition toy_store (w : nat) (c i : bytes) : option bytes :=
  if beqb c [99%N] && beqb i [100%N] then Some (if w <? 4 then [49%N] else [50%N]) else None.

Definition toy_schema (g : nat) : bytes := [1%N].

Definition toy_run (m : mode) (es : list (sevent toy_op)) :=
  s_run toy_sha toy_op toy_plan toy_digest toy_store (fun _ => MkCfg m None true) toy_schema
    (fun _ => true) (fun _ => true) (fun _ => []) es.

Definition results (s : sys toy_op) : list (option (option bytes)) :=
  map (fun p => match p_state p with Finished (Some c) => Some (Some (c_text c)) | Finished None => Some None | Looking => None end)
    (s_procs s).

Definition no_header (_ : bytes) : option bytes := None.

(** What the theorems assume holds in the toy world. *)
Example C29_assumptions : forall m,
  (forall a, List.length (toy_digest a) = 1) /\
  (forall g g', List.length (toy_schema g) = List.length (toy_schema g')) /\
  (forall s n t o, toy_plan s (Some n) t = Some o -> nul_free n /\ n <> []) /\
  (forall w c i t, toy_store w c i = Some t -> nul_free c /\ nul_free i /\ small c /\ small i) /\
  (forall es, no_collision toy_sha toy_op toy_digest (fun _ => MkCfg m None true) toy_schema es).
Proof.
  intros m. split; [reflexivity|]. split; [reflexivity|]. split; [|split].
  - intros s n t o H. unfold toy_plan in H. destruct (beqb n [65%N]) eqn:B; [|discriminate]. apply beqb_eq in B. subst.
    split; [|discriminate]. intros [X|[]]. discriminate.
  - intros w c i t H. unfold toy_store in H. destruct (beqb c [99%N]) eqn:B1; [|discriminate].
    destruct (beqb i [100%N]) eqn:B2; [|discriminate]. apply beqb_eq in B1, B2. subst.
    split; [intros [X|[]]; discriminate|]. split; [intros [X|[]]; discriminate|]. split; reflexivity.
  - intros es g g' k k' _ _ E. apply encode_inj. unfold toy_digest in E. congruence.
Qed.

Definition ask_doc (name : option bytes) : request := MkReq None name (Some [100%N]) None (Some [99%N]) no_header.

(** Gateway 0 fetches the document and caches it; gateway 1 executes it after the
    store has changed its mind; gateway 1 without the cache has the new one. *)
Example C29_example :
  results (toy_run Enforce
    [SRequest 0 (ask_doc None); STier (TStep 0 true); STier (TStep 0 true); SServe 0 true; SInsert 0; STier (TWrite 0 true);
     SRequest 1 (ask_doc None); STier (TStep 1 true); STier (TStep 1 true); STier (TStep 1 true); SServe 1 true;
     SRequest 2 (ask_doc None); STier (TStep 2 true); STier (TStep 2 false); SServe 2 true;
     SRequest 2 (MkReq (Some [49%N]) None None None (Some [99%N]) no_header);
     STier (TStep 3 true); STier (TStep 3 true); SServe 3 true]) =
  [Some (Some [49%N]); Some (Some [49%N]); Some (Some [50%N]); Some None].
Proof. vm_compute. reflexivity. Qed.

Definition apq (q : option bytes) (name : option bytes) (v : N) (h : bytes) : request :=
  MkReq q name None (Some (MkExt v h)) None no_header.

(** A persisted query is unknown, then provided, then known. *)
Example C30_example :
  let h := toy_sha [81%N] in
  results (toy_run Ignore
    [SRequest 0 (apq None None 1 h); STier (TStep 0 true); STier (TStep 0 true); SServe 0 true;
     SRequest 0 (apq (Some [82%N]) None 1 h); STier (TStep 1 true); STier (TStep 1 true); SServe 1 true;
     SRequest 0 (apq (Some [81%N]) None 1 h); STier (TStep 2 true); STier (TStep 2 true); SServe 2 true; SInsert 0;
     SRequest 0 (apq None None 1 h); STier (TStep 3 true); SServe 3 true]) =
  [Some None; Some None; Some (Some [81%N]); Some (Some [81%N])].
Proof. vm_compute. reflexivity. Qed.

(** An operation name with a NUL: a request with another hash, and another
    version, executes the text. *)
Theorem C30_nul_name_refuted : exists es r e,
  executes toy_sha toy_op toy_plan toy_digest toy_store (fun _ => MkCfg Ignore None true) toy_schema
    (fun _ => true) (fun _ => true) (fun _ => []) es 0 r [81%N] ([1%N], Some [65%N], [81%N]) /\
  persisted (MkCfg Ignore None true) r e /\ e_version e <> 1%N /\ toy_sha [81%N] <> e_hash e.
Proof.
  exists [SRequest 0 (apq (Some [81%N]) (Some [65%N]) 1 (toy_sha [81%N])); STier (TStep 0 true); STier (TStep 0 true);
          SServe 0 true; SInsert 0;
          SRequest 0 (apq None (Some [65; 0; 1]%N) (81 * 65536 + 3 * 16777216) [7; 9]%N); STier (TStep 1 true); SServe 1 true],
    (apq None (Some [65; 0; 1]%N) (81 * 65536 + 3 * 16777216) [7; 9]%N), (MkExt (81 * 65536 + 3 * 16777216) [7; 9]%N).
  split.
  - eexists. eexists. split; [right; left; reflexivity|]. vm_compute. auto 10.
  - split; [|split; vm_compute; discriminate]. split; [discriminate|]. split; [reflexivity|]. split; [reflexivity|]. left. reflexivity.
Qed.

(** Two operations in a text, asked for by name and by none. *)
Example C24_example :
  results (toy_run Ignore
    [SRequest 0 (MkReq (Some [81%N]) (Some [65%N]) None None None no_header); STier (TStep 0 true); STier (TStep 0 true);
     SServe 0 true; SInsert 0;
     SRequest 0 (MkReq (Some [81%N]) (Some [66%N]) None None None no_header); STier (TStep 1 true); STier (TStep 1 true);
     SServe 1 true;
     SRequest 0 (MkReq (Some [81%N]) (Some [65%N]) None None None no_header); STier (TStep 2 true); SServe 2 true]) =
  [Some (Some [81%N]); Some None; Some (Some [81%N])].
Proof. vm_compute. reflexivity. Qed.

(** A request with an empty operation name fails or not depending on the cache. *)
Theorem C24_empty_name_depends_on_cache_refuted : exists es r,
  let r0 := MkReq (Some [81%N]) None None None None no_header in
  r = MkReq (Some [81%N]) (Some []) None None None no_header /\
  (** asked first, it fails *)
  results (toy_run Ignore [SRequest 0 r; STier (TStep 0 true); STier (TStep 0 true); SServe 0 true]) = [Some None] /\
  (** after someone else asked without a name *)
  results (toy_run Ignore (SRequest 0 r0 :: es)) = [Some (Some [81%N]); Some (Some [81%N])].
Proof.
  exists [STier (TStep 0 true); STier (TStep 0 true); SServe 0 true; SInsert 0;
          SRequest 0 (MkReq (Some [81%N]) (Some []) None None None no_header); STier (TStep 1 true); SServe 1 true].
  eexists. split; [reflexivity|]. split; vm_compute; reflexivity.
Qed.
