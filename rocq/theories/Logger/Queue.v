(** The queue in front of a rotating log file (C33).

    Modelled code: crates/wasi-component-loader/src/resources/file_logger.rs 42-122 and
    extension/api/since_0_19_0/wit/logger.rs 14-60.

    An extension's log lines are queued; a task writes each followed by a newline.
    One path is modelled: the first [init] creates the logger, kept in the shared map
    (file_loggers); each [init] pushes a clone into a resource table. Simplification:
    the operating system takes the whole buffer or fails (write_all doesn't have to
    repeat writes). [Exit] is the end of the process. *)

From Coq Require Import List ZArith NArith Bool Lia Sorted.
From Verif.Logger Require Import Model Properties.
Import ListNotations.
Local Open Scope Z_scope.

Definition newline : N := 10%N.

Record proc := mkproc { queue : list bytes; clones : nat (* Arc::strong_count *) }.

(** The disk, and the process if one runs that has created the logger. *)
Record world := mkworld { disk : state; process : option proc }.

Inductive event :=
| Init (k : kind) (now : Z)                     (* logger.rs 15-43 *)
| Send (line : bytes)                           (* logger.rs 45-52, file_logger.rs 87-92 *)
| Take (w1 w2 : Z * Z) (ok1 ok2 : bool)         (* the task handles one message, file_logger.rs 48-63 *)
| Drop                                          (* logger.rs 54-59: a resource is dropped *)
| Exit.

Inductive reply := Done | Refused | Waits.

(** file_logger.rs 109-122: only the last reference waits for the queue. *)
Definition graceful_shutdown (p : proc) : reply := if Nat.ltb 1 (clones p) then Done else Waits.

Definition io_of (ok : bool) (buf : bytes) : io := if ok then fine buf else mkio true true None.

(** file_logger.rs 50-54: write_all of no bytes doesn't write; the newline only follows a success. *)
Definition write_line (s : state) (line : bytes) (w1 w2 : Z * Z) (ok1 ok2 : bool) : list op :=
  match line with
  | [] => [Write (fst w2) (snd w2) [newline] (io_of ok2 [newline])]
  | _ =>
      let o := Write (fst w1) (snd w1) line (io_of ok1 line) in
      match snd (step s o) with
      | Some _ => [o; Write (fst w2) (snd w2) [newline] (io_of ok2 [newline])]
      | None => [o]
      end
  end.

(** The operations on the log file that an event leads to. *)
Definition ops_of (w : world) (e : event) : list op :=
  match e, process w with
  | Init k now, None => [Open k now true]
  | Take w1 w2 ok1 ok2, Some p => match queue p with line :: _ => write_line (disk w) line w1 w2 ok1 ok2 | [] => [] end
  | _, _ => []
  end.

Definition react (w : world) (e : event) : world * reply :=
  let d := fst (run (disk w) (ops_of w e)) in
  match e, process w with
  | Init _ _, None => (mkworld d (Some (mkproc [] 2)), Done)      (* one in the map, one in the table *)
  | Init _ _, Some p => (mkworld d (Some (mkproc (queue p) (S (clones p)))), Done)
  | Send line, Some p => (mkworld d (Some (mkproc (queue p ++ [line]) (clones p))), Done)
  | Take _ _ _ _, Some p => (mkworld d (Some (mkproc (tl (queue p)) (clones p))), Done)
  | Drop, Some p => (mkworld d (Some p), graceful_shutdown p)     (* the entry stays in the table *)
  | Exit, _ => (mkworld d None, Done)
  | _, None => (mkworld d None, Refused)
  end.

Fixpoint react_all (w : world) (es : list event) : world :=
  match es with [] => w | e :: r => react_all (fst (react w e)) r end.

Definition start : world := mkworld empty_dir None.

(** ** Specification *)

(** Lines whose [log] call succeeded. *)
Definition accepted (w : world) (e : event) : list bytes :=
  match e, snd (react w e) with Send line, Done => [line] | _, _ => [] end.
Fixpoint all_accepted (w : world) (es : list event) : list bytes :=
  match es with [] => [] | e :: r => accepted w e ++ all_accepted (fst (react w e)) r end.

Fixpoint all_ops (w : world) (es : list event) : list op :=
  match es with [] => [] | e :: r => ops_of w e ++ all_ops (fst (react w e)) r end.

Definition lines (l : list bytes) : bytes := concat (map (fun x => x ++ [newline]) l).

Definition pending (w : world) : list bytes := match process w with Some p => queue p | None => [] end.

(** ** What is written is what was logged *)

Lemma run_app : forall a b s, run s (a ++ b) =
  (fst (run (fst (run s a)) b), snd (run s a) ++ snd (run (fst (run s a)) b)).
Proof.
  induction a as [|o a IH]; intros b s; cbn [app run].
  - cbn. destruct (run s b); reflexivity.
  - destruct (step s o) as [s1 out]. rewrite IH. destruct (run s1 a) as [s2 rest]. cbn [fst snd].
    rewrite app_assoc. reflexivity.
Qed.

Lemma disk_run : forall es w, disk (react_all w es) = fst (run (disk w) (all_ops w es)).
Proof.
  induction es as [|e es IH]; intros w; [reflexivity|]. cbn [react_all all_ops]. rewrite IH, run_app. cbn [fst].
  f_equal. f_equal. unfold react. destruct e, (process w); reflexivity.
Qed.

(** A write that the system takes whole is acknowledged whole. *)
Lemma write_whole : forall s now st buf b, snd (step s (Write now st buf (fine buf))) = Some b -> b = buf.
Proof.
  intros s now st buf b. cbn [step]. destruct (log s) as [l|]; [|discriminate].
  assert (W : forall s l, snd (write_file s l buf (fine buf)) = Some b -> b = buf).
  { intros s' l' E. unfold write_file, fine in E. cbn in E. rewrite firstn_all in E. congruence. }
  destruct (needs_rotation l now); [|apply W].
  destruct (flush_and_rotate s l st (fine buf)) as [s' ok]. destruct ok; [|discriminate].
  destruct (log s'); [apply W|discriminate].
Qed.

(** No system call fails, nor does the process end while lines wait. *)
Definition succeeds (w : world) (e : event) : Prop :=
  match e with
  | Take w1 w2 ok1 ok2 => Forall (fun a => match snd (step (fst a) (snd a)) with Some _ => True | None => False end)
       (match ops_of w e with [] => [] | o :: r => (disk w, o) :: match r with [] => [] | o' :: _ => [(fst (step (disk w) o), o')] end end)
  | Exit => pending w = []
  | _ => True
  end.
Fixpoint all_succeed (w : world) (es : list event) : Prop :=
  match es with [] => True | e :: r => succeeds w e /\ all_succeed (fst (react w e)) r end.

Lemma io_fine : forall ok s now st buf b, snd (step s (Write now st buf (io_of ok buf))) = Some b -> b = buf.
Proof.
  intros ok s now st buf b H. destruct ok; [eapply write_whole; exact H|]. exfalso.
  cbn [step io_of] in H. destruct (log s) as [l|]; [|discriminate]. destruct (needs_rotation l now); [|discriminate].
  destruct (flush_and_rotate s l st _) as [s' ok']. destruct ok'; [|discriminate].
  destruct (log s'); discriminate.
Qed.

Lemma react_lines : forall w e, succeeds w e ->
  snd (run (disk w) (ops_of w e)) ++ lines (pending (fst (react w e))) = lines (pending w) ++ lines (accepted w e).
Proof.
  intros w e H. unfold accepted, react, ops_of, pending, lines.
  destruct e as [k now|line|w1 w2 ok1 ok2| |]; destruct (process w) as [p|] eqn:P; cbn [fst snd process queue run app];
    rewrite ?app_nil_r; try reflexivity.
  - cbn. rewrite map_app, concat_app. cbn. rewrite app_nil_r. reflexivity.
  - cbn [succeeds] in H. unfold ops_of in H. rewrite P in H. destruct (queue p) as [|line q]; [reflexivity|]. cbn [tl map concat].
    unfold write_line in *. destruct line as [|x line].
    + apply Forall_inv in H. cbn [fst snd] in H. cbn [run].
      destruct (step (disk w) (Write (fst w2) (snd w2) [newline] (io_of ok2 [newline]))) as [s1 out] eqn:E.
      cbn [snd] in *. destruct out as [b|]; [|contradiction].
      assert (b = [newline]) as -> by (eapply (io_fine ok2); rewrite E; reflexivity). reflexivity.
    + set (o := Write (fst w1) (snd w1) (x :: line) (io_of ok1 (x :: line))) in *.
      destruct (snd (step (disk w) o)) as [b|] eqn:E.
      2: { exfalso. apply Forall_inv in H. cbn [fst snd] in H. rewrite E in H. exact H. }
      assert (b = x :: line) as -> by (eapply (io_fine ok1); exact E).
      apply Forall_inv_tail, Forall_inv in H. cbn [fst snd] in H. cbn [run].
      destruct (step (disk w) o) as [s1 out1]. cbn [fst snd] in *. subst out1.
      destruct (step s1 (Write (fst w2) (snd w2) [newline] (io_of ok2 [newline]))) as [s2 out2] eqn:E2.
      cbn [snd] in *. destruct out2 as [b|]; [|contradiction].
      assert (b = [newline]) as -> by (eapply (io_fine ok2); rewrite E2; reflexivity).
      cbn. rewrite <- app_assoc. reflexivity.
  - cbn in H. unfold pending in H. rewrite P in H. rewrite H. reflexivity.
Qed.

Lemma all_lines : forall es w, all_succeed w es ->
  snd (run (disk w) (all_ops w es)) ++ lines (pending (react_all w es)) = lines (pending w) ++ lines (all_accepted w es).
Proof.
  induction es as [|e es IH]; intros w H; cbn [all_ops react_all all_accepted all_succeed] in *.
  - cbn. rewrite app_nil_r. reflexivity.
  - destruct H as [H1 H2]. specialize (IH _ H2). rewrite run_app. cbn [snd].
    replace (fst (run (disk w) (ops_of w e))) with (disk (fst (react w e))).
    2: { unfold react. destruct e, (process w); reflexivity. }
    rewrite <- app_assoc, IH, app_assoc, (react_lines w e H1).
    unfold lines. rewrite map_app, concat_app, app_assoc. reflexivity.
Qed.

(** As long as system calls succeed, processes only end when nothing waits, and
    files start in different milliseconds: the rotated files, the current file and
    the lines waiting are the lines that extensions were told are logged, in order. *)
Theorem C33_lines_partial : forall es, all_succeed start es -> StronglySorted Z.lt (starts empty_dir (all_ops start es)) ->
  let w := react_all start es in
  concat (map snd (listing (disk w))) ++ current_text (disk w) ++ lines (pending w) = lines (all_accepted start es).
Proof.
  intros es H T w. assert (A := all_lines es start H). cbn in A. unfold w. rewrite disk_run. cbn [disk start].
  destruct (run empty_dir (all_ops start es)) as [s out] eqn:R. cbn [fst snd] in *.
  destruct (C33_nothing_lost_partial _ _ _ R T) as [_ N]. rewrite app_assoc, N. exact A.
Qed.

(** ** Refutations *)

(** The map keeps a clone, so dropping a resource never waits for the lines. *)
Lemma two_clones : forall es p, process (react_all start es) = Some p -> (2 <= clones p)%nat.
Proof.
  assert (G : forall es w, (forall p, process w = Some p -> (2 <= clones p)%nat) ->
    forall p, process (react_all w es) = Some p -> (2 <= clones p)%nat).
  { induction es as [|e es IH]; intros w H p P; [eauto|]. cbn in P. eapply IH; [|exact P].
    intros q Q. unfold react in Q. destruct e, (process w) as [r|] eqn:W; cbn in Q; try discriminate; injection Q as <-; cbn; auto;
      specialize (H r eq_refl); lia. }
  intros es. apply G. discriminate.
Qed.

Theorem C33_shutdown_never_waits : forall es, snd (react (react_all start es) Drop) <> Waits.
Proof.
  intros es. unfold react. destruct (process (react_all start es)) as [p|] eqn:P; [|discriminate]. cbn.
  unfold graceful_shutdown. apply two_clones in P. destruct (Nat.ltb_spec 1 (clones p)); [discriminate|lia].
Qed.

(** A line that was accepted, whose logger was then dropped in an orderly way, is lost when the process ends. *)
Theorem C33_accepted_lines_lost_refuted : exists es line, In line (all_accepted start es) /\
  concat (map snd (listing (disk (react_all start es)))) ++ current_text (disk (react_all start es)) = [].
Proof.
  exists [Init Never 0; Send [97%N]; Drop; Exit], [97%N]. split; [left; reflexivity|reflexivity].
Qed.

(** A line and its newline may be in different files. *)
Theorem C33_split_lines_refuted : exists es, all_succeed start es /\ StronglySorted Z.lt (starts empty_dir (all_ops start es)) /\
  exists f, In f (listing (disk (react_all start es))) /\ ~ exists ls, snd f = lines ls.
Proof.
  exists [Init (Size 3) 0; Send [97; 98; 99]%N; Take (1000000, 1000000) (2000000, 2000000) true true].
  split; [cbn; repeat constructor|]. split; [cbn; repeat constructor; lia|].
  exists (0, [97; 98; 99]%N). split; [left; reflexivity|]. cbn. intros (ls & E).
  assert (K : ls <> []) by (intros ->; discriminate).
  destruct (exists_last K) as (l & x & ->). unfold lines in E. rewrite map_app, concat_app in E. cbn in E.
  rewrite app_nil_r, app_assoc in E.
  change [97%N; 98%N; 99%N] with ([97%N; 98%N] ++ [99%N]) in E. apply app_inj_tail in E. destruct E as [_ E]. discriminate.
Qed.

Example C33_lines_example :
  let es := [Init Hourly 0; Send [97]%N; Send []; Init Daily 1; Take (1000000, 1000000) (2000000, 2000000) true true;
     Send [98]%N; Take (1, 1) (3600000000000, 3600000000000) true true; Drop] in
  let w := react_all start es in
  all_succeed start es /\
  (listing (disk w), current_text (disk w), pending w, all_accepted start es) =
  ([(0, [97; 10]%N)], [10%N], [[98]%N], [[97]; []; [98]]%N).
Proof. cbn. repeat split; repeat constructor. Qed.
