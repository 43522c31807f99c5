(** Rotating log files: what was acknowledged is in the files, and files are rotated in time (C33). *)

From Coq Require Import List ZArith NArith Bool Lia Sorted Arith.
From Verif.Logger Require Import Model.
Import ListNotations.
Local Open Scope Z_scope.

(** ** Specification *)

(** The directory as somebody reading it sees it: rotated files with their
    names and contents, and the current file. *)
Definition listing (s : state) : list (Z * bytes) := map (fun p => (fst p, data s (snd p))) (rotated s).
Definition current_text (s : state) : bytes := match current s with Some i => data s i | None => [] end.

(** The names that the log files started by an operation will get. *)
Definition started (s : state) (o : op) : list Z :=
  match log (fst (step s o)) with
  | Some l' =>
      match o with
      | Open _ _ _ => [start_timestamp (rotate_start l')]
      | Write _ _ _ _ =>
          match log s with
          | Some l => if Nat.eqb (handle l) (handle l') then [] else [start_timestamp (rotate_start l')]
          | None => []
          end
      end
  | None => []
  end.

Fixpoint starts (s : state) (ops : list op) : list Z :=
  match ops with [] => [] | o :: r => started s o ++ starts (fst (step s o)) r end.

(** ** Invariant *)

Definition opt_list {A} (o : option A) : list A := match o with Some x => [x] | None => [] end.

Record inv (s : state) (last : Z) (acked : bytes) : Prop := mkinv {
  inv_sorted : StronglySorted Z.lt (map fst (rotated s));
  inv_last : Forall (fun ms => ms <= last) (map fst (rotated s));
  inv_distinct : NoDup (map snd (rotated s) ++ opt_list (current s));
  inv_old : Forall (fun i => (i < next s)%nat) (map snd (rotated s) ++ opt_list (current s));
  inv_start : forall l i, log s = Some l -> current s = Some i ->
    Forall (fun ms => ms < start_timestamp (rotate_start l)) (map fst (rotated s));
  inv_log_last : forall l, log s = Some l -> start_timestamp (rotate_start l) <= last;
  inv_handle : forall l, log s = Some l ->
    current s = Some (handle l) \/ (current s = None /\ exists r ms, rotated s = r ++ [(ms, handle l)]);
  inv_text : concat (map snd (listing s)) ++ current_text s = acked
}.

Lemma inv_empty : inv empty_dir (-1) [].
Proof. split; cbn; try constructor; try discriminate; intros; discriminate. Qed.

Lemma le_Forall : forall l a b, a <= b -> Forall (fun ms => ms <= a) l -> Forall (fun ms : Z => ms <= b) l.
Proof. intros l a b H F. eapply Forall_impl; [|exact F]. cbn. lia. Qed.

Lemma inv_open : forall s last acked k now, inv s last acked -> last < start_timestamp now ->
  inv (open_log s k now) (start_timestamp now) acked.
Proof.
  intros s last acked k now [So La Di Ol St Ll Ha Te] T.
  assert (B : Forall (fun ms => ms < start_timestamp now) (map fst (rotated s))).
  { eapply Forall_impl; [|exact La]. cbn. lia. }
  unfold open_log. destruct (current s) as [i|] eqn:C.
  - split; cbn; try assumption.
    + eapply le_Forall; [|exact La]. lia.
    + intros l j E _. injection E as <-. exact B.
    + intros l E. injection E as <-. cbn. lia.
    + intros l E. injection E as <-. left. reflexivity.
    + rewrite <- Te. unfold current_text. rewrite C. reflexivity.
  - cbn in Di, Ol. rewrite app_nil_r in Di, Ol. split; cbn; try assumption.
    + eapply le_Forall; [|exact La]. lia.
    + apply NoDup_Add with (a := next s) (l := map snd (rotated s)).
      * rewrite <- (app_nil_r (map snd (rotated s))) at 1. apply Add_app.
      * split; [exact Di|]. rewrite Forall_forall in Ol. intros I. apply Ol in I. lia.
    + apply Forall_app. split; [|repeat constructor].
      eapply Forall_impl; [|exact Ol]. cbn. lia.
    + intros l j E _. injection E as <-. exact B.
    + intros l E. injection E as <-. cbn. lia.
    + intros l E. injection E as <-. left. reflexivity.
    + rewrite <- Te. unfold current_text. rewrite C. cbn. rewrite Nat.eqb_refl.
      f_equal. f_equal. f_equal. unfold listing. apply map_ext_in. intros p P.
      apply (in_map snd) in P. rewrite Forall_forall in Ol. apply Ol in P.
      destruct (Nat.eqb_spec (snd p) (next s)); [lia|reflexivity].
Qed.

Lemma inv_close : forall s last acked, inv s last acked ->
  inv (mkstate (current s) (rotated s) (data s) (next s) None) last acked.
Proof. intros s last acked [So La Di Ol St Ll Ha Te]. split; cbn; try assumption; try discriminate; intros; discriminate. Qed.

Lemma concat_update : forall (d : inode -> bytes) i b r, ~ In i (map snd (r : list (Z * inode))) ->
  concat (map snd (map (fun p : Z * inode => (fst p, if Nat.eqb (snd p) i then d (snd p) ++ b else d (snd p))) r)) =
  concat (map snd (map (fun p => (fst p, d (snd p))) r)).
Proof.
  intros d i b r I. f_equal. f_equal. apply map_ext_in. intros p P.
  destruct (Nat.eqb_spec (snd p) i); [|reflexivity]. exfalso. apply I. subst. apply in_map. exact P.
Qed.

Lemma inv_write_file : forall s l last acked buf o s' out, inv s last acked -> log s = Some l ->
  write_file s l buf o = (s', out) -> inv s' last (acked ++ match out with Some b => b | None => [] end).
Proof.
  intros s l last acked buf o s' out [So La Di Ol St Ll Ha Te] G W. unfold write_file in W.
  destruct (taken o) as [n|].
  - injection W as <- <-. split; cbn; try assumption.
    + intros l' i E C. injection E as <-. cbn. eauto.
    + intros l' E. injection E as <-. cbn. eauto.
    + intros l' E. injection E as <-. cbn. eauto.
    + rewrite <- Te. unfold listing, current_text. cbn. destruct (Ha l G) as [C|(C & r & ms & R)].
      * rewrite C in *. rewrite Nat.eqb_refl. rewrite app_assoc. f_equal. f_equal.
        apply concat_update. cbn in Di. eapply NoDup_remove_2 in Di. rewrite app_nil_r in Di. exact Di.
      * rewrite C in *. rewrite R in *. cbn in Di. rewrite ?app_nil_r in Di. rewrite !app_nil_r.
        rewrite map_app in Di. cbn in Di. rewrite !map_app, !concat_app. cbn. rewrite Nat.eqb_refl. rewrite !app_nil_r.
        rewrite <- app_assoc. f_equal.
        apply concat_update. eapply NoDup_remove_2 in Di. rewrite app_nil_r in Di. exact Di.
  - injection W as <- <-. rewrite app_nil_r. split; cbn; try assumption; intros l' *; intros E; injection E as <-; cbn; eauto.
Qed.

Lemma SS_snoc : forall l x, StronglySorted Z.lt l -> Forall (fun y => y < x) l -> StronglySorted Z.lt (l ++ [x]).
Proof.
  induction l as [|y l IH]; intros x H F; cbn; [repeat constructor|].
  inversion H; subst. inversion F; subst. constructor; [auto|].
  apply Forall_app. split; [assumption|repeat constructor; assumption].
Qed.

Lemma filter_all : forall {A} (p : A -> bool) l, Forall (fun x => p x = true) l -> filter p l = l.
Proof. intros A p l F. induction F as [|x l H F IH]; cbn; [reflexivity|]. rewrite H, IH. reflexivity. Qed.

Lemma inv_rename : forall s l last acked i, inv s last acked -> log s = Some l -> current s = Some i ->
  inv (rename_current s (start_timestamp (rotate_start l)) i) last acked.
Proof.
  intros s l last acked i [So La Di Ol St Ll Ha Te] G C.
  specialize (St l i G C). specialize (Ll l G).
  assert (R : filter (fun p => negb (fst p =? start_timestamp (rotate_start l))) (rotated s) = rotated s).
  { apply filter_all. rewrite Forall_forall. intros p P. rewrite Forall_forall in St.
    specialize (St (fst p) (in_map fst _ _ P)). cbn in St. apply negb_true_iff. apply Z.eqb_neq. lia. }
  unfold rename_current. rewrite R. split; cbn.
  - rewrite map_app. apply SS_snoc; assumption.
  - rewrite map_app. apply Forall_app. split; [assumption|]. repeat constructor. assumption.
  - rewrite C in Di. cbn in Di. rewrite map_app, app_nil_r. exact Di.
  - rewrite C in Ol. cbn in Ol. rewrite map_app, app_nil_r. exact Ol.
  - discriminate.
  - intros l' E. rewrite G in E. injection E as <-. assumption.
  - intros l' E. rewrite G in E. injection E as <-. right. split; [reflexivity|].
    destruct (Ha l G) as [H|(H & _)]; [|congruence]. rewrite C in H. injection H as ->. eauto.
  - rewrite <- Te. unfold current_text, listing. rewrite C. cbn. rewrite !map_app, concat_app. cbn. rewrite !app_nil_r. reflexivity.
Qed.

Definition top (last : Z) (l : list Z) : Z := List.last l last.

Lemma inv_step : forall s last acked o, inv s last acked -> Forall (fun x => last < x) (started s o) ->
  inv (fst (step s o)) (top last (started s o)) (acked ++ match snd (step s o) with Some b => b | None => [] end).
Proof.
  intros s last acked o I H. destruct o as [k now ok|now start buf w].
  - unfold started in *. cbn [step] in *. destruct ok.
    + cbn [fst snd] in *. rewrite app_nil_r.
      assert (L : log (open_log s k now) = Some (mklogger match current s with Some i => i | None => next s end
        match current s with Some i => len (data s i) | None => 0%N end k now)).
      { unfold open_log. destruct (current s); reflexivity. }
      rewrite L in *. cbn in *. eapply inv_open; [eassumption|]. inversion H; assumption.
    + cbn in *. rewrite app_nil_r. apply inv_close. exact I.
  - unfold started in *. cbn [step] in *. destruct (log s) as [l|] eqn:G.
    2: { cbn. rewrite app_nil_r. cbn in *. rewrite G in *. exact I. }
    destruct (needs_rotation l now).
    2: { destruct (write_file s l buf w) as [s' out] eqn:W. cbn [fst snd] in *.
         assert (L : exists l', log s' = Some l' /\ handle l' = handle l).
         { unfold write_file in W. destruct (taken w); injection W as <- <-; cbn; eexists; split; reflexivity. }
         destruct L as (l' & L & E). rewrite L, E, Nat.eqb_refl in *. cbn.
         eapply inv_write_file; eassumption. }
    unfold flush_and_rotate in *. destruct (current s) as [i|] eqn:C.
    2: { cbn in *. rewrite G in *. rewrite Nat.eqb_refl. cbn. rewrite app_nil_r. exact I. }
    destruct (rename_ok w).
    2: { cbn in *. rewrite G in *. rewrite Nat.eqb_refl. cbn. rewrite app_nil_r. exact I. }
    assert (I' := inv_rename s l last acked i I G C). set (s1 := rename_current s _ i) in *.
    assert (G1 : log s1 = Some l) by exact G.
    assert (C1 : current s1 = None) by reflexivity.
    destruct (open_ok w).
    2: { cbn in *. rewrite G in *. rewrite Nat.eqb_refl. cbn. rewrite app_nil_r. exact I'. }
    set (s2 := open_log s1 (strategy l) start) in *.
    assert (L2 : log s2 = Some (mklogger (next s1) 0%N (strategy l) start)).
    { unfold s2, open_log. rewrite C1. reflexivity. }
    rewrite L2 in *. destruct (write_file s2 _ buf w) as [s' out] eqn:W. cbn [fst snd] in *.
    assert (L' : exists l', log s' = Some l' /\ handle l' = next s1 /\ rotate_start l' = start).
    { unfold write_file in W. destruct (taken w); injection W as <- <-; cbn; eexists; repeat split. }
    destruct L' as (l' & L' & E & F). rewrite L', E, F in *.
    assert (N : Nat.eqb (handle l) (next s1) = false).
    { apply Nat.eqb_neq. change (next s1) with (next s). assert (O := inv_old _ _ _ I). rewrite C in O.
      destruct (inv_handle _ _ _ I l G) as [K|(K & _)]; [|congruence]. rewrite C in K. injection K as ->.
      apply Forall_app in O. destruct O as [_ O]. cbn in O. inversion O; subst. lia. }
    rewrite N in *. inversion H; subst. cbn.
    eapply inv_write_file; [|exact L2|exact W]. eapply inv_open; [exact I'|]. assumption.
Qed.

Lemma inv_run : forall ops s last acked s' out, inv s last acked -> run s ops = (s', out) ->
  StronglySorted Z.lt (last :: starts s ops) -> exists last', inv s' last' (acked ++ out).
Proof.
  induction ops as [|o ops IH]; intros s last acked s' out I R H.
  - cbn in R. injection R as <- <-. rewrite app_nil_r. eauto.
  - cbn [run starts] in *. destruct (step s o) as [s1 out1] eqn:E. destruct (run s1 ops) as [s2 rest] eqn:R1.
    injection R as <- <-.
    assert (F : Forall (fun x => last < x) (started s o)).
    { inversion H; subst. apply Forall_app in H3. tauto. }
    assert (I1 := inv_step s last acked o I F). rewrite E in *. cbn [fst snd] in *.
    rewrite app_assoc. eapply IH; [exact I1|exact R1|].
    clear - H. unfold top.
    assert (K : (started s o = [] \/ exists x, started s o = [x])).
    { unfold started. destruct (log _); [|auto]. destruct o; [eauto|]. destruct (log s); [|auto]. destruct (Nat.eqb _ _); eauto. }
    destruct K as [K|(x & K)]; rewrite K in *; cbn in *; [exact H|]. inversion H; assumption.
Qed.

(** ** C33 *)

(** As long as no two files of the history start in the same millisecond (and
    the clock doesn't go backwards between files), every byte acknowledged is in
    the directory: the rotated files in the order of their names, then the
    current file, are what was acknowledged, in order. *)
Theorem C33_nothing_lost_partial : forall ops s out, run empty_dir ops = (s, out) ->
  StronglySorted Z.lt (starts empty_dir ops) ->
  StronglySorted Z.lt (map fst (listing s)) /\ concat (map snd (listing s)) ++ current_text s = out.
Proof.
  intros ops s out R H.
  assert (P : forall ops s x, In x (starts s ops) -> 0 <= x).
  { clear. induction ops as [|o ops IH]; intros s x I; [destruct I|]. cbn in I. apply in_app_or in I.
    destruct I as [I|I]; [|eapply IH; exact I].
    unfold started in I. destruct (log _) as [l'|]; [|destruct I].
    assert (Q : 0 <= start_timestamp (rotate_start l')).
    { unfold start_timestamp. destruct (Z.ltb_spec (rotate_start l') 0); [lia|]. apply Z.div_pos; lia. }
    destruct o; [cbn in I; intuition lia|]. destruct (log s); [|destruct I].
    destruct (Nat.eqb _ _); cbn in I; [destruct I|intuition lia]. }
  destruct (inv_run ops empty_dir (-1) [] s out inv_empty R) as (last & [So _ _ _ _ _ _ Te]).
  - constructor; [exact H|]. rewrite Forall_forall. intros x I. apply P in I. lia.
  - split; [|exact Te]. unfold listing. rewrite map_map. exact So.
Qed.

(** *** Size *)

Definition offered_by (o : op) : N := match o with Open _ _ _ => 0 | Write _ _ buf _ => len buf end.
Fixpoint offered (ops : list op) : N := match ops with [] => 0 | o :: r => offered_by o + offered r end.

(** Every start of the logger asks for files of at most [max] bytes, every write is at most [m] bytes. *)
Definition sized (max m : N) (o : op) : Prop :=
  match o with Open k _ _ => k = Size max | Write _ _ buf _ => (len buf <= m)%N end.

Record sinv (max m total : N) (s : state) : Prop := mksinv {
  sinv_files : forall i, (len (data s i) <= (max - 1) + m)%N;
  sinv_total : forall i, (len (data s i) <= total)%N;
  sinv_strategy : forall l, log s = Some l -> strategy l = Size max;
  sinv_size : forall l, log s = Some l -> (len (data s (handle l)) <= size l <= total)%N
}.

Lemma len_app : forall a b, len (a ++ b) = (len a + len b)%N.
Proof. intros. unfold len. rewrite app_length. lia. Qed.

Lemma len_firstn : forall n b, (len (firstn n b) <= len b)%N.
Proof. intros. unfold len. rewrite firstn_length. lia. Qed.

Lemma sinv_weaken : forall max m t t' s, (t <= t')%N -> sinv max m t s -> sinv max m t' s.
Proof.
  intros max m t t' s H [F T S Z]. split; auto.
  - intros i. specialize (T i). lia.
  - intros l L. specialize (Z l L). lia.
Qed.

Lemma sinv_open : forall max m t s start, sinv max m t s -> sinv max m t (open_log s (Size max) start).
Proof.
  intros max m t s start [F T S Z]. unfold open_log. destruct (current s) as [i|].
  - split; cbn; auto.
    + intros l E. injection E as <-. reflexivity.
    + intros l E. injection E as <-. cbn. specialize (T i). lia.
  - split; cbn.
    + intros i. destruct (Nat.eqb i (next s)); [cbn; lia|apply F].
    + intros i. destruct (Nat.eqb i (next s)); [cbn; lia|apply T].
    + intros l E. injection E as <-. reflexivity.
    + intros l E. injection E as <-. cbn. rewrite Nat.eqb_refl. cbn. lia.
Qed.

Lemma sinv_write_file : forall max m t s l buf o, sinv max m t s -> log s = Some l ->
  (len (data s (handle l)) <= max - 1)%N -> (len buf <= m)%N -> (t + len buf < 18446744073709551616)%N ->
  sinv max m (t + len buf) (fst (write_file s l buf o)).
Proof.
  intros max m t s l buf o [F T S Z] L H B W. unfold write_file.
  assert (E : ((size l + len buf) mod 18446744073709551616 = size l + len buf)%N).
  { apply N.mod_small. specialize (Z l L). lia. }
  rewrite E. specialize (S l L). assert (Z' := Z l L). destruct (taken o) as [n|]; split; cbn.
  - intros i. destruct (Nat.eqb_spec i (handle l)); [|apply F]. subst. rewrite len_app.
    assert (K := len_firstn n buf). lia.
  - intros i. specialize (T i). destruct (Nat.eqb i (handle l)); [|lia]. rewrite len_app. assert (K := len_firstn n buf). lia.
  - intros l' E'. injection E' as <-. exact S.
  - intros l' E'. injection E' as <-. cbn. rewrite Nat.eqb_refl. rewrite len_app. assert (K := len_firstn n buf). lia.
  - apply F.
  - intros i. specialize (T i). lia.
  - intros l' E'. injection E' as <-. exact S.
  - intros l' E'. injection E' as <-. cbn. lia.
Qed.

Lemma sinv_step : forall max m t s o, sinv max m t s -> sized max m o -> (t + offered_by o < 18446744073709551616)%N ->
  sinv max m (t + offered_by o) (fst (step s o)).
Proof.
  intros max m t s o I H W. destruct o as [k now ok|now start buf w]; cbn [offered_by sized step] in *.
  - rewrite N.add_0_r. subst. destruct ok; [apply sinv_open; exact I|].
    destruct I as [F T S Z]. split; cbn; auto; discriminate.
  - destruct (log s) as [l|] eqn:L; [|eapply sinv_weaken; [|exact I]; lia].
    destruct (needs_rotation l now) eqn:R.
    + unfold flush_and_rotate. destruct (current s) as [i|] eqn:C; [|eapply sinv_weaken; [|exact I]; lia].
      destruct (rename_ok w); [|eapply sinv_weaken; [|exact I]; lia].
      set (s1 := rename_current s _ i).
      assert (I1 : sinv max m t s1) by (destruct I as [F T S Z]; split; assumption).
      destruct (open_ok w); [|eapply sinv_weaken; [|exact I1]; lia].
      rewrite (sinv_strategy _ _ _ _ I l L).
      assert (I2 := sinv_open max m t s1 start I1). set (s2 := open_log s1 _ start) in *.
      assert (L2 : log s2 = Some (mklogger (next s1) 0%N (Size max) start)) by reflexivity. rewrite L2.
      apply sinv_write_file; [exact I2|exact L2| |exact H|exact W].
      cbn. rewrite Nat.eqb_refl. cbn. lia.
    + apply sinv_write_file; [exact I|exact L| |exact H|exact W].
      unfold needs_rotation in R. rewrite (sinv_strategy _ _ _ _ I l L) in R. apply N.leb_gt in R.
      assert (Z := sinv_size _ _ _ _ I l L). lia.
Qed.

Lemma sinv_run : forall max m ops t s, sinv max m t s -> Forall (sized max m) ops -> (t + offered ops < 18446744073709551616)%N ->
  sinv max m (t + offered ops) (fst (run s ops)).
Proof.
  intros max m. induction ops as [|o ops IH]; intros t s I F W; cbn [run offered] in *.
  - rewrite N.add_0_r. exact I.
  - inversion F as [|? ? H F']; subst. assert (I1 := sinv_step max m t s o I H ltac:(lia)).
    destruct (step s o) as [s1 out1]. cbn [fst] in *. rewrite N.add_assoc.
    assert (I2 := IH _ s1 I1 F' ltac:(lia)). destruct (run s1 ops) as [s2 rest]. exact I2.
Qed.

(** A file is never written to once it has reached the configured size: no file,
    rotated or not, exceeds it by more than one write, whatever restarts, clock
    readings and failures of the system calls there were (less than 2^64 bytes in all). *)
Theorem C33_size : forall max m ops s out, run empty_dir ops = (s, out) -> Forall (sized max m) ops ->
  (offered ops < 18446744073709551616)%N ->
  Forall (fun f => (len (snd f) <= (max - 1) + m)%N) (listing s) /\ (len (current_text s) <= (max - 1) + m)%N.
Proof.
  intros max m ops s out R F W.
  assert (I : sinv max m 0 empty_dir).
  { split; cbn; intros; try discriminate; lia. }
  apply (sinv_run max m ops 0 empty_dir) in I; [|exact F|exact W]. rewrite R in I. cbn [fst] in I.
  destruct I as [I _ _ _]. split.
  - unfold listing. rewrite Forall_forall. intros f P. apply in_map_iff in P. destruct P as (p & <- & _). apply I.
  - unfold current_text. destruct (current s); [apply I|cbn; lia].
Qed.

(** *** Age *)

(** How long a file may be used, in nanoseconds. *)
Definition period (k : kind) : option Z :=
  match k with
  | Never | Size _ => None
  | Minutely => Some 60000000000
  | Hourly => Some 3600000000000
  | Daily => Some 86400000000000
  | Weekly => Some 604800000000000
  | Monthly => Some 2592000000000000
  | Yearly => Some 31536000000000000
  end.

Lemma needs_rotation_age : forall l now p, period (strategy l) = Some p ->
  needs_rotation l now = (rotate_start l + p <=? now).
Proof.
  intros l now p P. unfold needs_rotation, lifetime_secs. destruct (strategy l); try discriminate; injection P as <-;
    (destruct (Z.ltb_spec now (rotate_start l)) as [H|H];
     [match goal with |- ?a = ?b => assert (Q : b = false) by (apply Z.leb_gt; lia) end; rewrite Q; reflexivity|];
     apply eq_true_iff_eq; rewrite !Z.leb_le; split; intros K;
     [assert (D := Z.div_mod (now - rotate_start l) 1000000000 ltac:(lia));
      assert (M := Z.mod_pos_bound (now - rotate_start l) 1000000000 ltac:(lia));
      unfold year_secs, month_secs, week_secs, day_secs, hour_secs, minute_secs in K; lia
     |apply Z.div_le_lower_bound;
      unfold year_secs, month_secs, week_secs, day_secs, hour_secs, minute_secs; lia]).
Qed.

(** Within one process a file whose age (since the process opened it) has
    reached the configured period takes no more bytes: bytes acknowledged then
    are in a file that was started for them; and a file is not rotated before. *)
Theorem C33_age_partial : forall s l now start buf o p, log s = Some l -> period (strategy l) = Some p ->
  let s' := fst (step s (Write now start buf o)) in
  (rotate_start l + p <= now -> forall b, snd (step s (Write now start buf o)) = Some b ->
     exists l', log s' = Some l' /\ rotate_start l' = start /\ handle l' = next s /\
       current s' = Some (handle l') /\ data s' (handle l') = b) /\
  (now < rotate_start l + p -> current s' = current s /\ rotated s' = rotated s).
Proof.
  intros s l now start buf o p L P s'. unfold s'. clear s'. cbn [step]. rewrite L, (needs_rotation_age l now p P).
  destruct (Z.leb_spec (rotate_start l + p) now) as [H|H]; (split; [|try (intros; lia)]); try (intros; lia).
  - intros _ b B. unfold flush_and_rotate in *. destruct (current s) as [i|] eqn:C; [|discriminate].
    destruct (rename_ok o); [|discriminate]. destruct (open_ok o); [|discriminate].
    cbn in *. unfold write_file in *. destruct (taken o) as [n|]; cbn in *; [|discriminate]. injection B as <-.
    eexists. split; [reflexivity|]. cbn. rewrite !Nat.eqb_refl. repeat split.
  - intros _. unfold write_file. destruct (taken o); cbn; auto.
Qed.

(** ** Refutations *)

Definition all_fine (o : op) : Prop :=
  match o with Open _ _ ok => ok = true | Write _ _ buf o => rename_ok o = true /\ open_ok o = true /\ taken o = Some (length buf) end.

Definition fine (buf : bytes) : io := mkio true true (Some (length buf)).

(** Two files started in the same millisecond: the second one, once rotated,
    replaces the first one. A busy logger with a small size limit loses lines. *)
Theorem C33_same_millisecond_refuted : exists ops s out x, run empty_dir ops = (s, out) /\ Forall all_fine ops /\
  In x out /\ ~ In x (concat (map snd (listing s)) ++ current_text s).
Proof.
  exists [Open (Size 1) 1700000000000000000 true;
     Write 1700000000000100000 1700000000000100001 [97%N] (fine [97%N]);
     Write 1700000000000200000 1700000000000200001 [98%N] (fine [98%N]);
     Write 1700000000000300000 1700000000000300001 [99%N] (fine [99%N])].
  eexists. eexists. exists 97%N. split; [cbn; reflexivity|]. split; [repeat constructor|].
  split; [cbn; auto|]. cbn. intros [H|[H|[]]]; discriminate.
Qed.

(** The age of a file starts anew with each process: restarted every 12 hours, a
    gateway that is to rotate daily writes to the same file for days. *)
Theorem C33_restarts_refuted : exists ops s out, run empty_dir ops = (s, out) /\ Forall all_fine ops /\
  exists now now' a b start start' ops', ops = [Open Daily now true; Write now start a (fine a)] ++ ops' ++ [Write now' start' b (fine b)] /\
    now + 86400000000000 + 86400000000000 <= now' /\ rotated s = [] /\ current_text s = a ++ b.
Proof.
  exists ([Open Daily 0 true; Write 0 0 [97%N] (fine [97%N])] ++
     [Open Daily 43200000000000 true; Open Daily 86400000000000 true; Open Daily 129600000000000 true] ++
     [Write 172800000000000 172800000000000 [98%N] (fine [98%N])]).
  eexists. eexists. split; [cbn; reflexivity|]. split; [repeat constructor|].
  exists 0, 172800000000000, [97%N], [98%N], 0, 172800000000000,
    [Open Daily 43200000000000 true; Open Daily 86400000000000 true; Open Daily 129600000000000 true].
  split; [reflexivity|]. split; [lia|]. split; reflexivity.
Qed.

Lemma stuck : forall s l max, log s = Some l -> current s = None -> strategy l = Size max -> (max <=? size l)%N = true ->
  forall later, Forall (fun o => match o with Write _ _ _ _ => all_fine o | Open _ _ _ => False end) later ->
    run s later = (s, []).
Proof.
  intros s l max L C K Z later F. induction F as [|o later H F IH]; [reflexivity|]. destruct o as [|now start buf w]; [destruct H|].
  cbn [run step]. rewrite L. unfold needs_rotation. rewrite K, Z. unfold flush_and_rotate. rewrite C, IH. reflexivity.
Qed.

(** Once opening the new file failed after a rotation, nothing is logged any
    more, even if every system call succeeds from then on. *)
Theorem C33_never_logs_again_refuted : exists ops s out l, run empty_dir ops = (s, out) /\ log s = Some l /\
  forall later, Forall (fun o => match o with Write _ _ _ _ => all_fine o | Open _ _ _ => False end) later ->
    run s later = (s, []).
Proof.
  exists [Open (Size 1) 0 true; Write 0 0 [97%N] (fine [97%N]); Write 1000000 1000000 [98%N] (mkio true false (Some 1%nat))].
  eexists. eexists. eexists. split; [cbn; reflexivity|]. split; [reflexivity|].
  apply stuck with (l := mklogger 0%nat 1%N (Size 1) 0) (max := 1%N); reflexivity.
Qed.

(** ** Example *)

(** Files of at most 3 bytes, a write of which the system takes a part, and a restart. *)
Example C33_example :
  let ops := [Open (Size 3) 5000000 true; Write 5000000 5000000 [1; 2]%N (fine [1; 2]%N);
     Write 6000000 6000000 [3; 4]%N (mkio true true (Some 1%nat)); Write 7000000 7000000 [4]%N (fine [4]%N);
     Open (Size 3) 8000000 true; Write 8000000 8000000 [5; 6; 7]%N (fine [5; 6; 7]%N);
     Write 9000000 9000000 [8]%N (fine [8]%N)] in
  let (s, out) := run empty_dir ops in
  (out, listing s, current_text s, starts empty_dir ops) =
  ([1; 2; 3; 4; 5; 6; 7; 8]%N, [(5, [1; 2; 3]%N); (8, [4; 5; 6; 7]%N)], [8]%N, [5; 7; 8; 9]).
Proof. reflexivity. Qed.
