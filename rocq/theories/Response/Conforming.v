(** Properties C19 and C20: the data sent to the client conforms to the types of
    the fields asked for; what the subgraphs return is passed on when it
    conforms, and an error tells when it doesn't. *)

From Coq Require Import List Arith ZArith String Bool Sorted Permutation Lia.
From Verif Require Import Response.Model Response.Deserialize Response.Spec Response.Conform.
From Verif Require Import Response.Merge Response.Nulls Response.DeserBase Response.DeserList Response.DeserVisit.
From Verif Require Import Response.DeserObj Response.DeserAll Response.DeserRoot Response.Accept Response.Legible
  Response.Failure.
Import ListNotations.
Local Open Scope nat_scope.

Section Schema.
  Variable obj_name : nat -> string.
  Variable obj_by_name : string -> option nat.
  Variable obj_inaccessible : nat -> bool.
  Variable possible : nat -> list nat.
  Variable round_f64 : Z -> Z.

  Notation root_part := (root_part obj_name obj_by_name obj_inaccessible possible round_f64).
  Notation root_parts := (root_parts obj_name obj_by_name obj_inaccessible possible round_f64).
  Notation conf_obj := (conf_obj obj_name obj_inaccessible possible).
  Notation shows_obj := (shows_obj obj_name obj_by_name possible round_f64).
  Notation fits_obj := (fits_obj obj_name obj_by_name possible round_f64).

  (** The response of the plans at the root of the operation, the root being an
      object of type [d]: a shape and the data of the subgraph for each. *)
  Definition answer (fuel d : nat) (plans : list (concrete * json)) : res response :=
    ingest_all fuel new_response (root_parts d 1 plans).

  (** A plan whose data can be read, and is an object or makes up for at least
      one required field. *)
  Definition sane (p : concrete * json) : Prop :=
    wf_concrete (fst p) /\ distinct_keys (snd p) /\ clean (snd p) /\
    match snd p with
    | JMap entries _ => ~ stumbles_obj (fst p) entries
    | _ => exists f, In f (c_fields (fst p)) /\ f_pos f <> 0 /\ wrequired (f_wrap f) = true
    end.

  (** No type and no enum value is inaccessible. *)
  Definition nothing_hidden (c : concrete) : Prop :=
    (forall d, obj_inaccessible d = false) /\ forall f, In f (c_fields c) -> accessible_shape (f_shape f).

  (** The keys of the fields of the plans are distinct. *)
  Definition separate (plans : list (concrete * json)) : Prop := NoDup (flat_map (fun p => ckeys (fst p)) plans).

  Lemma root_map_calm : forall d n c entries b1 acc,
    wf_concrete c -> distinct_keys (JMap entries true) -> 0 < n ->
    object_map obj_name possible n [] (deser obj_name obj_by_name obj_inaccessible possible round_f64 n [])
      (0, 0) c (Some d) entries true false [] new_builder = (b1, Some (OFSome (Some d) acc)) ->
    b_bub b1 = false.
  Proof.
    intros d n c entries b1 acc Wf Dk Hn E.
    inversion Dk as [| | | | | |l k NDk Dv|]; subst l k.
    assert (Rd : ready n [] [] new_builder) by (split; constructor).
    assert (Ob : forall k nb, below n (b_part new_builder) (IField (0, 0) k nb)) by (intros k nb; cbn; lia).
    assert (Rf : Forall (reads_fine obj_name obj_by_name obj_inaccessible possible round_f64 n []
              (deser obj_name obj_by_name obj_inaccessible possible round_f64 n [])) (map snd entries)).
    { apply Forall_forall. intros j _. apply deser_fine. }
    destruct (object_map_spec obj_name obj_by_name obj_inaccessible possible round_f64 n [] (0, 0) c [] entries new_builder Wf Rd
                (deser obj_name obj_by_name obj_inaccessible possible round_f64 n []) (Some d) true false b1 _ NDk Dv Rf Ob E)
      as (_ & _ & _ & M & _ & (_ & _ & Gm & _)).
    rewrite (g_bub _ _ _ _ Gm). reflexivity.
  Qed.

  Lemma sane_read : forall d n p, sane p -> 0 < n -> b_bub (root_part d n p) = false.
  Proof.
    intros d n [c j] (Wf & Dk & Cl & H) Hn. cbn [fst snd] in *. unfold DeserRoot.root_part, Deserialize.deser_root. cbn [fst snd].
    destruct j as [|x|z|x|s|l ok|l ok|].
    6: { cbn [object_other]. rewrite (clean_readable _ Cl). destruct (root_on_error obj_name c); reflexivity. }
    6: { inversion Cl; subst.
         destruct (object_goes obj_name possible n []
           (deser obj_name obj_by_name obj_inaccessible possible round_f64 n []) (0, 0) c (Some d) l false [] new_builder)
           as (b1 & r & E).
         - assumption.
         - apply Forall_forall. intros y _. apply deser_goes.
         - exact H.
         - assumption.
         - rewrite E. destruct (object_map_known _ _ _ _ _ _ _ _ _ _ _ _ _ _ _ E) as (acc & ->).
           exact (root_map_calm d n c l b1 acc Wf Dk Hn E). }
    6: inversion Cl.
    all: cbn [object_other]; destruct (root_on_error obj_name c); reflexivity.
  Qed.

  Lemma required_propagates : forall c f, In f (c_fields c) -> f_pos f <> 0 -> wrequired (f_wrap f) = true ->
    exists k, root_on_error obj_name c = OnPropagate k.
  Proof.
    intros c f I P R. unfold root_on_error.
    assert (V : In f (visible_fields c)).
    { unfold visible_fields. apply filter_In. split; [exact I|]. apply negb_true_iff, Nat.eqb_neq. exact P. }
    assert (X : existsb (fun f => wrequired (f_wrap f)) (visible_fields c) = true).
    { apply existsb_exists. eauto. }
    rewrite X. cbn [orb]. destruct (visible_fields c) as [|g l]; [destruct V|]. eauto.
  Qed.

  Lemma sane_ok : forall p, sane p -> plan_ok obj_name p.
  Proof.
    intros p (Wf & Dk & Cl & H). split; [exact Wf|]. split; [exact Dk|].
    destruct (snd p) as [|x|z|x|s|l ok|l ok|]; [| | | | | |left; eauto|];
      (right; destruct H as (f & X & Y & Z); eapply required_propagates; eassumption).
  Qed.

  Lemma sane_parts : forall d plans n, Forall sane plans -> 0 < n -> Forall (fun b => b_bub b = false) (root_parts d n plans).
  Proof.
    intros d plans. induction plans as [|p l IH]; intros n H Hn; cbn [DeserRoot.root_parts]; constructor; inversion H; subst.
    - apply sane_read; assumption.
    - apply IH; [assumption|lia].
  Qed.

  (** ** C19 *)

  Theorem C19_data_conforms_partial : forall fuel d plans, Forall sane plans -> separate plans ->
    exists r o n0, answer fuel d plans = Ok r /\ (forall n, n0 <= n -> ser_data n r = Some o) /\
      (o = ONull \/
       exists kvs kss, o = OObj kvs /\ Permutation (List.concat kss) kvs /\
         Forall2 (fun p ks => conf_obj d (fst p) ks) plans kss).
  Proof.
    intros fuel d plans H ND.
    destruct (run_spec obj_name obj_by_name obj_inaccessible possible round_f64 fuel d plans new_response [])
      as (r & ts & E & Q & _ & Rt & C & _).
    - apply rooted_new.
    - intros k [].
    - exact ND.
    - eapply Forall_impl; [|exact H]. intros p Hp. apply sane_ok. exact Hp.
    - apply sane_parts; [exact H|cbn; lia].
    - cbn [new_response r_parts List.length] in *. fold (root_parts d 1 plans) in *.
      destruct (existsb b_up (root_parts d 1 plans)) eqn:Up.
      + exists r, ONull, 0. split; [exact E|]. split; [|left; reflexivity].
        intros n _. unfold ser_data. rewrite Rt. reflexivity.
      + destruct (data_shown r ts Q Rt) as (n0 & D). destruct (C eq_refl) as (kss & P & F).
        exists r, (OObj (show_fields ts)), n0. split; [exact E|]. split; [exact D|]. right.
        exists (show_fields ts), kss. split; [reflexivity|]. split; [exact P|exact F].
  Qed.

  (** ** C20 *)

  (** Without an error, the client receives exactly what the subgraphs returned. *)
  Theorem C20_errors_leave_a_trace_partial : forall fuel d plans r,
    Forall sane plans -> separate plans ->
    (forall p, In p plans -> (exists entries ok, snd p = JMap entries ok) /\ nothing_hidden (fst p)) ->
    answer fuel d plans = Ok r -> r_errs r = [] ->
    exists kvs kss n0, (forall n, n0 <= n -> ser_data n r = Some (OObj kvs)) /\
      Permutation (List.concat kss) kvs /\
      Forall2 (fun p ks => exists entries ok, snd p = JMap entries ok /\ shows_obj d (fst p) entries ks) plans kss.
  Proof.
    intros fuel d plans r H ND Nh An Er.
    destruct (run_spec obj_name obj_by_name obj_inaccessible possible round_f64 fuel d plans new_response [])
      as (r' & ts & E & Q & Es & Rt & _ & S).
    - apply rooted_new.
    - intros k [].
    - exact ND.
    - eapply Forall_impl; [|exact H]. intros p Hp. apply sane_ok. exact Hp.
    - apply sane_parts; [exact H|cbn; lia].
    - cbn [new_response r_parts r_errs List.length app] in *. unfold answer in An. rewrite E in An. inversion An; subst r'.
      rewrite Er in Es. destruct S as (Up & kss & P & F).
      + intros p I. destruct (Nh p I) as (X & Y & Z). split; [exact X|]. intros g Ig. split; [exact Y|apply Z; exact Ig].
      + symmetry. exact Es.
      + rewrite Up in Rt. destruct (data_shown r ts Q Rt) as (n0 & D).
        exists (show_fields ts), kss, n0. split; [exact D|]. split; [exact P|exact F].
  Qed.

  Lemma ingest_all_errs : forall fuel bs r r', ingest_all fuel r bs = Ok r' -> r_errs r' = r_errs r ++ flat_map b_errs bs.
  Proof.
    intros fuel. induction bs as [|b bs IH]; intros r r' E; cbn [ingest_all flat_map] in *.
    - inversion E. rewrite app_nil_r. reflexivity.
    - destruct (ingest fuel r b) as [r1| |] eqn:E1; cbn [bind] in E; try discriminate. rewrite (IH _ _ E).
      assert (X : r_errs r1 = r_errs r ++ b_errs b).
      { unfold ingest in E1. destruct (b_up b); [inversion E1; reflexivity|].
        destruct (apply_updates fuel (r_parts r ++ [b_part b]) (b_updates b)) as [ps1| |]; cbn [bind] in E1; try discriminate.
        destruct (null_all ps1 (b_nulls b)) as [ps2| |]; cbn [bind] in E1; try discriminate. inversion E1. reflexivity. }
      rewrite X, app_assoc. reflexivity.
  Qed.

  (** Whatever the subgraphs answer, invalid JSON included, as long as it isn't
      null: without an error, all of it was an object with the expected fields,
      and is what the client is sent. *)
  Theorem C20_any_answer_partial : forall fuel d plans r,
    (forall p, In p plans -> wf_concrete (fst p) /\ distinct_keys (snd p) /\ nothing_hidden (fst p) /\
       told (fst p) /\ c_fields (fst p) <> [] /\ snd p <> JNull) ->
    separate plans -> answer fuel d plans = Ok r -> r_errs r = [] ->
    exists kvs kss n0, (forall n, n0 <= n -> ser_data n r = Some (OObj kvs)) /\
      Permutation (List.concat kss) kvs /\
      Forall2 (fun p ks => exists entries, snd p = JMap entries true /\ shows_obj d (fst p) entries ks) plans kss.
  Proof.
    intros fuel d plans r H ND An Er.
    pose proof (ingest_all_errs _ _ _ _ An) as Ea. rewrite Er in Ea. cbn [new_response r_errs app] in Ea.
    assert (B : forall n, flat_map b_errs (root_parts d n plans) = [] ->
                Forall (fun b => b_bub b = false) (root_parts d n plans) /\
                Forall (fun p => exists entries, snd p = JMap entries true) plans).
    { clear ND An Er Ea. induction plans as [|[c j] l IH]; intros n X; cbn [DeserRoot.root_parts flat_map] in *; [split; constructor|].
      apply app_eq_nil in X. destruct X as [X1 X2].
      destruct (H (c, j) (or_introl eq_refl)) as (_ & _ & _ & Tc & Ne & Nn). cbn [fst snd] in *.
      destruct (root_failure obj_name obj_by_name obj_inaccessible possible round_f64 d n c j Tc Ne Nn X1) as (B1 & entries & Ej).
      destruct (IH (fun p I => H p (or_intror I)) (S n) X2) as (B2 & F2).
      split; constructor; eauto. }
    destruct (B 1 (eq_sym Ea)) as (B1 & B2). rewrite Forall_forall in B2.
    destruct (run_spec obj_name obj_by_name obj_inaccessible possible round_f64 fuel d plans new_response [])
      as (r' & ts & E & Q & Es & Rt & _ & S).
    - apply rooted_new.
    - intros k [].
    - exact ND.
    - apply Forall_forall. intros p I. destruct (H p I) as (Wf & Dk & _). destruct (B2 p I) as (entries & Ej).
      split; [exact Wf|]. split; [exact Dk|]. left. eauto.
    - exact B1.
    - cbn [new_response r_parts r_errs List.length app] in *. unfold answer in An. rewrite E in An. inversion An; subst r'.
      destruct S as (Up & kss & P & F).
      + intros p I. destruct (H p I) as (_ & _ & (Y & Z) & _). destruct (B2 p I) as (entries & Ej).
        split; [eauto|]. intros g Ig. split; [exact Y|apply Z; exact Ig].
      + symmetry. exact Ea.
      + rewrite Up in Rt. destruct (data_shown r ts Q Rt) as (n0 & D).
        exists (show_fields ts), kss, n0. split; [exact D|]. split; [exact P|].
        clear - F B2. induction F as [|p ks l lks X F IH]; constructor.
        * destruct X as (entries & ok & Ej & Sh). destruct (B2 p (or_introl eq_refl)) as (entries' & Ej').
          rewrite Ej in Ej'. inversion Ej'; subst. eauto.
        * apply IH. intros q I. apply B2. right. exact I.
  Qed.

  Lemma fits_part : forall d n c entries, wf_concrete c -> distinct_keys (JMap entries true) -> 0 < n -> fits_obj c entries ->
    b_errs (root_part d n (c, JMap entries true)) = [] /\ b_bub (root_part d n (c, JMap entries true)) = false.
  Proof.
    intros d n c entries Wf Dk Hn Ft. inversion Dk as [| | | | | |l k NDk Dv|]; subst l k.
    unfold DeserRoot.root_part, Deserialize.deser_root. cbn [fst snd].
    destruct (object_accepts obj_name obj_by_name possible round_f64 n []
        (deser obj_name obj_by_name obj_inaccessible possible round_f64 n []) (0, 0) c (Some d) entries false [] new_builder)
      as (b1 & d' & acc & E & Er); [exact Wf|exact NDk|exact Dv| |exact Ft|exact Logic.I|].
    { apply Forall_forall. intros j _. apply deser_accepts. }
    rewrite E. destruct (object_map_known _ _ _ _ _ _ _ _ _ _ _ _ _ _ _ E) as (acc' & X). inversion X; subst.
    split; [cbn [push_update b_errs]; rewrite Er; reflexivity|]. exact (root_map_calm d n c entries b1 acc' Wf Dk Hn E).
  Qed.

  (** Data that fits is passed on, and no error is reported. *)
  Theorem C20_valid_data_left_alone_partial : forall fuel d plans,
    (forall p, In p plans -> wf_concrete (fst p) /\ distinct_keys (snd p) /\ nothing_hidden (fst p) /\
       exists entries, snd p = JMap entries true /\ fits_obj (fst p) entries) ->
    separate plans ->
    exists r kvs kss n0, answer fuel d plans = Ok r /\ r_errs r = [] /\
      (forall n, n0 <= n -> ser_data n r = Some (OObj kvs)) /\ Permutation (List.concat kss) kvs /\
      Forall2 (fun p ks => exists entries, snd p = JMap entries true /\ shows_obj d (fst p) entries ks) plans kss.
  Proof.
    intros fuel d plans H ND.
    assert (B : forall n, 0 < n -> Forall (fun b => b_bub b = false) (root_parts d n plans) /\
                flat_map b_errs (root_parts d n plans) = []).
    { clear ND. induction plans as [|[c j] l IH]; intros n Hn; cbn [DeserRoot.root_parts flat_map]; [split; constructor|].
      destruct (H (c, j) (or_introl eq_refl)) as (Wf & Dk & _ & entries & Ej & Ft). cbn [fst snd] in *. subst j.
      destruct (fits_part d n c entries Wf Dk Hn Ft) as (X1 & X2).
      destruct (IH (fun p I => H p (or_intror I)) (S n) (Nat.lt_0_succ n)) as (Y1 & Y2).
      split; [constructor; assumption|]. rewrite X1, Y2. reflexivity. }
    destruct (B 1 Nat.lt_0_1) as (B1 & B2).
    destruct (run_spec obj_name obj_by_name obj_inaccessible possible round_f64 fuel d plans new_response [])
      as (r & ts & E & Q & Es & Rt & _ & S).
    - apply rooted_new.
    - intros k [].
    - exact ND.
    - apply Forall_forall. intros p I. destruct (H p I) as (Wf & Dk & _ & entries & Ej & _).
      split; [exact Wf|]. split; [exact Dk|]. left. eauto.
    - exact B1.
    - cbn [new_response r_parts r_errs List.length app] in *. destruct S as (Up & kss & P & F).
      + intros p I. destruct (H p I) as (_ & _ & (Y & Z) & entries & Ej & _). split; [eauto|].
        intros g Ig. split; [exact Y|apply Z; exact Ig].
      + exact B2.
      + rewrite Up in Rt. destruct (data_shown r ts Q Rt) as (n0 & D).
        exists r, (show_fields ts), kss, n0. split; [exact E|]. split; [rewrite Es; exact B2|].
        split; [exact D|]. split; [exact P|]. clear - F H. induction F as [|p ks l kss X F IH]; constructor.
        * destruct X as (entries & ok & Ej & S). destruct (H p (or_introl eq_refl)) as (_ & _ & _ & e' & Ej' & _).
          exists entries. split; [congruence|exact S].
        * apply IH. intros q I. apply H. right. exact I.
  Qed.
End Schema.

(** ** Examples *)

Local Open Scope string_scope.

Definition ex_name (d : nat) : string := match d with 1 => "Cat" | 2 => "Dog" | _ => "Query" end%nat.
Definition ex_by_name (s : string) : option nat :=
  if String.eqb s "Cat" then Some 1%nat else if String.eqb s "Dog" then Some 2%nat else None.
Definition ex_answer : list (concrete * json) -> res response :=
  answer ex_name ex_by_name (fun _ => false) (fun _ => [1; 2]%nat) (fun z => z) 10 0.
Definition ex_field (k : nat) (w : wtype) (sh : shape) : field := Field k k k true false [] w sh.
Definition ex_object (d : nat) (l : list field) : concrete := Concrete (IKnown d) false None [] l.

Definition ex_shape : concrete :=
  ex_object 0
    [ex_field 1 (WList false (WNamed false)) (SConcrete (ex_object 1 [ex_field 2 (WNamed true) (SScalar TInt)]));
     ex_field 3 (WNamed true) (SPoly [(1%nat, ex_object 1 [ex_field 4 (WNamed true) (SScalar TString)])] None)].

Ltac distinct := repeat (apply NoDup_cons; [cbn; intuition congruence|]); apply NoDup_nil.
Ltac wf_tac := constructor; [vm_compute; distinct|vm_compute; distinct| | | |]; cbn; intros f If;
  repeat (destruct If as [<-|If]); try destruct If; cbn; try congruence; try discriminate; try constructor.

Ltac clean_tac :=
  repeat first
    [ apply Forall_nil
    | apply Forall_cons
    | apply ClMap; cbn [map snd];
      [|let j := fresh in let I := fresh in intros j I; cbn in I;
        repeat (destruct I as [I|I]; [inversion I; subst; eauto; fail|]); destruct I]
    | constructor ].

(** A null goes up to the closest nullable position, an error is reported. *)
Example C19_example : forall second,
  second = JStr "two" ->
  let data := JMap [(1, JList [JMap [(2, JInt 1)] true; JMap [(2, second)] true] true);
                    (3, JMap [(0, JStr "Cat"); (4, JStr "Tom")] true); (9, JBool true)]%nat true in
  sane (ex_shape, data) /\ separate [(ex_shape, data)] /\
  exists r, ex_answer [(ex_shape, data)] = Ok r /\ List.length (r_errs r) = 1%nat /\
    ser_data 10 r = Some (OObj [(1, OList [OObj [(2, OInt 1)]; ONull]); (3, OObj [(4, OStr "Tom")])]%nat).
Proof.
  intros second -> data. split; [|split].
  - assert (W1 : wf_concrete (ex_object 1 [ex_field 2 (WNamed true) (SScalar TInt)])).
    { wf_tac. }
    assert (W2 : wf_concrete (ex_object 1 [ex_field 4 (WNamed true) (SScalar TString)])).
    { wf_tac. }
    split; [|split; [|split]]; cbn [fst snd].
    + wf_tac.
      * exact W1.
      * distinct.
      * intros d c [X|[]]; inversion X; subst; exact W2.
      * discriminate.
    + repeat constructor; cbn; intuition congruence.
    + clean_tac.
    + intros X. inversion X as [c e f j If Ie St]; subst. cbn in If. destruct If as [<-|[<-|[]]]; cbn in *.
      * destruct Ie as [Ie|[Ie|[Ie|[]]]]; inversion Ie; subst. inversion St; subst.
        match goal with H : stumbles (WNamed false) _ _ |- _ => inversion H; subst end.
        match goal with H : stumbles_obj _ _ |- _ => inversion H as [c' e' f' j' If' Ie' St']; subst end.
        cbn in If'. destruct If' as [<-|[]]. inversion St'.
      * destruct Ie as [Ie|[Ie|[Ie|[]]]]; inversion Ie; subst. inversion St; subst.
        match goal with H : In (_, c) _ |- _ => destruct H as [H|[]]; inversion H; subst end.
        match goal with H : stumbles_obj _ _ |- _ => inversion H as [c' e' f' j' If' Ie' St']; subst end.
        cbn in If'. destruct If' as [<-|[]]. inversion St'.
  - vm_compute. distinct.
  - eexists. split; [vm_compute; reflexivity|]. split; reflexivity.
Qed.

(** The same with nothing wrong: passed on. *)
Example C20_example :
  let data := JMap [(1, JList [JMap [(2, JInt 1)] true; JNull] true);
                    (3, JMap [(0, JStr "Cat"); (4, JStr "Tom")] true); (9, JBool true)]%nat true in
  exists r, ex_answer [(ex_shape, data)] = Ok r /\ r_errs r = [] /\
    ser_data 10 r = Some (OObj [(1, OList [OObj [(2, OInt 1)]; ONull]); (3, OObj [(4, OStr "Tom")])]%nat).
Proof. eexists. split; [vm_compute; reflexivity|]. split; reflexivity. Qed.

(** All the fields are for the client: a list instead of an object, text that
    ends too early, a __typename that isn't a string. *)
Example C20_any_answer_example : told ex_shape /\ c_fields ex_shape <> [] /\
  Forall (fun j => exists r, ex_answer [(ex_shape, j)] = Ok r /\ List.length (r_errs r) = 1%nat)
    [JList [] true; JMap [(1, JList [] true)]%nat false; JMap [(3, JMap [(0, JInt 1)] true)]%nat true; JBad].
Proof.
  split; [|split; [discriminate|]].
  - assert (Rf : forall d l, Forall (fun f => f_pos f <> 0%nat /\ f_included f = true) l ->
              Forall (fun f => told_shape (f_shape f)) l -> told (ex_object d l)).
    { intros d l A B. rewrite Forall_forall in A, B. constructor; assumption. }
    assert (F : forall k w sh, f_pos (ex_field (S k) w sh) <> 0%nat /\ f_included (ex_field (S k) w sh) = true) by (intros; cbn; split; [discriminate|reflexivity]).
    assert (C1 : forall k w ty, told (ex_object 1 [ex_field (S k) w (SScalar ty)])).
    { intros. apply Rf; constructor; [apply F|constructor|constructor|constructor]. }
    apply Rf; (constructor; [|constructor; [|constructor]]); try apply F; cbn.
    + constructor. apply C1.
    + constructor; [|discriminate]. intros d c [X|[]]. inversion X. apply C1.
  - repeat constructor; eexists; (split; [vm_compute; reflexivity|reflexivity]).
Qed.

(** ** What fails without the assumptions *)

Definition two_required : concrete :=
  ex_object 0 [ex_field 1 (WNamed true) (SScalar TInt); ex_field 2 (WNamed true) (SScalar TInt)].

(** An object with a key twice: the first required field is missing, the other
    one is there twice, and there is no error. *)
Theorem C19_duplicate_keys_refuted : exists entries r,
  clean (JMap entries true) /\ ex_answer [(two_required, JMap entries true)] = Ok r /\ r_errs r = [] /\
  ser_data 10 r = Some (OObj [(2, OInt 1); (2, OInt 2)]%nat).
Proof.
  exists [(2, JInt 1); (2, JInt 2)]%nat. eexists. split.
  - constructor; [repeat constructor|]. intros j [X|[X|[]]]; inversion X.
  - split; [vm_compute; reflexivity|]. split; reflexivity.
Qed.

(** Invalid JSON inside a nullable field: the required field read before it is
    missing. *)
Theorem C19_invalid_json_refuted : exists f g entries r,
  wrequired (f_wrap f) = true /\ In (f_expected f, JInt 1) entries /\
  ex_answer [(ex_object 0 [f; g], JMap entries true)] = Ok r /\
  ser_data 10 r = Some (OObj [(f_rk g, ONull)]).
Proof.
  exists (ex_field 1 (WNamed true) (SScalar TInt)),
    (ex_field 2 (WNamed false) (SConcrete (ex_object 1 [ex_field 3 (WNamed true) (SScalar TInt)]))),
    [(1, JInt 1); (2, JMap [(3, JInt 1); (4, JBad)] true)]%nat.
  eexists. split; [reflexivity|]. split; [left; reflexivity|]. split; [vm_compute; reflexivity|reflexivity].
Qed.

(** Invalid JSON in a field which isn't for the client: everything is missing,
    and there is no error. *)
Theorem C20_invalid_json_refuted : exists f g r,
  wrequired (f_wrap f) = true /\ reported f = true /\ reported g = false /\
  ex_answer [(ex_object 0 [f; g], JMap [(f_expected g, JBad)] true)] = Ok r /\
  r_errs r = [] /\ ser_data 10 r = Some (OObj []).
Proof.
  exists (ex_field 1 (WNamed true) (SScalar TInt)), (Field 2 0 2 true false [] (WNamed true) (SScalar TInt)).
  eexists. split; [reflexivity|]. split; [reflexivity|]. split; [reflexivity|].
  split; [vm_compute; reflexivity|]. split; reflexivity.
Qed.

(** Invalid JSON in a list whose elements are nullable: the gateway crashes. *)
Theorem C19_crash_refuted : exists c j, wf_concrete c /\ distinct_keys j /\ forall r, ex_answer [(c, j)] <> Ok r.
Proof.
  exists (ex_object 0 [ex_field 1 (WList false (WNamed false)) (SConcrete (ex_object 1 [ex_field 2 (WNamed true) (SScalar TInt)]))]),
    (JMap [(1, JList [JMap [(2, JBad)] true] true)]%nat true).
  split; [|split].
  - wf_tac. wf_tac.
  - repeat constructor; cbn; intuition congruence.
  - intros r. vm_compute. discriminate.
Qed.

(** A subgraph which answers null for everything, without an error: so does the
    gateway. *)
Theorem C20_null_data_refuted : exists r,
  ex_answer [(two_required, JNull)] = Ok r /\ r_errs r = [] /\ ser_data 10 r = Some ONull.
Proof. eexists. split; [vm_compute; reflexivity|]. split; reflexivity. Qed.

(** An Int below -2^31 written as a float: replaced, without an error. *)
Theorem C20_low_int_refuted : exists z r, (z < -2147483648)%Z /\
  ex_answer [(ex_object 0 [ex_field 1 (WNamed true) (SScalar TInt)], JMap [(1, JFloat (FInt z))]%nat true)] = Ok r /\
  r_errs r = [] /\ ser_data 10 r = Some (OObj [(1, OInt (-2147483648))]%nat).
Proof.
  exists (-3000000000)%Z. eexists. split; [reflexivity|]. split; [vm_compute; reflexivity|]. split; reflexivity.
Qed.
