(** Properties C21 and C22: the fields of a failed subgraph request, and the
    merging of subgraph responses. *)

From Coq Require Import List Arith ZArith String Bool Sorted Permutation Lia.
From Verif Require Import Response.Model Response.Spec Response.Merge.
Import ListNotations.
Local Open Scope nat_scope.

(** ** C21 *)

(** The default fields are added to the object, in order, and nothing else is
    touched.  The object is then complete (each default field once, what was
    there kept) exactly when at most one default field comes after every field
    already there. *)
Theorem C21_failed_fields_present_partial : forall ps i o ds,
  get_obj ps i = Some o -> ordered (o_fields o) -> ordered ds ->
  exists ps' fs,
    merge_default ps i ds = Ok ps' /\
    get_obj ps' i = Some (MkObj (o_def o) fs) /\
    (forall j, j <> i -> get_obj ps' j = get_obj ps j) /\
    (forall j, get_list ps' j = get_list ps j) /\
    (completed (o_fields o) ds fs <->
     forall d d', In d ds -> In d' ds ->
       trailing (o_fields o) d -> trailing (o_fields o) d' -> d = d') /\
    (completed (o_fields o) ds fs -> ordered fs).
Proof.
  intros ps i [def ex] ds G SE SD. cbn [o_fields o_def] in *.
  unfold merge_default. destruct ds as [|d0 ds0].
  - exists ps, ex. split; [reflexivity|]. split; [exact G|]. split; [reflexivity|]. split; [reflexivity|].
    split; [|intros _; exact SE]. split; [intros _ d d' []|]. intros _.
    split; [auto|]. split; [contradiction|]. split; [auto|]. apply ordered_nodup. exact SE.
  - set (ds := d0 :: ds0) in *. rewrite G. cbn [o_fields].
    pose proof (get_set_fields ps i (sort_fields (ex ++ default_loop ex ds [])) _ G) as GS.
    eexists _, _. split; [reflexivity|]. split; [|split; [|split; [|split]]].
    + rewrite GS, (proj2 (ideqb_eq i i) eq_refl). reflexivity.
    + intros j N. rewrite GS. destruct (ideqb j i) eqn:E; [|reflexivity].
      apply ideqb_eq in E. contradiction.
    + intros j. apply get_list_set_fields.
    + apply defaults_exact; assumption.
    + intros (_ & _ & _ & ND). apply sort_ordered.
      exact (Permutation_NoDup (Permutation_map fst (Permutation_sym (sort_perm _))) ND).
Qed.

(** Two nullable fields [1] and [2] of a failed request, on the empty root
    object: the client receives the first twice and never the second. *)
Theorem C21_failed_fields_present_refuted :
  exists (b : builder) r,
    b = insert_error_update (OnDefault 1 [((1, 1), None); ((2, 2), None)]) (0, 0) [] new_builder /\
    ingest 5 new_response b = Ok r /\
    ser_data 5 r = Some (OObj [(1, ONull); (1, ONull)]).
Proof. eexists _, _. split; [reflexivity|]. split; [reflexivity|]. reflexivity. Qed.

(** With a field [3] after them, already received, both are there. *)
Example C21_example :
  exists r,
    ingest 5 (MkR (Some (0, 0)) [MkPart [MkObj None [((1, 1), VInt 5); ((3, 3), VBool true)]] [] []] [])
      (insert_error_update (OnDefault 1 [((1, 1), None); ((2, 2), None); ((4, 4), Some "Query"%string)]) (0, 0) [] new_builder)
      = Ok r /\
    ser_data 5 r = Some (OObj [(1, OInt 5); (2, ONull); (3, OBool true); (4, OStr "Query"%string)]).
Proof. eexists. split; reflexivity. Qed.

(** ** C22 *)

(** Adding the fields a subgraph returned to an object.  If the trees stored in
    the object and in the new fields are disjoint (they come from different
    responses), then either some common field disagrees and the gateway crashes,
    or they all agree and the object has every field of both, recursively. *)
Theorem C22_merge_partial : forall fuel ps i d ts new tnew,
  rep ps (VObj i) (TObj i d ts) -> tidy (TObj i d ts) ->
  NoDup (map fst new) ->
  freps ps (sort_fields new) tnew -> Forall tidy (map snd tnew) ->
  NoDup (objs (TObj i d ts) ++ fobjs tnew) ->
  (forall f g, In f ts -> In g tnew -> depth (snd f) + depth (snd g) < fuel) ->
  (exists ps' r,
     apply_update fuel ps (UFields i new) = Ok ps' /\
     (forall k t t', In (k, t) ts -> In (k, t') tnew -> agrees t t') /\
     merged (TObj i d ts) (TObj i d tnew) (TObj i d r) /\
     rep ps' (VObj i) (TObj i d r) /\
     (forall n, depth (TObj i d r) <= n -> ser n ps' (VObj i) = Some (show (TObj i d r))) /\
     (forall j o, ~ In j (objs (TObj i d ts) ++ fobjs tnew) -> get_obj ps j = Some o -> get_obj ps' j = Some o))
  \/ (apply_update fuel ps (UFields i new) = Panic /\
      exists k t t', In (k, t) ts /\ In (k, t') tnew /\ ~ agrees t t').
Proof.
  intros fuel ps i d ts new tnew R T NK RN TN ND DB.
  apply rep_obj_inv in R. destruct R as (_ & fs & G & RE).
  inversion T as [| |? ? ? O Q|]; subst.
  assert (ON : ordered tnew).
  { pose proof (sort_ordered new NK) as OS. unfold ordered in *. destruct RN as [E _]. rewrite <- E. exact OS. }
  cbn [apply_update]. unfold merge_object.
  destruct (merge_obj_spec (merge_value fuel) fuel (merge_value_spec fuel) ps i d ts (sort_fields new) tnew fs
              G RE RN O ON Q TN ND DB) as
    [(ps' & r & E & Ag & M & R' & T' & N & I & F)|(E & k & t & t' & I1 & I2 & NA)].
  - left. exists ps', r. split; [exact E|]. split; [exact Ag|]. split; [apply M|]. split; [exact R'|].
    split; [intros n D; apply ser_show; assumption|].
    intros j o NI Gj. destruct F as (F & _). rewrite (F j NI). exact Gj.
  - right. split; [exact E|]. exists k, t, t'. auto.
Qed.

(** Whether merging crashes is exactly whether the trees agree. *)
Theorem C22_crash_iff_disagreement : forall n ps v1 v2 t1 t2,
  depth t1 + depth t2 < n -> rep ps v1 t1 -> rep ps v2 t2 -> tidy t1 -> tidy t2 ->
  NoDup (objs t1 ++ objs t2) ->
  (merge_value n ps v1 v2 = Panic <-> ~ agrees t1 t2) /\ merge_value n ps v1 v2 <> NoFuel.
Proof.
  intros n ps v1 v2 t1 t2 D R1 R2 T1 T2 ND.
  destruct (merge_value_spec n t1 t2 ps v1 v2 D R1 R2 T1 T2 ND) as [(ps' & t & E & A & _)|[E A]]; rewrite E.
  - split; [split; [discriminate|contradiction]|discriminate].
  - split; [split; [intros _; exact A|reflexivity]|discriminate].
Qed.

(** A first subgraph returned [{a: {b: 1}}] and a second [{a: null}], or the
    same number twice: the gateway crashes.  Of two lists of different lengths
    the elements the second has in excess are lost, and a value hidden in the
    second response is shown. *)
Definition store (o : list obj) (l : list (list val)) (h : list val) : list part := [MkPart o l h].

Theorem C22_merge_refuted :
  apply_update 9 (store [MkObj None [((1, 1), VObj (0, 1))]; MkObj None [((2, 2), VInt 1)]] [] [])
    (UFields (0, 0) [((1, 1), VNull)]) = Panic /\
  apply_update 9 (store [MkObj None [((1, 1), VInt 1)]] [] []) (UFields (0, 0) [((1, 1), VInt 1)]) = Panic /\
  (exists ps,
     apply_update 9
       (store [MkObj None [((1, 1), VList (0, 0))]] [[]; [VNull]] [])
       (UFields (0, 0) [((1, 1), VList (0, 1))]) = Ok ps /\
     ser 9 ps (VObj (0, 0)) = Some (OObj [(1, OList [])])) /\
  (exists ps,
     apply_update 9
       (store [MkObj None [((1, 1), VObj (0, 1))]; MkObj None []; MkObj None [((2, 2), VInt 7)]] [] [VObj (0, 2)])
       (UFields (0, 0) [((1, 1), VInacc (0, 0))]) = Ok ps /\
     ser 9 ps (VObj (0, 0)) = Some (OObj [(1, OObj [(2, OInt 7)])])).
Proof.
  split; [reflexivity|]. split; [reflexivity|]. split; eexists; split; reflexivity.
Qed.

(** [{a: {b: 1}, c: [{d: 2}]}] merged with [{c: [{e: 3}], a: {f: 4}}]. *)
Example C22_example :
  exists ps,
    apply_update 9
      (store [MkObj None [((1, 1), VObj (0, 1)); ((4, 3), VList (0, 0))];
              MkObj None [((2, 2), VInt 1)]; MkObj None [((5, 4), VInt 2)];
              MkObj None [((6, 5), VInt 3)]; MkObj None [((3, 6), VInt 4)]]
             [[VObj (0, 2)]; [VObj (0, 3)]] [])
      (UFields (0, 0) [((4, 3), VList (0, 1)); ((1, 1), VObj (0, 4))]) = Ok ps /\
    ser 9 ps (VObj (0, 0)) =
      Some (OObj [(1, OObj [(2, OInt 1); (6, OInt 4)]); (3, OList [OObj [(4, OInt 2); (5, OInt 3)]])]).
Proof. eexists. split; reflexivity. Qed.
