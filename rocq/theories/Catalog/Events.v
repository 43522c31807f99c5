(** C122: the hooks extension gets the events of the gateway it asked for. Those of other extensions it only gets when it
    asks for everything. *)
From Coq Require Import List Bool String NArith Arith Lia.
From Verif.Catalog Require Import Model Spec Properties.
Import ListNotations.
Open Scope string_scope.
Open Scope list_scope.

Lemma event_eqb_spec : forall a b, event_eqb a b = true <-> a = b.
Proof. intros [] []; split; intros E; try reflexivity; discriminate. Qed.

Lemma exists_event : forall ty l, existsb (event_eqb ty) l = true <-> In ty l.
Proof.
  intros ty l. rewrite existsb_exists. split.
  - intros (x & H & E). apply event_eqb_spec in E. subst x. exact H.
  - intros H. exists ty. split; [exact H|apply event_eqb_spec; reflexivity].
Qed.

Lemma must_keep_spec : forall f ty, must_keep f ty = true <-> Wants f ty.
Proof.
  intros f ty. unfold must_keep, Wants. destruct f as [[|l]|].
  - split; [intros _; left; reflexivity|reflexivity].
  - rewrite exists_event. split; [intros H; right; exists l; split; [reflexivity|exact H]|].
    intros [E|(l' & E & H)]; [discriminate|]. injection E as ->. exact H.
  - split; [discriminate|]. intros [E|(l & E & _)]; discriminate.
Qed.

(** The filter of the gateway is that of its hooks extension: the one of its type, or the older one of its manifest. *)
Theorem C122_filter : forall d works config catalog g,
  NoDup (map fst config) -> create_catalog d config = ROk catalog ->
  gateway_new works catalog config = Some (Started g) ->
  (forall id x f, nth_error catalog id = Some x -> mf_kind (e_manifest x) = KHooks (Some f) -> g_filter g = Some f) /\
  (forall id x, nth_error catalog id = Some x -> mf_kind (e_manifest x) = KHooks None ->
     g_filter g = mf_legacy_filter (e_manifest x)) /\
  ((forall id x, nth_error catalog id = Some x -> ~ IsHooks x) -> g_filter g = None).
Proof.
  intros d works config catalog g ND E G. destruct (gateway_pools _ _ _ _ _ ND E G) as (_ & _ & C & _).
  destruct C as [(C1 & C2 & C3)|(pc & x & f & C1 & C2 & C3 & C4 & C5 & C6 & C7)].
  - split; [intros id x f Hx Hk; destruct (C3 id x Hx); exists (Some f); exact Hk|].
    split; [intros id x Hx Hk; destruct (C3 id x Hx); exists None; exact Hk|]. intros _. exact C2.
  - assert (U : forall id y o, nth_error catalog id = Some y -> mf_kind (e_manifest y) = KHooks o -> y = x /\ o = f).
    { intros id y o Hy Hk. assert (I : id = pc_id pc) by (apply (C7 id y Hy); exists o; exact Hk). subst id.
      rewrite C3 in Hy. injection Hy as <-. rewrite C4 in Hk. injection Hk as <-. split; reflexivity. }
    split; [|split].
    + intros id y f' Hy Hk. destruct (U _ _ _ Hy Hk) as [-> <-]. exact C5.
    + intros id y Hy Hk. destruct (U _ _ _ Hy Hk) as [-> <-]. exact C5.
    + intros H. destruct (H _ _ C3). exists f. exact C4.
Qed.

(** What guests are told of the filter. *)
Lemma skip_spec : forall d works config catalog g,
  NoDup (map fst config) -> create_catalog d config = ROk catalog ->
  gateway_new works catalog config = Some (Started g) ->
  can_skip_events catalog = match g_filter g with
                            | Some FAll => false
                            | Some (FTypes l) => existsb (event_eqb EExtension) l
                            | None => true
                            end.
Proof.
  intros d works config catalog g ND E G. destruct (gateway_pools _ _ _ _ _ ND E G) as (_ & _ & C & _).
  unfold can_skip_events. destruct C as [(C1 & C2 & C3)|(pc & x & f & C1 & C2 & C3 & C4 & C5 & C6 & C7)].
  - rewrite C2. apply forallb_forall. intros x Hx. apply In_nth_error in Hx. destruct Hx as [id Hx].
    destruct (mf_kind (e_manifest x)) eqn:K; [reflexivity| |reflexivity]. destruct (C3 id x Hx). exists f. exact K.
  - rewrite C5.
    set (b := match or f (mf_legacy_filter (e_manifest x)) with
              | Some FAll => false | Some (FTypes l) => existsb (event_eqb EExtension) l | None => true end).
    destruct b eqn:B.
    + apply forallb_forall. intros y Hy. apply In_nth_error in Hy. destruct Hy as [id Hy].
      destruct (mf_kind (e_manifest y)) as [|f'|] eqn:K; [reflexivity| |reflexivity].
      assert (I : id = pc_id pc) by (apply (C7 id y Hy); exists f'; exact K). subst id.
      rewrite C3 in Hy. injection Hy as <-. rewrite C4 in K. injection K as <-. exact B.
    + apply not_true_iff_false. intros H. rewrite forallb_forall in H.
      specialize (H x (nth_error_In _ _ C3)). cbv beta in H. rewrite C4 in H. fold b in H. congruence.
Qed.

(** The queue, from its front. *)
Definition pushed (f : option event_filter) (skip : bool) (h : happening) : list event := push f skip [] h.

Lemma push_app : forall f skip q h, push f skip q h = q ++ pushed f skip h.
Proof.
  intros f skip q h. unfold pushed, push. destruct h as [ty data|data].
  - destruct (must_keep f ty); [reflexivity|rewrite app_nil_r; reflexivity].
  - destruct skip; [rewrite app_nil_r; reflexivity|]. destruct (must_keep f EExtension); [|rewrite app_nil_r; reflexivity].
    destruct data; [reflexivity|rewrite app_nil_r; reflexivity].
Qed.

Lemma fold_push : forall f skip l q, fold_left (push f skip) l q = q ++ flat_map (pushed f skip) l.
Proof.
  intros f skip. induction l as [|h l IH]; intros q; cbn [fold_left flat_map]; [rewrite app_nil_r; reflexivity|].
  rewrite IH, push_app, <- app_assoc. reflexivity.
Qed.

Lemma queue_flat : forall g catalog l, queue g catalog l = flat_map (pushed (g_filter g) (can_skip_events catalog)) l.
Proof. intros g catalog l. unfold queue. rewrite fold_push. reflexivity. Qed.

Lemma seen_flat : forall f skip l,
  (forall h, In h l -> OfHost h) \/ (skip = false \/ ~ Wants f EExtension) -> Seen f l (flat_map (pushed f skip) l).
Proof.
  intros f skip. induction l as [|h l IH]; intros H; cbn [flat_map]; [constructor|].
  assert (R : Seen f l (flat_map (pushed f skip) l)).
  { apply IH. destruct H as [H|H]; [left; intros h' H'; apply H; right; exact H'|right; exact H]. }
  unfold pushed at 1, push. destruct h as [ty data|data].
  - destruct (must_keep f ty) eqn:K; cbn [app].
    + apply seen_host; [apply must_keep_spec, K|exact R].
    + apply seen_host_not; [|exact R]. intros W. apply must_keep_spec in W. congruence.
  - destruct H as [H|H]; [destruct (H _ (or_introl eq_refl)) as (ty & da & E & _); discriminate|].
    destruct (must_keep f EExtension) eqn:K.
    + pose proof K as W. apply must_keep_spec in W. destruct H as [->|H]; [|contradiction].
      destruct data as [data|]; cbn [app]; [apply seen_guest; assumption|apply seen_broken; exact R].
    + assert (Q : (if skip then [] else @nil event) = []) by (destruct skip; reflexivity). rewrite Q. cbn [app].
      apply seen_guest_not; [|exact R]. intros W. apply must_keep_spec in W. congruence.
Qed.

(** Of the events of the gateway itself, it gets exactly those it asked for, in order. *)
Theorem C122_host_events : forall d works config catalog g l,
  NoDup (map fst config) -> create_catalog d config = ROk catalog ->
  gateway_new works catalog config = Some (Started g) ->
  (forall h, In h l -> OfHost h) -> Seen (g_filter g) l (queue g catalog l).
Proof. intros d works config catalog g l _ _ _ H. rewrite queue_flat. apply seen_flat. left. exact H. Qed.

(** Those of extensions as well, when it asks for everything or not for them. Missing from the property: a filter that
    names them, see below. *)
Theorem C122_events_partial : forall d works config catalog g l,
  NoDup (map fst config) -> create_catalog d config = ROk catalog ->
  gateway_new works catalog config = Some (Started g) ->
  g_filter g = Some FAll \/ ~ Wants (g_filter g) EExtension -> Seen (g_filter g) l (queue g catalog l).
Proof.
  intros d works config catalog g l ND E G H. rewrite queue_flat. apply seen_flat. right.
  destruct H as [H|H]; [left|right; exact H]. rewrite (skip_spec _ _ _ _ _ ND E G), H. reflexivity.
Qed.

(** A hooks extension with a list of types never gets an event of an extension, whatever is in the list. *)
Theorem C122_never : forall d works config catalog g types l e,
  NoDup (map fst config) -> create_catalog d config = ROk catalog ->
  gateway_new works catalog config = Some (Started g) ->
  g_filter g = Some (FTypes types) -> (forall ty data, In (Host ty data) l -> ty <> EExtension) ->
  In e (queue g catalog l) -> ev_type e <> EExtension.
Proof.
  intros d works config catalog g types l e ND E G F H I. rewrite queue_flat in I. apply in_flat_map in I.
  destruct I as (h & Hh & I). unfold pushed, push in I. destruct h as [ty data|data].
  - destruct (must_keep (g_filter g) ty); [|destruct I]. destruct I as [<-|[]]. cbn [ev_type]. apply (H ty data Hh).
  - rewrite (skip_spec _ _ _ _ _ ND E G), F in I. cbn [must_keep] in I.
    destruct (existsb (event_eqb EExtension) types); destruct I.
Qed.

(** The queue is consumed from the front: what happens later is behind what happened before. *)
Theorem C122_order : forall g catalog a b, exists q, queue g catalog (a ++ b) = queue g catalog a ++ q.
Proof. intros g catalog a b. rewrite !queue_flat, flat_map_app. eexists. reflexivity. Qed.
