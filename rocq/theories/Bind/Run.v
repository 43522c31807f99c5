(** The runs of the binder as a relation, to argue by induction over them *)
From Coq Require Import String List Bool Arith Lia.
From Verif.Bind Require Import Model Spec.
Import ListNotations.
Local Open Scope string_scope.
Local Open Scope nat_scope.
Local Open Scope list_scope.

Section SelInd.
Variable P : selection -> Prop.
Hypothesis Hf : forall a n args dirs l, Forall P l -> P (Field a n args dirs l).
Hypothesis Hs : forall n dirs, P (Spread n dirs).
Hypothesis Hi : forall c dirs l, Forall P l -> P (Inline c dirs l).
Fixpoint selection_rect' (x : selection) : P x :=
  let all := fix all (l : list selection) : Forall P l := match l with [] => Forall_nil _ | x :: l => Forall_cons _ (selection_rect' x) (all l) end in
  match x with
  | Field a n args dirs l => Hf a n args dirs l (all l)
  | Spread n dirs => Hs n dirs
  | Inline c dirs l => Hi c dirs l (all l)
  end.
End SelInd.

Section Run.
Variable S : schema.
Variable D : document.

Definition set_of (s : state) (ids : list selid) : nat * nat := (List.length (st_shared s), List.length (st_shared s) + List.length ids).
Definition key (alias : option name) (n : name) : name := match alias with Some a => a | None => n end.
Definition visible (p : tid) (n : name) : option fid :=
  match find_field S p n with Some f => if s_field_inaccessible S f then None else Some f | None => None end.

Inductive run : tid -> selection -> state -> state -> option selid -> Prop :=
| run_typename p alias args dirs l s es ds :
    bind_dirs S dirs = (es, ds) ->
    run p (Field alias "__typename" args dirs l) s
        (push_typename {| tf_key := key alias "__typename"; tf_dirs := ds |} (push_errors es s)) (Some (IdTypename (List.length (st_typenames (push_errors es s)))))
| run_union p alias n args dirs l s :
    n <> "__typename" -> s_kind S p = KUnion -> run p (Field alias n args dirs l) s (push_error (UnionHaveNoFields p n) s) None
| run_unknown p alias n args dirs l s :
    n <> "__typename" -> s_kind S p <> KUnion -> visible p n = None -> run p (Field alias n args dirs l) s (push_error (UnknownField p n) s) None
| run_empty p alias n args dirs l s s' f :
    n <> "__typename" -> s_kind S p <> KUnion -> visible p n = Some f -> composite (s_kind S (s_field_type S f)) = true ->
    run_list (s_field_type S f) l s s' [] -> List.length (st_errors s) = List.length (st_errors s') ->
    run p (Field alias n args dirs l) s (push_error (LeafMustBeAScalarOrEnum f) (push_shared [] s')) None
| run_composite p alias n args dirs l s s' f ids es avs es' ds :
    n <> "__typename" -> s_kind S p <> KUnion -> visible p n = Some f -> composite (s_kind S (s_field_type S f)) = true ->
    run_list (s_field_type S f) l s s' ids -> (ids <> [] \/ List.length (st_errors s) <> List.length (st_errors s')) ->
    bind_args S f (s_args S f) args = (es, avs) -> bind_dirs S dirs = (es', ds) ->
    run p (Field alias n args dirs l) s
        (push_data {| df_def := f; df_key := key alias n; df_args := avs; df_dirs := ds; df_set := set_of s' ids |} (push_errors es' (push_errors es (push_shared ids s'))))
        (Some (IdField (List.length (st_data (push_errors es' (push_errors es (push_shared ids s')))))))
| run_leaf p alias n args dirs s f es avs es' ds :
    n <> "__typename" -> s_kind S p <> KUnion -> visible p n = Some f -> composite (s_kind S (s_field_type S f)) = false ->
    bind_args S f (s_args S f) args = (es, avs) -> bind_dirs S dirs = (es', ds) ->
    run p (Field alias n args dirs []) s
        (push_data {| df_def := f; df_key := key alias n; df_args := avs; df_dirs := ds; df_set := (0, 0) |} (push_errors es' (push_errors es s)))
        (Some (IdField (List.length (st_data (push_errors es' (push_errors es s))))))
| run_set p alias n args dirs l s f :
    n <> "__typename" -> s_kind S p <> KUnion -> visible p n = Some f -> composite (s_kind S (s_field_type S f)) = false -> l <> [] ->
    run p (Field alias n args dirs l) s (push_error (CannotHaveSelectionSet f) s) None
| run_inline p dirs l s s' ids es ds :
    run_list p l s s' ids -> bind_dirs S dirs = (es, ds) ->
    run p (Inline None dirs l) s (push_inline {| in_cond := None; in_dirs := ds; in_set := set_of s' ids |} (push_errors es (push_shared ids s')))
        (Some (IdInline (List.length (st_inlines (push_errors es (push_shared ids s'))))))
| run_inline_err p n dirs l s e : bind_type_condition S p n = inl e -> run p (Inline (Some n) dirs l) s (push_error e s) None
| run_inline_on p n t dirs l s s' ids es ds :
    bind_type_condition S p n = inr t -> run_list t l s s' ids -> bind_dirs S dirs = (es, ds) ->
    run p (Inline (Some n) dirs l) s (push_inline {| in_cond := Some t; in_dirs := ds; in_set := set_of s' ids |} (push_errors es (push_shared ids s')))
        (Some (IdInline (List.length (st_inlines (push_errors es (push_shared ids s'))))))
| run_spread p n dirs s s' id es ds :
    run_frag p n s s' (inr id) -> bind_dirs S dirs = (es, ds) ->
    run p (Spread n dirs) s (push_spread {| sp_frag := id; sp_dirs := ds |} (push_errors es s')) (Some (IdSpread (List.length (st_spreads (push_errors es s')))))
| run_spread_err p n dirs s s' e : run_frag p n s s' (inl e) -> run p (Spread n dirs) s (push_error e s') None
with run_list : tid -> list selection -> state -> state -> list selid -> Prop :=
| run_nil p s : run_list p [] s s []
| run_some p x l s s' s'' id ids : run p x s s' (Some id) -> run_list p l s' s'' ids -> run_list p (x :: l) s s'' (id :: ids)
| run_none p x l s s' s'' ids : run p x s s' None -> run_list p l s' s'' ids -> run_list p (x :: l) s s'' ids
with run_frag : tid -> name -> state -> state -> err + nat -> Prop :=
| run_known p n s m id fr :
    find (fun e => String.eqb (fst e) n) (st_map s) = Some (m, id) -> nth_error (st_frags s) id = Some fr -> s_intersects S p (fr_cond fr) = true ->
    run_frag p n s s (inr id)
| run_known_err p n s m id fr :
    find (fun e => String.eqb (fst e) n) (st_map s) = Some (m, id) -> nth_error (st_frags s) id = Some fr -> s_intersects S p (fr_cond fr) = false ->
    run_frag p n s s (inl (DisjointTypeCondition p (s_tname S (fr_cond fr))))
| run_dangling p n s m id : find (fun e => String.eqb (fst e) n) (st_map s) = Some (m, id) -> nth_error (st_frags s) id = None -> run_frag p n s s (inr id)
| run_diverged p n s e : find (fun e => String.eqb (fst e) n) (st_map s) = None -> run_frag p n s (diverge s) (inl e)
| run_no_frag p n s : find (fun e => String.eqb (fst e) n) (st_map s) = None -> find_fragment D n = None -> run_frag p n s s (inl (UnknownFragment n))
| run_frag_err p n s c l e :
    find (fun e => String.eqb (fst e) n) (st_map s) = None -> find_fragment D n = Some (c, l) -> bind_type_condition S p c = inl e -> run_frag p n s s (inl e)
| run_frag_new p n s s' c l t ids :
    find (fun e => String.eqb (fst e) n) (st_map s) = None -> find_fragment D n = Some (c, l) -> bind_type_condition S p c = inr t -> run_list t l s s' ids ->
    run_frag p n s (push_frag n {| fr_cond := t; fr_set := set_of s' ids |} (push_shared ids s')) (inr (List.length (st_frags (push_shared ids s')))).

Scheme run_min := Minimality for run Sort Prop
  with run_list_min := Minimality for run_list Sort Prop
  with run_frag_min := Minimality for run_frag Sort Prop.
Combined Scheme run_mutind from run_min, run_list_min, run_frag_min.

(** ** The function runs *)
Section Fun.
Variable bf : tid -> name -> state -> state * (err + nat).
Hypothesis Hbf : forall p n s, find (fun e => String.eqb (fst e) n) (st_map s) = None -> run_frag p n s (fst (bf p n s)) (snd (bf p n s)).

Lemma bind_selection_eq p x s : bind_selection S bf p x s =
  match x with
  | Field alias n args dirs sels =>
      let key := match alias with Some a => a | None => n end in
      if String.eqb n "__typename" then
        let '(es, ds) := bind_dirs S dirs in
        let s := push_errors es s in
        (push_typename {| tf_key := key; tf_dirs := ds |} s, Some (IdTypename (List.length (st_typenames s))))
      else
        match s_kind S p with
        | KUnion => (push_error (UnionHaveNoFields p n) s, None)
        | _ =>
            match visible p n with
            | None => (push_error (UnknownField p n) s, None)
            | Some f =>
                let finish (s : state) (set : nat * nat) :=
                  let '(es, bound) := bind_args S f (s_args S f) args in
                  let s := push_errors es s in
                  let '(es, ds) := bind_dirs S dirs in
                  let s := push_errors es s in
                  (push_data {| df_def := f; df_key := key; df_args := bound; df_dirs := ds; df_set := set |} s, Some (IdField (List.length (st_data s)))) in
                if composite (s_kind S (s_field_type S f)) then
                  let '(s', set) := bind_set S bf (s_field_type S f) sels s in
                  if (fst set =? snd set) && (List.length (st_errors s) =? List.length (st_errors s')) then
                    (push_error (LeafMustBeAScalarOrEnum f) s', None)
                  else finish s' set
                else match sels with
                     | [] => finish s (0, 0)
                     | _ => (push_error (CannotHaveSelectionSet f) s, None)
                     end
            end
        end
  | Inline cond dirs sels =>
      let finish (t : tid) (c : option tid) :=
        let '(s, set) := bind_set S bf t sels s in
        let '(es, ds) := bind_dirs S dirs in
        let s := push_errors es s in
        (push_inline {| in_cond := c; in_dirs := ds; in_set := set |} s, Some (IdInline (List.length (st_inlines s)))) in
      match cond with
      | None => finish p None
      | Some n => match bind_type_condition S p n with
                  | inl e => (push_error e s, None)
                  | inr t => finish t (Some t)
                  end
      end
  | Spread n dirs =>
      let '(s, r) :=
        match find (fun e => String.eqb (fst e) n) (st_map s) with
        | Some (_, id) =>
            (s, match nth_error (st_frags s) id with
                | Some fr => if s_intersects S p (fr_cond fr) then inr id else inl (DisjointTypeCondition p (s_tname S (fr_cond fr)))
                | None => inr id
                end)
        | None => bf p n s
        end in
      match r with
      | inl e => (push_error e s, None)
      | inr id =>
          let '(es, ds) := bind_dirs S dirs in
          let s := push_errors es s in
          (push_spread {| sp_frag := id; sp_dirs := ds |} s, Some (IdSpread (List.length (st_spreads s))))
      end
  end.
Proof. destruct x; reflexivity. Qed.

Lemma bind_runs x : forall p s, run p x s (fst (bind_selection S bf p x s)) (snd (bind_selection S bf p x s)).
Proof.
  induction x as [a n args dirs l IH | n dirs | c dirs l IH] using selection_rect'.
  - assert (HL : forall p s, run_list p l s (fst (bind_list S bf p l s)) (snd (bind_list S bf p l s))).
    { clear -IH. induction IH as [|x l Hx Hl IH]; intros p s; cbn [bind_list]; [constructor|].
      specialize (Hx p s). destruct (bind_selection S bf p x s) as [s1 o]. specialize (IH p s1). destruct (bind_list S bf p l s1) as [s2 ids].
      cbn [fst snd] in *. destruct o; econstructor; eauto. }
    intros p s. rewrite bind_selection_eq. cbv zeta. destruct (String.eqb_spec n "__typename") as [-> | Hn].
    { destruct (bind_dirs S dirs) as [es ds] eqn:E. cbn [fst snd]. apply run_typename; exact E. }
    destruct (s_kind S p) eqn:K.
    3: { cbn [fst snd]. apply run_union; auto. }
    all: assert (K' : s_kind S p <> KUnion) by (rewrite K; discriminate); clear K;
      destruct (visible p n) as [f|] eqn:V; [|cbn [fst snd]; apply run_unknown; auto];
      destruct (composite (s_kind S (s_field_type S f))) eqn:C;
      [ specialize (HL (s_field_type S f) s); unfold bind_set; destruct (bind_list S bf (s_field_type S f) l s) as [s1 ids]; cbn [fst snd] in *;
        change (st_errors (push_shared ids s1)) with (st_errors s1);
        destruct (Nat.eqb_spec (List.length (st_shared s1)) (List.length (st_shared s1) + List.length ids)) as [E1|E1];
        [ assert (ids = []) by (destruct ids; cbn in E1; [reflexivity|lia]); subst ids;
          destruct (Nat.eqb_spec (List.length (st_errors s)) (List.length (st_errors s1))) as [E2|E2]; cbn [andb];
          [ cbn [fst snd]; eapply run_empty; eauto |]
        | cbn [andb] ];
        destruct (bind_args S f (s_args S f) args) as [es avs] eqn:A; destruct (bind_dirs S dirs) as [es' ds] eqn:E; cbn [fst snd];
        eapply run_composite; eauto; left; intros ->; cbn in E1; lia
      | destruct l as [|y l];
        [ destruct (bind_args S f (s_args S f) args) as [es avs] eqn:A; destruct (bind_dirs S dirs) as [es' ds] eqn:E; cbn [fst snd]; eapply run_leaf; eauto
        | cbn [fst snd]; eapply run_set; eauto; discriminate ] ].
  - intros p s. rewrite bind_selection_eq.
    destruct (find (fun e => String.eqb (fst e) n) (st_map s)) as [[m id]|] eqn:E.
    + destruct (nth_error (st_frags s) id) as [fr|] eqn:F.
      * destruct (s_intersects S p (fr_cond fr)) eqn:I.
        -- destruct (bind_dirs S dirs) as [es ds] eqn:Ed. cbn [fst snd]. eapply run_spread; eauto. eapply run_known; eauto.
        -- cbn [fst snd]. eapply run_spread_err; eauto. eapply run_known_err; eauto.
      * destruct (bind_dirs S dirs) as [es ds] eqn:Ed. cbn [fst snd]. eapply run_spread; eauto. eapply run_dangling; eauto.
    + specialize (Hbf p n s E). destruct (bf p n s) as [s1 r]. cbn [fst snd] in *. destruct r as [e|id].
      * cbn [fst snd]. eapply run_spread_err; eauto.
      * destruct (bind_dirs S dirs) as [es ds] eqn:Ed. cbn [fst snd]. eapply run_spread; eauto.
  - assert (HL : forall p s, run_list p l s (fst (bind_list S bf p l s)) (snd (bind_list S bf p l s))).
    { clear -IH. induction IH as [|x l Hx Hl IH]; intros p s; cbn [bind_list]; [constructor|].
      specialize (Hx p s). destruct (bind_selection S bf p x s) as [s1 o]. specialize (IH p s1). destruct (bind_list S bf p l s1) as [s2 ids].
      cbn [fst snd] in *. destruct o; econstructor; eauto. }
    intros p s. rewrite bind_selection_eq. cbv zeta. destruct c as [n|].
    + destruct (bind_type_condition S p n) as [e|t] eqn:T; [cbn [fst snd]; apply run_inline_err; auto|].
      specialize (HL t s). unfold bind_set. destruct (bind_list S bf t l s) as [s1 ids]. cbn [fst snd] in *.
      destruct (bind_dirs S dirs) as [es ds] eqn:Ed. cbn [fst snd]. eapply run_inline_on; eauto.
    + specialize (HL p s). unfold bind_set. destruct (bind_list S bf p l s) as [s1 ids]. cbn [fst snd] in *.
      destruct (bind_dirs S dirs) as [es ds] eqn:Ed. cbn [fst snd]. eapply run_inline; eauto.
Qed.
Lemma bind_list_runs l : forall p s, run_list p l s (fst (bind_list S bf p l s)) (snd (bind_list S bf p l s)).
Proof.
  induction l as [|x l IH]; intros p s; cbn [bind_list]; [constructor|].
  pose proof (bind_runs x p s) as Hx. destruct (bind_selection S bf p x s) as [s1 o]. specialize (IH p s1). destruct (bind_list S bf p l s1) as [s2 ids].
  cbn [fst snd] in *. destruct o; econstructor; eauto.
Qed.
End Fun.

Lemma bind_fragment_runs fuel : forall p n s, find (fun e => String.eqb (fst e) n) (st_map s) = None ->
  run_frag p n s (fst (bind_fragment S D fuel p n s)) (snd (bind_fragment S D fuel p n s)).
Proof.
  induction fuel as [|fuel IH]; intros p n s Hn; cbn [bind_fragment]; [apply run_diverged; auto|].
  destruct (find_fragment D n) as [[c l]|] eqn:F; [|apply run_no_frag; auto].
  destruct (bind_type_condition S p c) as [e|t] eqn:T; [eapply run_frag_err; eauto|].
  unfold bind_set. pose proof (bind_list_runs (bind_fragment S D fuel) IH l t s) as HL.
  destruct (bind_list S (bind_fragment S D fuel) t l s) as [s1 ids]. cbn [fst snd] in *. eapply run_frag_new; eauto.
Qed.
(** The whole operation *)
Lemma bind_root_runs fuel root sels :
  exists s ids, run_list root sels init s ids /\ bind_root S D fuel root sels = (push_shared ids s, set_of s ids).
Proof.
  unfold bind_root, bind_set. pose proof (bind_list_runs (bind_fragment S D fuel) (bind_fragment_runs fuel) sels root init) as HL.
  destruct (bind_list S (bind_fragment S D fuel) root sels init) as [s ids]. exists s, ids. split; [exact HL|reflexivity].
Qed.
End Run.
