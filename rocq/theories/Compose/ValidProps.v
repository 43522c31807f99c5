(* C60: what makes the composed schema a valid one, and what is missing. *)
From Coq Require Import String List Bool Arith ZArith Lia Permutation.
From Verif.SchemaDiff Require Import Search.
From Verif.Compose Require Import Model Spec Facts SchemaFacts GroupFacts KindFacts LookupFacts Decide CoverProps EmitProps.
Import ListNotations.
Local Open Scope string_scope.
Local Open Scope list_scope.

(* The types that a definition mentions: of its fields, of their arguments and
   of input fields. *)
Definition output_types (d : sdef) : list name :=
  match d with DObject fs _ | DInterface fs _ => map (fun f => base (of_type f)) fs | _ => nil end.
Definition input_types (d : sdef) : list name :=
  match d with
  | DObject fs _ | DInterface fs _ => flat_map (fun f => map (fun i => base (oi_type i)) (of_args f)) fs
  | DInput _ fs => map (fun i => base (oi_type i)) fs
  | _ => nil
  end.
Definition interfaces_of (d : sdef) : list name := match d with DObject _ is | DInterface _ is => is | _ => nil end.

Lemma known_lookup : forall gs s t, compose gs = Composed s -> known (composed_items gs) t = true -> lookup s (base t) <> None.
Proof.
  intros gs s t C K. destruct (lookup_inserted gs s (base t) C) as (-> & _). unfold known in K.
  destruct (inserted (composed_items gs) (base t)) as [i|] eqn:E; [|discriminate]. apply inserted_in in E. destruct E as (_ & N).
  destruct i; cbn in *; try discriminate.
Qed.

Lemma emitted : forall gs s i, compose gs = Composed s -> In i (composed_items gs) ->
  match i with
  | IInput _ fs _ => forall x, In x fs -> lookup s (base (oi_type x)) <> None
  | IField _ f => lookup s (base (of_type f)) <> None /\ forall x, In x (of_args f) -> lookup s (base (oi_type x)) <> None
  | _ => True
  end.
Proof.
  intros gs s i C I. pose proof (proj1 (proj2 (composed_inv gs s C))) as M. unfold emits in M.
  apply andb_true_iff in M. destruct M as (M & _). rewrite forallb_forall in M. specialize (M i I).
  destruct i; auto.
  - intros x X. rewrite forallb_forall in M. apply (known_lookup gs s _ C). apply M. exact X.
  - apply andb_true_iff in M. destruct M as (M & _). apply andb_true_iff in M. destruct M as (M1 & M2).
    split; [apply (known_lookup gs s _ C M1)|]. intros x X. rewrite forallb_forall in M2. apply (known_lookup gs s _ C). apply M2. exact X.
Qed.

Lemma fields_named_in : forall items n f, In f (fields_named items n) -> In (IField n f) items.
Proof.
  intros items n f I. unfold fields_named in I. apply sort_in in I. apply in_flat_map in I. destruct I as (i & I & J).
  destruct i; try contradiction. destruct (String.eqb parent n) eqn:E; [|contradiction]. apply String.eqb_eq in E. subst parent.
  destruct J as [<-|[]]. exact I.
Qed.

(* C60 *)
Theorem C60_closed : forall gs s n x ds, compose gs = Composed s -> In (n, (x, ds)) (s_defs s) ->
  (forall t, In t (output_types x ++ input_types x) -> lookup s t <> None) /\
  (forall i, In i (interfaces_of x) -> exists fs is, lookup s i = Some (DInterface fs is)) /\
  (forall ms m, x = DUnion ms -> In m ms -> exists fs is, lookup s m = Some (DObject fs is)).
Proof.
  intros gs s n x ds C I. pose proof (proj2 (proj2 (composed_inv gs s C))) as E. rewrite E in I. apply in_flat_map in I.
  destruct I as (i & I & J).
  assert (F : forall m f, In f (fields_named (composed_items gs) m) ->
            lookup s (base (of_type f)) <> None /\ forall y, In y (of_args f) -> lookup s (base (oi_type y)) <> None).
  { intros m f K. apply fields_named_in in K. apply (emitted gs s _ C K). }
  assert (IM : forall m j, In j (implements_named gs (composed_items gs) m) -> exists fs is, lookup s j = Some (DInterface fs is)).
  { intros m j K. unfold implements_named in K. apply filter_In in K. destruct K as (_ & K).
    destruct (lookup_inserted gs s j C) as (-> & _). destruct (inserted (composed_items gs) j) as [[]|]; try discriminate.
    cbn. eexists. eexists. reflexivity. }
  assert (FT : forall m t, In t (map (fun f => base (of_type f)) (fields_named (composed_items gs) m) ++
                  flat_map (fun f => map (fun i => base (oi_type i)) (of_args f)) (fields_named (composed_items gs) m)) -> lookup s t <> None).
  { intros m t K. apply in_app_iff in K. destruct K as [K|K].
    - apply in_map_iff in K. destruct K as (f & <- & K). apply (F m f K).
    - apply in_flat_map in K. destruct K as (f & K & T). apply in_map_iff in T. destruct T as (y & <- & T). apply (F m f K). exact T. }
  destruct i as [m d|m vs d|m fs d|m d|m d|m d|u m|p f]; cbn [emit_def] in J; try contradiction;
    destruct J as [J|[]]; injection J as <- <- <-; cbn [output_types input_types interfaces_of List.app].
  - split; [intros t []|]. split; [intros j []|discriminate].
  - split; [intros t []|]. split; [intros j []|discriminate].
  - split; [|split; [intros j []|discriminate]]. intros t T. apply in_map_iff in T. destruct T as (y & <- & T).
    apply (emitted gs s _ C I). exact T.
  - split; [apply FT|]. split; [apply IM|discriminate].
  - split; [apply FT|]. split; [apply IM|discriminate].
  - split; [intros t []|]. split; [intros j []|]. intros ms k X K. injection X as <-. apply filter_In in K. destruct K as (_ & K).
    destruct (lookup_inserted gs s k C) as (-> & _). destruct (inserted (composed_items gs) k) as [[]|]; try discriminate.
    cbn. eexists. eexists. reflexivity.
Qed.

(* What implements an interface has its fields. *)
Theorem C60_interfaces_partial : forall gs s n fs is i f, sound_input gs -> compose gs = Composed s ->
  lookup s n = Some (DObject fs is) \/ lookup s n = Some (DInterface fs is) -> In i is ->
  forall ifs iis, lookup s i = Some (DInterface ifs iis) -> In f (map of_name ifs) -> In f (map of_name fs).
Proof.
  intros gs s n fs is i f SI C L I ifs iis LI F.
  destruct (C57_fields_partial gs s SI C n fs is L) as (_ & FS & _ & IS).
  apply IS in I. destruct I as (g & G & I). apply FS.
  destruct (lookup_fields gs s SI C i ifs iis (or_intror LI)) as (v & V & K & P & _ & _).
  assert (K' : d_kind (v_def v) = KInterface) by (rewrite <- (lookup_kind gs s SI C i v _ V LI); reflexivity).
  destruct (name_items_spec gs (si_wf gs SI) (si_kinds gs SI) (si_interfaces gs SI) (proj1 (composed_inv gs s C)) i v V)
    as (_ & _ & _ & _ & _ & _ & CI). specialize (CI K').
  unfold check_implementers in CI.
  assert (N : In n (implementers gs i)).
  { unfold implementers. apply distinct_in; [apply String.eqb_eq|]. apply in_map_iff. exists (i, n). split; [reflexivity|].
    apply filter_In. cbn [fst]. rewrite String.eqb_refl. split; [|reflexivity]. apply in_flat_map. eauto. }
  pose proof (proj1 (flat_map_nil _ _ _ _) CI n N) as X. cbv beta in X.
  assert (F' : In f (map of_name (snd (compose_fields (all_named gs i))))).
  { apply (Permutation_in _ (Permutation_map of_name (Permutation_sym P))). exact F. }
  pose proof (proj1 (flat_map_nil _ _ _ _) X f F') as Y. cbv beta in Y.
  destruct (defined_field gs n f) eqn:D; [|discriminate]. unfold defined_field in D. apply existsb_exists in D.
  destruct D as (h & H & D). destruct (definition_by_name h n) as [d|] eqn:DN; [|discriminate].
  apply definition_by_name_some in DN. destruct DN as (DI & DN).
  exists d. split; [exists h; auto|]. apply field_by_name_in. destruct (field_by_name d f); [discriminate|discriminate].
Qed.

(* Positions: input takes scalars, enums and input objects; output anything
   but input objects. *)
Definition input_kind (k : kind) : Prop := k = KScalar \/ k = KEnum \/ k = KInputObject.
Definition output_kind (k : kind) : Prop := k <> KInputObject.
Definition of_kind (g : subgraph) (n : name) (P : kind -> Prop) : Prop := forall k, has_kind g n k -> P k.
Definition positions (g : subgraph) : Prop :=
  forall d f, In d (g_defs g) -> In f (d_fields d) ->
    (d_kind d = KInputObject -> of_kind g (base (f_type f)) input_kind) /\
    (d_kind d <> KInputObject -> of_kind g (base (f_type f)) output_kind) /\
    (forall a, In a (f_args f) -> of_kind g (base (a_type a)) input_kind).

Lemma composed_kind : forall gs s g n (P : kind -> Prop), sound_input gs -> compose gs = Composed s -> P KScalar ->
  In g gs -> defined g n -> of_kind g n P -> forall y, lookup s n = Some y -> P (kind_of y).
Proof.
  intros gs s g n P SI C PS G D K y L. destruct (in_dec string_dec n (map d_name (g_defs g))) as [I|NI].
  - apply in_map_iff in I. destruct I as (d & N & I).
    rewrite (proj2 (C57_types_partial gs s SI C) n d y); [|exists g; auto|exact L]. apply K. exists d. auto.
  - destruct D as [D|D]; [contradiction|]. destruct (lookup_some gs s SI C n y L) as [(v & V)|(_ & ->)]; [|exact PS].
    rewrite (lookup_kind gs s SI C n v y V L). apply (view_in gs (si_wf gs SI)) in V. destruct V as (VG & VD & VN).
    rewrite (proj2 (si_kinds gs SI) (v_graph v) (v_def v) VG VD); [exact PS|]. rewrite VN. exact D.
Qed.

Theorem C60_positions_partial : forall gs s n x, sound_input gs -> (forall g, In g gs -> positions g) ->
  compose gs = Composed s -> lookup s n = Some x ->
  (forall t y, In t (output_types x) -> lookup s t = Some y -> output_kind (kind_of y)) /\
  (forall t y, In t (input_types x) -> lookup s t = Some y -> input_kind (kind_of y)).
Proof.
  intros gs s n x SI PO C L. pose proof (si_wf gs SI) as WF.
  assert (FL : forall fs is, lookup s n = Some (DObject fs is) \/ lookup s n = Some (DInterface fs is) -> forall f, In f fs ->
    (forall y, lookup s (base (of_type f)) = Some y -> output_kind (kind_of y)) /\
    (forall i y, In i (of_args f) -> lookup s (base (oi_type i)) = Some y -> input_kind (kind_of y))).
  { intros fs is L' f F. destruct (lookup_fields gs s SI C n fs is L') as (v & V & K & P & FD & _).
    apply (Permutation_in _ (Permutation_sym P)) in F. destruct (compose_fields_spec _ FD) as (_ & B & _).
    destruct (B f F) as (CF & _). destruct (compose_field_args _ _ CF) as (AD & AE & TE & _).
    assert (NK : forall z, In z (all_fields (all_named gs n)) -> In (v_graph (v_parent z)) gs /\
      In (v_def (v_parent z)) (g_defs (v_graph (v_parent z))) /\ In (v_field z) (d_fields (v_def (v_parent z))) /\
      d_kind (v_def (v_parent z)) <> KInputObject).
    { intros z Z. destruct (view_fields gs SI n z Z) as (G & D & Z'). split; [exact G|]. split; [exact D|]. split; [exact Z'|].
      apply all_fields_in in Z. destruct Z as (Z & _). rewrite (one_kind gs WF (si_kinds gs SI) n _ v Z V).
      destruct K as [K|K]; rewrite K; discriminate. }
    split.
    - intros y LY. apply (field_types_base compose_for_output (or_intror eq_refl)) in TE. destruct TE as (z & Z & E).
      apply sel_in in Z. destruct Z as (Z & _). destruct (NK z Z) as (G & D & FF & NI). rewrite E in LY.
      apply (composed_kind gs s (v_graph (v_parent z)) (base (f_type (v_field z))) output_kind SI C); [discriminate|exact G| | |exact LY].
      + apply (wf_types _ (WF _ G) _ _ D FF).
      + apply (PO _ G _ _ D FF). exact NI.
    - intros i y I LY. rewrite AE in I.
      destruct (sel vf_name (all_fields (all_named gs n)) (of_name f)) as [|y0 r0] eqn:SL; [contradiction|].
      assert (NE : y0 :: r0 <> nil) by discriminate.
      destruct (merge_field_arguments_spec _ NE AD) as (M1 & _). destruct (M1 i I) as (_ & (z & r & SE & T) & _).
      apply fold_arg_base in T.
      assert (Z : In z (all_args (y0 :: r0))).
      { assert (Z : In z (sel va_name (all_args (y0 :: r0)) (oi_name i))) by (rewrite SE; left; reflexivity).
        apply sel_in in Z. apply Z. }
      apply all_args_in in Z. destruct Z as (ZF & ZA). rewrite <- SL in ZF. apply sel_in in ZF. destruct ZF as (ZF & _).
      destruct (NK _ ZF) as (G & D & FF & _). rewrite T in LY.
      apply (composed_kind gs s _ (base (a_type (v_arg z))) input_kind SI C (or_introl eq_refl) G); [| |exact LY].
      + apply (wf_types _ (WF _ G) _ _ D FF). exact ZA.
      + apply (PO _ G _ _ D FF). exact ZA. }
  assert (IN : forall fs f, (exists is, lookup s n = Some (DObject fs is) \/ lookup s n = Some (DInterface fs is)) ->
     In f (flat_map (fun f => map (fun i => base (oi_type i)) (of_args f)) fs) -> forall y, lookup s f = Some y -> input_kind (kind_of y)).
  { intros fs t (is & L') T y LY. apply in_flat_map in T. destruct T as (f & F & T). apply in_map_iff in T. destruct T as (i & <- & I).
    apply (proj2 (FL fs is L' f F) i y I LY). }
  assert (OUT : forall fs f, (exists is, lookup s n = Some (DObject fs is) \/ lookup s n = Some (DInterface fs is)) ->
     In f (map (fun f => base (of_type f)) fs) -> forall y, lookup s f = Some y -> output_kind (kind_of y)).
  { intros fs t (is & L') T y LY. apply in_map_iff in T. destruct T as (f & <- & F). apply (proj1 (FL fs is L' f F) y LY). }
  destruct x as [|vs|o fs|fs is|fs is|ms]; cbn [output_types input_types]; try (split; intros t y []).
  - split; [intros t y []|]. intros t y T LY. apply in_map_iff in T. destruct T as (i & <- & I).
    destruct (lookup_some gs s SI C n _ L) as [(v & V)|(_ & X)]; [|congruence].
    pose proof (lookup_kind gs s SI C n v _ V L) as K. cbn in K. destruct (lookup_view gs s SI C n v V) as (_ & X).
    destruct (name_items_spec gs WF (si_kinds gs SI) (si_interfaces gs SI) (proj1 (composed_inv gs s C)) n v V) as (_ & _ & _ & _ & _ & ID & _).
    rewrite <- K in X, ID. rewrite L in X. injection X as -> ->.
    assert (NE : all_named gs n <> nil) by (intros E; rewrite E in V; contradiction).
    destruct (input_fields_spec n _ NE ID) as (A & _). destruct (A i I) as (_ & T & _).
    apply (field_types_base compose_for_input (or_introl eq_refl)) in T. destruct T as (z & Z & E).
    apply sel_in in Z. destruct Z as (Z & _). destruct (view_fields gs SI n z Z) as (G & D & FF).
    apply all_fields_in in Z. destruct Z as (Z & _). rewrite E in LY.
    apply (composed_kind gs s (v_graph (v_parent z)) (base (f_type (v_field z))) input_kind SI C (or_introl eq_refl) G); [| |exact LY].
    + apply (wf_types _ (WF _ G) _ _ D FF).
    + apply (PO _ G _ _ D FF). rewrite (one_kind gs WF (si_kinds gs SI) n _ v Z V). auto.
  - split; intros t y T LY; [apply (OUT fs t); eauto|apply (IN fs t); eauto].
  - split; intros t y T LY; [apply (OUT fs t); eauto|apply (IN fs t); eauto].
Qed.

Example C60_example : exists s,
  compose [books_g; shop_g] = Composed s /\ sound_input [books_g; shop_g] /\
  (forall g, In g [books_g; shop_g] -> positions g) /\
  (exists fs, lookup s "Book" = Some (DObject fs ["Item"]) /\ map of_name fs = ["pages"; "price"; "title"]) /\
  (exists fs, lookup s "Item" = Some (DInterface fs nil) /\ map of_name fs = ["title"]).
Proof.
  eexists. split; [vm_compute; reflexivity|]. split; [apply sound_inputb_ok; vm_compute; reflexivity|]. split.
  { intros g G d f D F.
    assert (H : forall n, In n ["Book"; "Pen"; "Any"; "Item"; "Int"; "String"; "Float"; "ID"] -> of_kind g n output_kind).
    { intros n N k (d' & D' & DN & <-). destruct G as [<-|[<-|[]]]; cbn in D'; repeat (destruct D' as [<-|D']); try contradiction;
        cbn; try discriminate; cbn in DN; subst n; cbn in N; intuition discriminate. }
    assert (H' : forall n, In n ["Int"; "ID"] -> of_kind g n input_kind).
    { intros n N k (d' & D' & DN & <-). destruct G as [<-|[<-|[]]]; cbn in D'; repeat (destruct D' as [<-|D']); try contradiction;
        cbn in DN; subst n; cbn in N; intuition discriminate. }
    destruct G as [<-|[<-|[]]]; cbn in D; repeat (destruct D as [<-|D]); try contradiction;
      cbn in F; repeat (destruct F as [<-|F]); try contradiction;
      (split; [intros K; try discriminate K; apply H'; cbn; tauto|]);
      (split; [intros K; try (exfalso; apply K; reflexivity); apply H; cbn; tauto|]);
      intros a A; cbn in A; repeat (destruct A as [<-|A]); try contradiction; apply H'; cbn; tauto. }
  split; eexists; split; vm_compute; reflexivity.
Qed.

(* Types of fields: the field of the implementer is nullable as another
   subgraph says so, that of the interface is not. *)
Theorem C60_field_types_refuted : exists gs s f f' is, sound_input gs /\ same_depths gs /\ compose gs = Composed s /\
  lookup s "I" = Some (DInterface [f] is) /\ lookup s "O" = Some (DObject [f'] ["I"]) /\
  of_name f = of_name f' /\ required (type_of (of_type f)) = true /\ required (type_of (of_type f')) = false.
Proof.
  exists [graph "g" [object "Query" [fld "i" (tnull "I")]; interface "I" [infld "a" (treq "Int") None]; object "O" [fld "a" (treq "Int")]]
            [("I", "O")];
          graph "h" [object "Query" [fld "o" (tnull "O")]; object "O" [fld "a" (tnull "Int")]] nil].
  eexists. eexists. eexists. eexists. split; [apply sound_inputb_ok; vm_compute; reflexivity|].
  split; [apply same_depthsb_ok; vm_compute; reflexivity|]. split; [vm_compute; reflexivity|].
  split; [vm_compute; reflexivity|]. split; [vm_compute; reflexivity|]. split; [reflexivity|]. split; reflexivity.
Qed.

(* Arguments: the interface has one that the implementer has not. *)
Theorem C60_arguments_refuted : exists gs s f f' is, sound_input gs /\ same_depths gs /\ compose gs = Composed s /\
  lookup s "I" = Some (DInterface [f] is) /\ lookup s "O" = Some (DObject [f'] ["I"]) /\
  of_name f = of_name f' /\ map oi_name (of_args f) = ["x"] /\ of_args f' = nil.
Proof.
  exists [graph "g" [object "Query" [fld "i" (tnull "I")]; interface "I" [mkfield "a" (treq "Int") [arg "x" (tnull "Int")] None plain];
                     object "O" [fld_args "a" (treq "Int") [arg "x" (tnull "Int")]]] [("I", "O")];
          graph "h" [object "Query" [fld "o" (tnull "O")]; object "O" [fld "a" (treq "Int")]] nil].
  eexists. eexists. eexists. eexists. split; [apply sound_inputb_ok; vm_compute; reflexivity|].
  split; [apply same_depthsb_ok; vm_compute; reflexivity|]. split; [vm_compute; reflexivity|].
  split; [vm_compute; reflexivity|]. split; [vm_compute; reflexivity|]. split; [reflexivity|]. split; reflexivity.
Qed.

(* Interfaces of interfaces: an object implements one without what that one
   implements, as no subgraph has all of it. *)
Theorem C60_transitive_refuted : exists gs s fs fs', sound_input gs /\ compose gs = Composed s /\
  lookup s "O" = Some (DObject fs ["J"]) /\ lookup s "J" = Some (DInterface fs' ["I"]).
Proof.
  exists [graph "g" [object "Query" [fld "i" (tnull "I")]; interface "I" [infld "a" (treq "Int") None];
                     interface "J" [infld "a" (treq "Int") None]] [("I", "J")];
          graph "h" [object "Query" [fld "j" (tnull "J")]; interface "J" [infld "a" (treq "Int") None];
                     object "O" [fld "a" (treq "Int")]] [("J", "O")]].
  eexists. eexists. eexists. split; [apply sound_inputb_ok; vm_compute; reflexivity|]. split; [vm_compute; reflexivity|].
  split; vm_compute; reflexivity.
Qed.

(* An input object without any field. *)
Theorem C60_empty_input_refuted : exists gs s, sound_input gs /\ compose gs = Composed s /\
  (forall g d, In g gs -> In d (g_defs g) -> d_fields d <> nil) /\ lookup s "In" = Some (DInput false nil).
Proof.
  exists [graph "g" [object "Query" [fld_args "a" (tnull "Int") [arg "x" (tnull "In")]]; input "In" [infld "p" (tnull "Int") None]] nil;
          graph "h" [object "Query" [fld_args "a" (tnull "Int") [arg "x" (tnull "In")]]; input "In" [infld "q" (tnull "Int") None]] nil].
  eexists. split; [apply sound_inputb_ok; vm_compute; reflexivity|]. split; [vm_compute; reflexivity|].
  split; [|vm_compute; reflexivity].
  intros g d [<-|[<-|[]]] [<-|[<-|[]]]; discriminate.
Qed.

(* An input object of which exactly one field is to be given, with a required
   field: each subgraph on its own is fine. *)
Definition exactly_one : directives := mkdirectives false false false false true false false false false false None nil nil.
Theorem C60_one_of_refuted : exists gs s i j, sound_input gs /\ same_depths gs /\ compose gs = Composed s /\
  (forall g d f, In g gs -> In d (g_defs g) -> one_of (d_dirs d) = true -> In f (d_fields d) -> required (type_of (f_type f)) = false) /\
  lookup s "In" = Some (DInput true [i; j]) /\ required (type_of (oi_type i)) = true.
Proof.
  exists [graph "g" [object "Query" [fld_args "a" (tnull "Int") [arg "x" (tnull "In")]];
                     mkdef "In" KInputObject [infld "p" (tnull "Int") None; infld "q" (tnull "Int") None] nil nil nil exactly_one] nil;
          graph "h" [object "Query" [fld_args "a" (tnull "Int") [arg "x" (tnull "In")]];
                     input "In" [infld "p" (treq "Int") None; infld "q" (tnull "Int") None]] nil].
  eexists. eexists. eexists. split; [apply sound_inputb_ok; vm_compute; reflexivity|].
  split; [apply same_depthsb_ok; vm_compute; reflexivity|]. split; [vm_compute; reflexivity|].
  split; [|split; vm_compute; reflexivity].
  intros g d f [<-|[<-|[]]] [<-|[<-|[]]] O F; try discriminate; cbn in F; repeat (destruct F as [<-|F]); try contradiction; reflexivity.
Qed.
