(* C55: what the composed schema accepts, every subgraph accepts. *)
From Coq Require Import String List Bool Arith ZArith Lia Permutation.
From Verif.SchemaDiff Require Import Search.
From Verif.Compose Require Import Model Spec Facts TypeFacts TypeProps SchemaFacts GroupFacts KindFacts LookupFacts EnumProps Decide.
Import ListNotations.
Local Open Scope string_scope.
Local Open Scope list_scope.

Fixpoint value_size (v : value) : nat :=
  match v with
  | VObject l => S ((fix go (l : list (name * value)) : nat := match l with nil => 0 | (_, x) :: r => value_size x + go r end) l)
  | VList l => S ((fix go (l : list value) : nat := match l with nil => 0 | x :: r => value_size x + go r end) l)
  | _ => 1
  end.
Lemma size_object : forall l f x, In (f, x) l -> value_size x < value_size (VObject l).
Proof.
  intros l f x I. cbn. induction l as [|(k, y) l IH]; [contradiction|]. destruct I as [E|I].
  - injection E as -> ->. lia.
  - specialize (IH I). lia.
Qed.
Lemma size_list : forall l x, In x l -> value_size x < value_size (VList l).
Proof.
  intros l x I. cbn. induction l as [|y l IH]; [contradiction|]. destruct I as [->|I]; [lia|]. specialize (IH I). lia.
Qed.

Lemma accepts_list : forall sys sc b l t r,
  accepts sys sc b (VList l) (ListOf t r) <-> forall x, In x l -> accepts sys sc b x t.
Proof.
  intros sys sc b l t r. cbn. induction l as [|x l IH]; [split; [intros _ y []|auto]|]. rewrite IH. split.
  - intros (A & B) y [<-|I]; [exact A|apply B; exact I].
  - intros H. split; [apply H; left; reflexivity|]. intros y I. apply H. right. exact I.
Qed.

Lemma accepts_object : forall sys sc b l n r o fs, stands sys n = Some (TInput o fs) ->
  (accepts sys sc b (VObject l) (Named n r) <->
   (forall f x, In (f, x) l -> exists t' d, In (f, (t', d)) fs /\ accepts sys sc b x t') /\
   NoDup (map fst l) /\
   (forall f t' d, In (f, (t', d)) fs -> In f (map fst l) \/
      if b then required t' = false /\ d = false else required t' = false \/ d = true) /\
   (o = true -> exists f x, l = [(f, x)] /\ x <> VNull)).
Proof.
  intros sys sc b l n r o fs E. cbn [accepts]. rewrite E.
  match goal with |- ?A /\ ?X <-> ?B /\ ?X => cut (A <-> B); [tauto|] end.
  clear. induction l as [|(f, x) l IH]; [split; [intros _ f x []|auto]|]. rewrite IH. split.
  - intros (A & B) g y [K|I]; [injection K as <- <-; exact A|apply B; exact I].
  - intros H. split; [apply H; left; reflexivity|]. intros g y I. apply H. right. exact I.
Qed.

Lemma named_field_type : forall f, named (field_type f) = base (f_type f).
Proof.
  intros f. unfold field_type. rewrite <- named_type_of.
  destruct (existsb _ (f_args f)); [|reflexivity]. destruct (type_of (f_type f)); reflexivity.
Qed.

Section sound.
  Variable gs : list subgraph.
  Variable s : schema.
  Variable scalar : name -> value -> Prop.
  Hypothesis si : sound_input gs.
  Hypothesis depths : same_depths gs.
  Hypothesis C : compose gs = Composed s.

  Let wf := si_wf gs si.
  Let ok : diags_of (compose_subgraphs gs) = nil := proj1 (composed_inv gs s C).

  (* The fields of a name nest lists equally. *)
  Lemma fields_depths : forall n f, depths_agree (map (fun x => field_type (v_field x)) (sel vf_name (all_fields (all_named gs n)) f)).
  Proof.
    intros n f a b I J. apply in_map_iff in I, J. destruct I as (x & <- & I), J as (y & <- & J).
    apply sel_in in I, J. destruct I as (I & IN), J as (J & JN).
    apply all_fields_in in I, J. destruct I as (I & FI), J as (J & FJ).
    apply (view_in gs wf) in I, J. destruct I as (I & DI & NI), J as (J & DJ & NJ).
    apply (depths (graph_of x) (graph_of y) (v_def (v_parent x)) (v_def (v_parent y))); try assumption.
    - congruence.
    - unfold vf_name in *. congruence.
  Qed.

  Lemma input_kind : forall n v, In v (all_named gs n) -> In n builtin_scalars -> d_kind (v_def v) = KScalar.
  Proof.
    intros n v I B. apply (view_in gs wf) in I. destruct I as (I & J & N).
    apply (proj2 (si_kinds gs si) (v_graph v)); [exact I|exact J|]. rewrite N. exact B.
  Qed.

  (* what a name stands for in a subgraph *)
  Lemma stands_view : forall g n, In g gs -> defined g n ->
    (exists d, In (mkdview g d) (all_named gs n) /\ stands (read_graph g) n = Some (read_definition d)) \/
    (In n builtin_scalars /\ stands (read_graph g) n = Some TScalar /\ forall v, In v (all_named gs n) -> d_kind (v_def v) = KScalar).
  Proof.
    intros g n I D. cbn [read_graph stands]. destruct (definition_by_name g n) as [d|] eqn:E.
    - left. exists d. split; [|reflexivity]. apply all_named_in. auto.
    - right. destruct D as [D|D].
      + exfalso. apply in_map_iff in D. destruct D as (d & <- & D). rewrite definition_by_name_in in E; [discriminate| |exact D].
        apply wf_names, wf. exact I.
      + split; [exact D|]. assert (M : mem n builtin_scalars = true) by (apply mem_in; exact D). rewrite M.
        split; [reflexivity|]. intros v J. apply (input_kind n); assumption.
  Qed.

  Lemma composed_scalar : forall n, (forall v, In v (all_named gs n) -> d_kind (v_def v) = KScalar) ->
    lookup s n = None \/ lookup s n = Some DScalar.
  Proof.
    intros n H. destruct (all_named gs n) as [|v vs] eqn:A.
    - rewrite (lookup_undefined gs s si C n A). destruct (mem n builtin_scalars); auto.
    - assert (I : In v (all_named gs n)) by (rewrite A; left; reflexivity).
      destruct (lookup_view gs s si C n v I) as (_ & L). rewrite (H v (or_introl eq_refl)) in L.
      destruct (String.eqb n "join__FieldSet"); auto.
  Qed.

  Lemma enum_view : forall n v, In v (all_named gs n) -> d_kind (v_def v) = KEnum -> enum_in gs n.
  Proof.
    intros n v I K. assert (J := I). apply (view_in gs wf) in J. destruct J as (G & D & N).
    assert (NR : ~ In n root_names).
    { intros IR. rewrite (root_kind gs wf (si_kinds gs si) n v IR I) in K. discriminate. }
    split; [|split; [|split]].
    - exists (v_graph v). split; [exact G|]. exists (v_def v). auto.
    - intros g d I' J E. rewrite <- K. apply (proj1 (si_kinds gs si) g (v_graph v)); [assumption..|congruence].
    - intros g I'. split; [apply wf_names, wf; exact I'|].
      destruct (is_root g n) eqn:R; [|reflexivity]. exfalso. apply NR. apply (root_usual gs wf g); assumption.
    - exact NR.
  Qed.

  Lemma composed_input_field : forall n i, In i (input_fields n (all_named gs n)) ->
    input_diags n (all_named gs n) = nil ->
    (forall v, In v (all_named gs n) -> d_kind (v_def v) = KInputObject) ->
    forall v, In v (all_named gs n) -> exists f, In f (d_fields (v_def v)) /\ f_name f = oi_name i /\
      (forall sys b x, accepts sys scalar b x (type_of (oi_type i)) -> accepts sys scalar b x (type_of (f_type f))) /\
      (required (type_of (oi_type i)) = false -> required (type_of (f_type f)) = false).
  Proof.
    intros n i I D K v IV.
    assert (NE : all_named gs n <> nil) by (intros E; rewrite E in IV; contradiction).
    destruct (input_fields_spec n _ NE D) as (S1 & _). destruct (S1 i I) as (ALL & T & _).
    specialize (ALL v IV). apply in_map_iff in ALL. destruct ALL as (f & N & F).
    exists f. split; [exact F|]. split; [exact N|].
    assert (IS : In (mkfview v f) (sel vf_name (all_fields (all_named gs n)) (oi_name i))).
    { apply sel_in. split; [|exact N]. apply all_fields_in. auto. }
    assert (FT : field_type f = type_of (f_type f)).
    { unfold field_type. pose proof IV as IV'. apply (view_in gs wf) in IV'. destruct IV' as (G & DD & _). rewrite (wf_inputs _ (wf _ G) (v_def v) f); try assumption; [reflexivity|].
      apply K. exact IV. }
    destruct (input_type _ _ T (fields_depths n (oi_name i))) as (HN & HC).
    pose proof (HC _ IS) as HT. cbn [v_field] in HT. rewrite FT in HT. split.
    - intros sys b x A. rewrite HT in A. rewrite accepts_all in A.
      + apply A. rewrite <- FT. apply (in_map (fun y => field_type (v_field y)) _ _ IS).
      + intros E. apply map_eq_nil in E. rewrite E in IS. contradiction.
      + intros u U. apply in_map_iff in U. destruct U as (y & <- & U). rewrite <- FT. apply (HN y _ U IS).
    - rewrite HT, required_with_required. intros R. destruct (required (type_of (f_type f))) eqn:E; [|reflexivity].
      assert (existsb required (map (fun y => field_type (v_field y)) (sel vf_name (all_fields (all_named gs n)) (oi_name i))) = true); [|congruence].
      apply existsb_exists. exists (type_of (f_type f)). split; [|exact E].
      rewrite <- FT. apply (in_map (fun y => field_type (v_field y)) _ _ IS).
  Qed.

  Lemma accepted : forall k v t, value_size v <= k -> forall g, In g gs -> defined g (named t) -> in_input gs (named t) ->
    accepts (read_schema s) scalar true v t -> accepts (read_graph g) scalar false v t.
  Proof.
    induction k as [|k IH]; intros v t SZ g G D IN A; [destruct v; cbn in SZ; lia|].
    destruct v as [x0|x0|x0|x0|x0|l|l|]; destruct t as [n r|t r]; try contradiction; try exact A.
    all: cbn [named] in *.
    8:{ rewrite accepts_list in *. intros x I. apply (IH x t); try assumption; [|apply A; exact I].
        pose proof (size_list l x I). lia. }
    all: destruct (stands_view g n G D) as [(d & IV & S)|(B & S & K)].
    (* scalars of the language *)
    all: try (destruct (composed_scalar n K) as [L|L]; cbn [accepts read_schema stands] in A; rewrite L in A; cbn in A;
              [contradiction|]; cbn [accepts]; rewrite S; exact A).
    (* definitions *)
    all: destruct (lookup_view gs s si C n _ IV) as (_ & L); cbn [v_def] in L; unfold read_definition in S.
    all: destruct (d_kind d) eqn:K.
    all: try (destruct L as (fs & is & L & _); cbn [accepts read_schema stands] in A; rewrite L in A; cbn in A; contradiction).
    all: try (destruct L as (ms & L & _); cbn [accepts read_schema stands] in A; rewrite L in A; cbn in A; contradiction).
    all: try (cbn [accepts read_schema stands] in A; rewrite L in A; destruct (String.eqb n "join__FieldSet"); cbn in A;
              [contradiction|]; cbn [accepts]; rewrite S; exact A).
    all: try (cbn [accepts read_schema stands] in A; rewrite L in A; cbn in A; contradiction).
    (* an enum *)
    - destruct (C54_fits gs s n C (enum_view n _ IV K)) as (vs & L' & H).
      cbn [accepts read_schema stands] in A. rewrite L' in A. cbn in A. cbn [accepts]. rewrite S.
      apply (view_in gs wf) in IV. cbn in IV. destruct IV as (_ & J & N).
      apply (H g d x0 G J N); assumption.
    (* an input object *)
    - assert (ALLK : forall w, In w (all_named gs n) -> d_kind (v_def w) = KInputObject).
      { intros w W. rewrite <- K. apply (one_kind gs wf (si_kinds gs si) n w (mkdview g d) W IV). }
      assert (DG : input_diags n (all_named gs n) = nil).
      { destruct (name_items_spec gs wf (si_kinds gs si) (si_interfaces gs si) ok n _ IV) as (_ & _ & _ & _ & _ & X & _).
        cbn [v_def] in X. rewrite K in X. exact X. }
      assert (SS : stands (read_schema s) n = Some (read_sdef (DInput (one_of (dirs_of (all_named gs n))) (input_fields n (all_named gs n))))).
      { cbn. rewrite L. reflexivity. }
      cbn [read_sdef] in SS. unfold read_inputs in SS.
      rewrite (accepts_object _ _ _ _ _ _ _ _ SS) in A. rewrite (accepts_object _ _ _ _ _ _ _ _ S).
      destruct A as (A1 & A2 & A3 & A4).
      assert (NE : all_named gs n <> nil) by (intros E; rewrite E in IV; contradiction).
      destruct (input_fields_spec n _ NE DG) as (_ & S2 & _).
      assert (FD : forall f, In f (d_fields d) -> defined g (base (f_type f)) /\ in_input gs (base (f_type f))).
      { intros f F. apply (view_in gs wf) in IV. cbn in IV. destruct IV as (_ & J & _).
        split; [apply (wf_types g (wf g G) d f J F)|]. exists g, d, f. split; [exact G|]. split; [exact J|]. split; [exact F|]. right. auto. }
      split; [|split; [exact A2|split]].
      + intros f x I. destruct (A1 f x I) as (t' & df & M & AX). apply in_map_iff in M. destruct M as (i & E & M).
        injection E as <- <- <-.
        destruct (composed_input_field n i M DG ALLK _ IV) as (f0 & F0 & N0 & ACC & _). cbn [v_def] in F0.
        exists (type_of (f_type f0)), (has_default (f_default f0)). split.
        * apply in_map_iff. exists f0. rewrite N0. auto.
        * destruct (FD f0 F0) as (FD1 & FD2).
          apply (IH x (type_of (f_type f0))); [pose proof (size_object l _ x I); lia|exact G| | |apply ACC; exact AX].
          -- rewrite named_type_of. exact FD1.
          -- rewrite named_type_of. exact FD2.
      + intros f t' df M. apply in_map_iff in M. destruct M as (f0 & E & F0). injection E as <- <- <-.
        destruct (S2 (mkfview (mkdview g d) f0)) as [(i & I & N)|(R & _)].
        * apply all_fields_in. cbn. auto.
        * cbn [v_field vf_name] in N. unfold vf_name in N. cbn [v_field] in N.
          destruct (A3 (oi_name i) (type_of (oi_type i)) (has_default (oi_default i))) as [X|(X & _)].
          -- apply in_map_iff. exists i. auto.
          -- left. rewrite <- N. exact X.
          -- right. left. destruct (composed_input_field n i I DG ALLK _ IV) as (f1 & F1 & N1 & _ & RR).
             cbn [v_def] in F1. assert (f1 = f0); [|subst f1; apply RR; exact X].
             apply (view_in gs wf) in IV. cbn in IV. destruct IV as (_ & J & _).
             pose proof (wf_fields g (wf g G) d J) as ND. revert ND F1 F0 N1 N. clear.
             induction (d_fields d) as [|z zs IHz]; intros ND F1 F0 N1 N; [contradiction|].
             cbn [map] in ND. inversion ND as [|? ? NI ND']; subst. destruct F1 as [->|F1], F0 as [->|F0]; [reflexivity| | |].
             ++ exfalso. apply NI. rewrite N1, N. apply in_map. exact F0.
             ++ exfalso. apply NI. rewrite <- N, <- N1. apply in_map. exact F1.
             ++ apply IHz; assumption.
        * right. left. rewrite required_type_of. exact R.
      + intros O. apply A4. unfold dirs_of, collect. cbn [one_of]. apply existsb_exists.
        exists (d_dirs d). split; [|exact O]. apply in_map_iff. exists (mkdview g d). auto.
  Qed.

  (* The composed field of a field. *)
  Lemma composed_field_of : forall g d f f', In g gs -> In d (g_defs g) -> In f (d_fields d) ->
    d_kind d = KObject \/ d_kind d = KInterface ->
    In f' (snd (compose_fields (all_named gs (d_name d)))) -> of_name f' = f_name f ->
    let l := sel vf_name (all_fields (all_named gs (d_name d))) (f_name f) in
    compose_field l = (nil, Some f') /\ In (mkfview (mkdview g d) f) l.
  Proof.
    intros g d f f' G D F K I N l.
    pose proof (view_of gs si g d G D) as IV.
    assert (FD : fst (compose_fields (all_named gs (d_name d))) = nil).
    { destruct (name_items_spec gs wf (si_kinds gs si) (si_interfaces gs si) ok _ _ IV) as (_ & _ & _ & _ & _ & X & _).
      cbn [v_def] in X. destruct K as [K|K]; rewrite K in X; exact X. }
    destruct (compose_fields_spec _ FD) as (_ & S2 & _). destruct (S2 f' I) as (E & _). rewrite N in E. split; [exact E|].
    apply sel_in. split; [|reflexivity]. apply all_fields_in. auto.
  Qed.

  Lemma taken : forall g d f f' l, In g gs -> In d (g_defs g) -> In f (d_fields d) ->
    d_kind d = KObject \/ d_kind d = KInterface ->
    In f' (snd (compose_fields (all_named gs (d_name d)))) -> of_name f' = f_name f ->
    takes (read_schema s) scalar true l (read_inputs (of_args f')) -> takes (read_graph g) scalar false l (read_args f).
  Proof.
    intros g d f f' l G D F K I N (T1 & T2 & T3).
    destruct (composed_field_of g d f f' G D F K I N) as (E & IS).
    destruct (compose_field_args _ _ E) as (AD & OA & _).
    set (fl := sel vf_name (all_fields (all_named gs (d_name d))) (f_name f)) in *.
    assert (NE : fl <> nil) by (intros X; rewrite X in IS; contradiction).
    destruct (merge_field_arguments_spec fl NE AD) as (M1 & M2 & _). rewrite <- OA in M1, M2.
    assert (ARG : forall i, In i (of_args f') -> exists a, In a (f_args f) /\ a_name a = oi_name i /\
      (forall sys b x, accepts sys scalar b x (type_of (oi_type i)) -> accepts sys scalar b x (type_of (a_type a))) /\
      (required (type_of (oi_type i)) = false -> required (type_of (a_type a)) = false)).
    { intros i II. destruct (M1 i II) as (ALL & (x & r & SE & FT) & _).
      pose proof (ALL _ IS) as A. cbn [v_field] in A. apply in_map_iff in A. destruct A as (a & AN & A).
      exists a. split; [exact A|]. split; [exact AN|].
      assert (IA : In (mkaview (mkfview (mkdview g d) f) a) (x :: r)).
      { rewrite <- SE. apply sel_in. split; [|exact AN]. apply all_args_in. auto. }
      destruct (argument_type _ _ _ FT) as (HN & HC).
      { intros u w U W. apply in_map_iff in U, W. destruct U as (y & <- & U), W as (z & <- & W).
        rewrite <- SE in U, W. apply sel_in in U, W. destruct U as (U & UN), W as (W & WN).
        apply all_args_in in U, W. destruct U as (U & UA), W as (W & WA).
        apply sel_in in U, W. destruct U as (U & UF), W as (W & WF).
        apply all_fields_in in U, W. destruct U as (U & UD), W as (W & WD).
        apply (view_in gs wf) in U, W. destruct U as (UG & UI & UNM), W as (WG & WI & WNM).
        unfold vf_name, va_name in *.
        apply (depths _ _ _ _ (v_field (v_of y)) (v_field (v_of z)) UG WG UI WI); congruence. }
      pose proof (HC _ IA) as HT. cbn [v_arg] in HT. split.
      - intros sys b y AC. rewrite HT in AC. rewrite accepts_all in AC.
        + apply AC. apply (in_map (fun y => type_of (a_type (v_arg y))) _ _ IA).
        + discriminate.
        + intros u U. apply in_map_iff in U. destruct U as (z & <- & U). apply (HN z _ U IA).
      - rewrite HT, required_with_required. intros R. destruct (required (type_of (a_type a))) eqn:RE; [|reflexivity].
        assert (existsb required (map (fun y => type_of (a_type (v_arg y))) (x :: r)) = true); [|congruence].
        apply existsb_exists. exists (type_of (a_type a)). split; [|exact RE].
        apply (in_map (fun y => type_of (a_type (v_arg y))) _ _ IA). }
    split; [|split; [exact T2|]].
    - intros an x J. destruct (T1 an x J) as (t & df & M & A). apply in_map_iff in M. destruct M as (i & EQ & M).
      injection EQ as <- <- <-. destruct (ARG i M) as (a & IA & AN & ACC & _).
      exists (type_of (a_type a)), (has_default (a_default a)). split.
      + apply in_map_iff. exists a. rewrite AN. auto.
      + apply (accepted (value_size x)); [lia|exact G| | |apply ACC; exact A].
        * rewrite named_type_of. apply (wf_types g (wf g G) d f D F). exact IA.
        * rewrite named_type_of. exists g, d, f. split; [exact G|]. split; [exact D|]. split; [exact F|]. left. exists a. auto.
    - intros an t df M. apply in_map_iff in M. destruct M as (a & EQ & IA). injection EQ as <- <- <-.
      destruct (M2 (mkaview (mkfview (mkdview g d) f) a)) as [(i & II & IN)|(R & _)].
      + apply all_args_in. auto.
      + unfold va_name in IN. cbn [v_arg] in IN.
        destruct (T3 (oi_name i) (type_of (oi_type i)) (has_default (oi_default i))) as [X|(X & _)].
        * apply in_map_iff. exists i. auto.
        * left. rewrite <- IN. exact X.
        * right. left. destruct (ARG i II) as (a' & IA' & AN' & _ & RR).
          assert (a' = a); [|subst a'; apply RR; exact X].
          pose proof (wf_args g (wf g G) d f D F) as ND. revert ND IA IA' IN AN'. clear.
          induction (f_args f) as [|z zs IHz]; intros ND F1 F0 N1 N; [contradiction|].
          cbn [map] in ND. inversion ND as [|? ? NI ND']; subst. destruct F1 as [->|F1], F0 as [->|F0]; [reflexivity| | |].
          -- exfalso. apply NI. rewrite <- N1, <- N. apply in_map. exact F0.
          -- exfalso. apply NI. rewrite N, N1. apply in_map. exact F1.
          -- apply IHz; assumption.
      + right. left. rewrite required_type_of. exact R.
  Qed.
End sound.

(* C55 *)
Theorem C55_values_partial : forall gs s scalar, sound_input gs -> same_depths gs -> compose gs = Composed s ->
  forall g v t, In g gs -> defined g (named t) -> in_input gs (named t) ->
    accepts (read_schema s) scalar true v t -> accepts (read_graph g) scalar false v t.
Proof. intros gs s scalar SI SD C g v t G D I A. apply (accepted gs s scalar SI SD C (value_size v)); auto. Qed.

(* What the gateway may send for a composed field, the field of any subgraph
   takes, with what it leaves out. *)
Theorem C55_arguments_partial : forall gs s scalar, sound_input gs -> same_depths gs -> compose gs = Composed s ->
  forall g d f fs is f' l, In g gs -> In d (g_defs g) -> In f (d_fields d) ->
    lookup s (d_name d) = Some (DObject fs is) \/ lookup s (d_name d) = Some (DInterface fs is) ->
    In f' fs -> of_name f' = f_name f ->
    takes (read_schema s) scalar true l (read_inputs (of_args f')) -> takes (read_graph g) scalar false l (read_args f).
Proof.
  intros gs s scalar SI SD C g d f fs is f' l G D F L I N T.
  pose proof (view_of gs SI g d G D) as IV. destruct (lookup_view gs s SI C _ _ IV) as (_ & X). cbn [v_def] in X.
  assert (K : (d_kind d = KObject \/ d_kind d = KInterface) /\ Permutation (snd (compose_fields (all_named gs (d_name d)))) fs).
  { destruct (d_kind d).
    - destruct X as (fs' & is' & L' & P & _). destruct L as [L|L]; rewrite L in L'; [|discriminate]. injection L' as <- <-. auto.
    - destruct X as (fs' & is' & L' & P & _). destruct L as [L|L]; rewrite L in L'; [discriminate|]. injection L' as <- <-. auto.
    - destruct X as (ms & L' & _). destruct L as [L|L]; rewrite L in L'; discriminate.
    - destruct L as [L|L]; rewrite L in X; discriminate.
    - destruct (String.eqb (d_name d) "join__FieldSet"); destruct L as [L|L]; rewrite L in X; discriminate.
    - destruct L as [L|L]; rewrite L in X; discriminate. }
  destruct K as (K & P).
  apply (taken gs s scalar SI SD C g d f f' l G D F K); [|exact N|exact T].
  apply (Permutation_in _ (Permutation_sym P)). exact I.
Qed.

(* Two subgraphs that take a filter: one knows `near` and has no `limit`. *)
Definition filter_g : subgraph := graph "g"
  [object "Query" [fld_args "search" (tnull "Int") [arg "by" (treq "Filter"); arg "debug" (tnull "Boolean")]];
   input "Filter" [infld "text" (tnull "String") None; infld "near" (tnull "Int") None;
                   infld "order" (tnull "Order") (Some (VEnum "ASC")); infld "and" (tnull "Filter") None];
   enum "Order" ["ASC"; "DESC"; "NONE"]] nil.
Definition filter_h : subgraph := graph "h"
  [object "Query" [fld_args "search" (tnull "Int") [arg "by" (tnull "Filter")]];
   input "Filter" [infld "text" (treq "String") None; infld "limit" (tnull "Int") None;
                   infld "order" (tnull "Order") None; infld "and" (tnull "Filter") None];
   enum "Order" ["ASC"; "DESC"]] nil.
Definition anything (n : name) (v : value) : Prop := True.

Example C55_example :
  sound_input [filter_g; filter_h] /\ same_depths [filter_g; filter_h] /\
  exists s, compose [filter_g; filter_h] = Composed s /\
  lookup s "Filter" = Some (DInput false
    [mkoinput "and" (tnull "Filter") None plain; mkoinput "order" (tnull "Order") (Some (VEnum "ASC")) plain;
     mkoinput "text" (treq "String") None plain]) /\
  (exists f, lookup s "Query" = Some (DObject [f] nil) /\ of_args f = [mkoinput "by" (treq "Filter") None plain]) /\
  in_input [filter_g; filter_h] "Filter" /\ defined filter_h "Filter" /\
  accepts (read_schema s) anything true
    (VObject [("text", VString "x"); ("order", VEnum "DESC"); ("and", VNull)]) (Named "Filter" true) /\
  ~ accepts (read_schema s) anything true
    (VObject [("text", VString "x"); ("order", VEnum "NONE")]) (Named "Filter" true) /\
  ~ accepts (read_schema s) anything true (VObject [("order", VEnum "ASC")]) (Named "Filter" true).
Proof.
  split; [apply sound_inputb_ok; vm_compute; reflexivity|].
  split; [apply same_depthsb_ok; vm_compute; reflexivity|].
  eexists. split; [vm_compute; reflexivity|]. split; [vm_compute; reflexivity|].
  split; [eexists; split; vm_compute; reflexivity|].
  split.
  { apply used_in_input_spec. vm_compute. reflexivity. }
  split; [apply definedb_ok; vm_compute; reflexivity|].
  assert (NF : forall a b c : name, a <> b -> a <> c -> b <> c -> NoDup [a; b; c]).
  { intros a b c AB AC BC. constructor; [cbn; intuition congruence|]. constructor; [cbn; intuition congruence|]. constructor; [intros []|constructor]. }
  split; [|split].
  - match goal with |- accepts ?x _ _ _ _ => set (sys := x) end.
    assert (E : stands sys "Filter" = Some (TInput false
      [("and", (Named "Filter" false, false)); ("order", (Named "Order" false, true)); ("text", (Named "String" true, false))])) by reflexivity.
    assert (O : stands sys "Order" = Some (TEnum ["ASC"; "DESC"])) by reflexivity.
    assert (T : stands sys "String" = Some TScalar) by reflexivity. clearbody sys.
    rewrite (accepts_object _ _ _ _ _ _ _ _ E). split; [|split; [|split]].
    + intros f x [X|[X|[X|[]]]]; injection X as <- <-.
      * exists (Named "String" true), false. split; [cbn; tauto|]. cbn [accepts]. rewrite T. exact Logic.I.
      * exists (Named "Order" false), true. split; [cbn; tauto|]. cbn [accepts]. rewrite O. cbn. tauto.
      * exists (Named "Filter" false), false. split; [cbn; tauto|]. reflexivity.
    + apply NF; discriminate.
    + intros f t d [X|[X|[X|[]]]]; injection X as <- <- <-; left; cbn; tauto.
    + discriminate.
  - cbn. intros ((_ & (t & d & I & A) & _) & _). destruct I as [X|[X|[X|[]]]]; try discriminate; injection X as <- <-; cbn in A.
    destruct A as [A|[A|[]]]; discriminate.
  - cbn. intros (_ & _ & H & _). destruct (H "text" (Named "String" true) false) as [[X|[]]|(X & _)]; [tauto|discriminate|discriminate].
Qed.

(* The default that the composed schema takes over may be no value there. *)
Definition default_g : subgraph := graph "g"
  [object "Query" [fld_args "a" (tnull "Int") [arg "by" (tnull "I")]];
   input "I" [infld "e" (tnull "E") (Some (VEnum "A"))]; enum "E" ["A"; "B"]] nil.
Definition default_h : subgraph := graph "h"
  [object "Query" [fld_args "a" (tnull "Int") [arg "by" (tnull "I")]];
   input "I" [infld "e" (treq "E") None]; enum "E" ["B"]] nil.
Theorem C55_defaults_refuted : exists gs s i v,
  sound_input gs /\ same_depths gs /\ compose gs = Composed s /\ lookup s "I" = Some (DInput false [i]) /\
  oi_default i = Some v /\ ~ accepts (read_schema s) anything false v (type_of (oi_type i)).
Proof.
  exists [default_g; default_h]. eexists. eexists. eexists.
  split; [apply sound_inputb_ok; vm_compute; reflexivity|].
  split; [apply same_depthsb_ok; vm_compute; reflexivity|].
  split; [vm_compute; reflexivity|]. split; [vm_compute; reflexivity|]. split; [reflexivity|].
  cbn. intros [X|[]]. discriminate.
Qed.

(* Subgraphs that disagree on what a name is: only the first counts, and the
   second gets values that it does not take. *)
Theorem C55_kinds_refuted : exists g h s v t,
  well_formed g /\ well_formed h /\ same_depths [g; h] /\ compose [g; h] = Composed s /\
  defined h (named t) /\ in_input [g; h] (named t) /\
  accepts (read_schema s) anything true v t /\ ~ accepts (read_graph h) anything false v t.
Proof.
  exists (graph "g" [object "Query" [fld_args "a" (tnull "Int") [arg "x" (tnull "X")]]; scalar_def "X"] nil).
  exists (graph "h" [object "Query" [fld_args "b" (tnull "Int") [arg "x" (tnull "X")]]; input "X" [infld "y" (tnull "Int") None]] nil).
  eexists. exists (VInt 1%Z), (Named "X" false).
  split; [apply well_formedb_ok; vm_compute; reflexivity|]. split; [apply well_formedb_ok; vm_compute; reflexivity|].
  split; [apply same_depthsb_ok; vm_compute; reflexivity|]. split; [vm_compute; reflexivity|].
  split; [apply definedb_ok; vm_compute; reflexivity|].
  split; [apply used_in_input_spec; vm_compute; reflexivity|]. split; [exact Logic.I|]. cbn. auto.
Qed.

(* Lists of different depth: the composed argument takes a list, one of the
   subgraphs does not. *)
Definition ints_only (n : name) (v : value) : Prop := exists z, v = VInt z.
Theorem C55_depths_refuted : exists g h s f a v,
  sound_input [g; h] /\ compose [g; h] = Composed s /\ lookup s "Query" = Some (DObject [f] nil) /\ of_args f = [a] /\
  takes (read_schema s) ints_only true [(oi_name a, v)] (read_inputs (of_args f)) /\
  (forall d x, In d (g_defs h) -> In x (d_fields d) -> ~ takes (read_graph h) ints_only false [(oi_name a, v)] (read_args x)).
Proof.
  exists (graph "g" [object "Query" [fld_args "a" (tnull "Int") [arg "x" (mkftype "Int" (mkwrapping false [false]))]]] nil).
  exists (graph "h" [object "Query" [fld_args "a" (tnull "Int") [arg "x" (tnull "Int")]]] nil).
  eexists. eexists. eexists. exists (VList [VNull]).
  split; [apply sound_inputb_ok; vm_compute; reflexivity|]. split; [vm_compute; reflexivity|].
  split; [vm_compute; reflexivity|]. split; [vm_compute; reflexivity|].
  split.
  - split; [|split; [repeat constructor; intros []|]].
    + intros a x [X|[]]. injection X as <- <-. exists (ListOf (Named "Int" false) false), false. split; [left; reflexivity|].
      cbn. auto.
    + intros a t d [X|[]]. injection X as <- <- <-. left. left. reflexivity.
  - intros d x [<-|[]] [<-|[]] (T & _).
    destruct (T "x" (VList [VNull]) (or_introl eq_refl)) as (t & df & [X|[]] & A). injection X as <- <-. cbn in A.
    destruct A as (z & A). discriminate.
Qed.
