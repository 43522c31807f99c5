(** Substitution in a whole configuration file (C36).

    Modelled code: crates/gateway-config/src/lib.rs 100-148 (expand_dynamic_strings). Values
    of the other TOML types are opaque. The error carries the path as a list of
    segments; its printing is not modelled. *)

From Coq Require Import String List NArith Bool.
From Verif.Config Require Import Template.
Import ListNotations.

Section Toml.
  Variable other : Type.

  Inductive toml := Str (s : text) | Array (vs : list toml) | Table (es : list (text * toml)) | Other (o : other).

  (** A key or an index. *)
  Definition segment := (text + nat)%type.

  Section Expand.
    Variable env : text -> option text.

    Fixpoint expand (path : list segment) (v : toml) : toml + (list segment * error) :=
      match v with
      | Str s => match from_str env s with inl out => inl (Str out) | inr e => inr (path, e) end
      | Array vs =>
          match (fix go (i : nat) (vs : list toml) : list toml + (list segment * error) :=
                   match vs with
                   | [] => inl []
                   | v :: r => match expand (path ++ [inr i]) v with
                               | inl v' => match go (S i) r with inl r' => inl (v' :: r') | inr e => inr e end
                               | inr e => inr e
                               end
                   end) 0%nat vs with
          | inl vs' => inl (Array vs')
          | inr e => inr e
          end
      | Table es =>
          match (fix go (es : list (text * toml)) : list (text * toml) + (list segment * error) :=
                   match es with
                   | [] => inl []
                   | (k, v) :: r => match expand (path ++ [inl k]) v with
                               | inl v' => match go r with inl r' => inl ((k, v') :: r') | inr e => inr e end
                               | inr e => inr e
                               end
                   end) es with
          | inl es' => inl (Table es')
          | inr e => inr e
          end
      | Other o => inl (Other o)
      end.

    (** ** Specification: the same tree, with every string value expanded. *)
    Inductive expanded : toml -> toml -> Prop :=
    | e_str : forall s out, expands env s out -> expanded (Str s) (Str out)
    | e_array : forall vs vs', Forall2 expanded vs vs' -> expanded (Array vs) (Array vs')
    | e_table : forall es es', Forall2 (fun e e' => fst e = fst e' /\ expanded (snd e) (snd e')) es es' -> expanded (Table es) (Table es')
    | e_other : forall o, expanded (Other o) (Other o).

    (** The strings of a tree, with where they are. *)
    Inductive at_path : toml -> list segment -> text -> Prop :=
    | at_str : forall s, at_path (Str s) [] s
    | at_array : forall vs i v p s, nth_error vs i = Some v -> at_path v p s -> at_path (Array vs) (inr i :: p) s
    | at_table : forall es k v p s, In (k, v) es -> at_path v p s -> at_path (Table es) (inl k :: p) s.

    Section Induction.
      Variable P : toml -> Prop.
      Hypothesis Hs : forall s, P (Str s).
      Hypothesis Ha : forall vs, Forall P vs -> P (Array vs).
      Hypothesis Ht : forall es, Forall (fun e => P (snd e)) es -> P (Table es).
      Hypothesis Ho : forall o, P (Other o).
      Fixpoint toml_rect' (v : toml) : P v :=
        match v with
        | Str s => Hs s
        | Array vs => Ha vs ((fix go vs : Forall P vs := match vs with [] => Forall_nil _ | v :: r => Forall_cons _ (toml_rect' v) (go r) end) vs)
        | Table es => Ht es ((fix go es : Forall (fun e => P (snd e)) es :=
            match es with [] => Forall_nil _ | e :: r => Forall_cons e (toml_rect' (snd e)) (go r) end) es)
        | Other o => Ho o
        end.
    End Induction.

    Definition outcome (v : toml) : Prop := forall path,
      (exists v', expand path v = inl v' /\ expanded v v' /\ forall w, expanded v w -> w = v') \/
      (exists p s e, expand path v = inr (path ++ p, e) /\ at_path v p s /\ from_str env s = inr e).

    (** Loading yields a tree exactly when every string in it can be expanded. *)
    Lemma expand_spec : forall v, outcome v.
    Proof.
      induction v as [s|vs IH|es IH|o] using toml_rect'; intros path.
      - cbn. destruct (from_str env s) as [out|e] eqn:E.
        + left. exists (Str out). split; [reflexivity|]. apply C36_substitution in E. split; [constructor; exact E|].
          intros w W. inversion W as [s' out' X| | |]; subst. apply C36_substitution in E. apply C36_substitution in X. congruence.
        + right. exists [], s, e. rewrite app_nil_r. split; [reflexivity|]. split; [constructor|exact E].
      - cbn [expand]. set (go := fix go (i : nat) (vs : list toml) {struct vs} := _).
        assert (G : forall pre vs, Forall outcome vs -> forall all, all = pre ++ vs ->
          (exists vs', go (List.length pre) vs = inl vs' /\ Forall2 expanded vs vs' /\ forall ws, Forall2 expanded vs ws -> ws = vs') \/
          (exists i v p s e, go (List.length pre) vs = inr (path ++ inr i :: p, e) /\ nth_error all i = Some v /\ at_path v p s /\ from_str env s = inr e)).
        { clear IH vs. intros pre vs. revert pre. induction vs as [|v vs IHv]; intros pre F all A.
          - left. exists []. split; [reflexivity|]. split; [constructor|]. intros ws W. inversion W. reflexivity.
          - inversion F as [|? ? Hv F']; subst. cbn [go]. fold go. destruct (Hv (path ++ [inr (List.length pre)])) as [(v' & E & X & U)|(p & s & e & E & X & Y)].
            + rewrite E. specialize (IHv (pre ++ [v]) F' _ eq_refl). rewrite app_length in IHv. cbn [length] in IHv.
              rewrite PeanoNat.Nat.add_1_r in IHv.
              destruct IHv as [(vs' & E' & X' & U')|(i & w & p & s & e & E' & N & X' & Y)]; rewrite E'.
              * left. exists (v' :: vs'). split; [reflexivity|]. split; [constructor; assumption|].
                intros ws W. inversion W; subst. f_equal; [apply U; assumption|apply U'; assumption].
              * right. exists i, w, p, s, e. split; [reflexivity|]. rewrite <- app_assoc in N. auto.
            + rewrite E. right. exists (List.length pre), v, p, s, e. rewrite <- app_assoc. split; [reflexivity|].
              rewrite nth_error_app2, PeanoNat.Nat.sub_diag by apply le_n. auto. }
        destruct (G [] vs IH vs eq_refl) as [(vs' & E & X & U)|(i & v & p & s & e & E & N & X & Y)]; cbn [length] in E; rewrite E.
        + left. exists (Array vs'). split; [reflexivity|]. split; [constructor; exact X|]. intros w W. inversion W; subst. f_equal. apply U. assumption.
        + right. exists (inr i :: p), s, e. split; [reflexivity|]. split; [econstructor; eassumption|exact Y].
      - cbn [expand]. set (go := fix go (es : list (text * toml)) {struct es} := _).
        assert (G : forall es, Forall (fun e => outcome (snd e)) es ->
          (exists es', go es = inl es' /\ Forall2 (fun e e' => fst e = fst e' /\ expanded (snd e) (snd e')) es es' /\
             forall ws, Forall2 (fun e e' => fst e = fst e' /\ expanded (snd e) (snd e')) es ws -> ws = es') \/
          (exists k v p s e, go es = inr (path ++ inl k :: p, e) /\ In (k, v) es /\ at_path v p s /\ from_str env s = inr e)).
        { clear IH es. induction es as [|[k v] es IHv]; intros F.
          - left. exists []. split; [reflexivity|]. split; [constructor|]. intros ws W. inversion W. reflexivity.
          - inversion F as [|? ? Hv F']; subst. cbn [snd] in Hv. cbn [go]. fold go. destruct (Hv (path ++ [inl k])) as [(v' & E & X & U)|(p & s & e & E & X & Y)].
            + rewrite E. destruct (IHv F') as [(es' & E' & X' & U')|(j & w & p & s & e & E' & N & X' & Y)]; rewrite E'.
              * left. exists ((k, v') :: es'). split; [reflexivity|]. split; [constructor; [cbn; auto|assumption]|].
                intros ws W. inversion W as [|? [k2 v2] ? ws' [K V] W']; subst. cbn in K, V. subst. f_equal; [f_equal; apply U; assumption|apply U'; assumption].
              * right. exists j, w, p, s, e. split; [reflexivity|]. split; [right; exact N|]. auto.
            + rewrite E. right. exists k, v, p, s, e. rewrite <- app_assoc. split; [reflexivity|]. split; [left; reflexivity|]. auto. }
        destruct (G es IH) as [(es' & E & X & U)|(k & v & p & s & e & E & N & X & Y)]; rewrite E.
        + left. exists (Table es'). split; [reflexivity|]. split; [constructor; exact X|]. intros w W. inversion W; subst. f_equal. apply U. assumption.
        + right. exists (inl k :: p), s, e. split; [reflexivity|]. split; [econstructor; eassumption|exact Y].
      - left. exists (Other o). split; [reflexivity|]. split; [constructor|]. intros w W. inversion W. reflexivity.
    Qed.

    (** Keys and values that aren't strings stay, every string value is expanded, or loading fails. *)
    Theorem C36_file : forall v v', expand [] v = inl v' <-> expanded v v'.
    Proof.
      intros v v'. destruct (expand_spec v []) as [(w & E & X & U)|(p & s & e & E & X & Y)]; rewrite E; split; intros H.
      - injection H as <-. exact X.
      - f_equal. symmetry. apply U. exact H.
      - discriminate.
      - exfalso. clear E. revert v' H. induction X as [s|vs i v p s N X IH|es k v p s N X IH]; intros v' H.
        + inversion H as [? out Ex| | |]; subst. apply C36_substitution in Ex. congruence.
        + inversion H as [|? vs' F| |]; subst. clear - N F IH Y. revert i N. induction F as [|a b vs vs' Z F IHF]; intros i N; destruct i; try discriminate.
          * cbn in N. injection N as ->. exact (IH Y _ Z).
          * cbn in N. eapply IHF; exact N.
        + inversion H as [| |? es' F|]; subst. clear - N F IH Y. induction F as [|a b es es' Z F IHF]; [destruct N|].
          destruct N as [->|N]; [|exact (IHF N)]. destruct Z as [_ Z]. exact (IH Y _ Z).
    Qed.

    (** A failure names the place of a string that can't be expanded. *)
    Theorem C36_file_errors : forall v path e, expand [] v = inr (path, e) -> exists s, at_path v path s /\ from_str env s = inr e.
    Proof.
      intros v path e H. destruct (expand_spec v []) as [(w & E & _)|(p & s & e' & E & X & Y)]; rewrite E in H; [discriminate|].
      injection H as <- <-. exists s. auto.
    Qed.
  End Expand.
End Toml.

Local Open Scope N_scope.
Example C36_file_example :
  let env := fun n => if text_eqb n (chars "A"%string) then Some (chars "v"%string) else None in
  expand N env [] (Table N [(chars "{{ env.A }}"%string, Str N (chars "{{ env.A }}"%string)); (chars "b"%string, Array N [Other N 3; Str N (chars "w"%string)])]) =
    inl (Table N [(chars "{{ env.A }}"%string, Str N (chars "v"%string)); (chars "b"%string, Array N [Other N 3; Str N (chars "w"%string)])]) /\
  expand N env [] (Table N [(chars "b"%string, Array N [Other N 3; Str N (chars "{{ env.B }}"%string)])]) = inr ([inl (chars "b"%string); inr 1%nat], Missing (chars "B"%string)).
Proof. vm_compute. split; reflexivity. Qed.
