(** The variables of the query: names and the invariant of the builder. *)
From Coq Require Import String Ascii List Arith Bool Lia DecimalString DecimalNat FinFun.
From Verif.Outgoing Require Import Model Spec Text.
Import ListNotations.
Local Open Scope string_scope.
Local Open Scope nat_scope.
Local Open Scope list_scope.

Fixpoint underscores (k : nat) : string :=
  match k with 0 => "" | S k => String "_" (underscores k) end.

Lemma underscores_snoc k : (underscores k ++ "_" = underscores (S k))%string.
Proof. induction k; cbn in *; [reflexivity|]. now rewrite IHk. Qed.

Definition gname (k n : nat) : string := (underscores k ++ "var" ++ decimal n)%string.

Lemma decimal_inj a b : decimal a = decimal b -> a = b.
Proof.
  unfold decimal. intros H.
  assert (E : NilZero.uint_of_string (NilZero.string_of_uint (Nat.to_uint a))
            = NilZero.uint_of_string (NilZero.string_of_uint (Nat.to_uint b))) by now rewrite H.
  rewrite !NilZero.usu in E.
  - injection E as E. now apply Unsigned.to_uint_inj.
  - intros C. pose proof (Unsigned.of_to b) as R. rewrite C in R. cbn in R. subst b. discriminate C.
  - intros C. pose proof (Unsigned.of_to a) as R. rewrite C in R. cbn in R. subst a. discriminate C.
Qed.

Lemma gname_inj k n j m : gname k n = gname j m -> k = j /\ n = m.
Proof.
  unfold gname. revert j. induction k as [|k IH]; intros [|j] H; cbn in H.
  - injection H as H. split; [reflexivity|now apply decimal_inj].
  - discriminate H.
  - discriminate H.
  - injection H as H. destruct (IH j H) as [-> ->]. now split.
Qed.

Lemma digits_chars d : forall_chars name_char (NilEmpty.string_of_uint d) = true.
Proof. induction d; cbn [NilEmpty.string_of_uint forall_chars]; try (rewrite IHd; reflexivity). reflexivity. Qed.

Lemma decimal_chars n : forall_chars name_char (decimal n) = true.
Proof.
  unfold decimal, NilZero.string_of_uint. destruct (Nat.to_uint n) eqn:E; try apply digits_chars. reflexivity.
Qed.

Lemma gname_name k n : is_name (gname k n) = true.
Proof.
  unfold gname. destruct k as [|k].
  - cbn. apply decimal_chars.
  - cbn [underscores append is_name]. replace (letter "_") with true by reflexivity. cbn [andb].
    induction k as [|k IH]; cbn [underscores append forall_chars].
    + cbn. apply decimal_chars.
    + rewrite IH. reflexivity.
Qed.

Section Vars.
  Variable client : list (string * ty).
  Variable eq_qq eq_qs : nat -> nat -> bool.
  Hypothesis client_fine : client_ok client.

  (** ** The search of a name always ends *)
  Lemma free_spec c : forallb (fun d : string * ty => negb (String.eqb (fst d) c)) client = true <-> ~ In c (map fst client).
  Proof.
    rewrite forallb_forall. split.
    - intros H K. apply in_map_iff in K as ([n t] & <- & K). specialize (H _ K). cbn in H.
      now rewrite String.eqb_refl in H.
    - intros H d K. destruct (String.eqb_spec (fst d) c) as [<-|]; [|reflexivity].
      exfalso. apply H. now apply in_map.
  Qed.

  Lemma candidate_spec fuel : forall k n,
    (exists j, k <= j /\ candidate client fuel (underscores k) n = Some (gname j n)
               /\ ~ In (gname j n) (map fst client)
               /\ forall i, k <= i < j -> In (gname i n) (map fst client))
    \/ (forall i, k <= i < k + fuel -> In (gname i n) (map fst client)).
  Proof.
    induction fuel as [|fuel IH]; intros k n.
    - right. intros i Hi. lia.
    - cbn [candidate]. change (underscores k ++ "var" ++ decimal n)%string with (gname k n).
      destruct (forallb _ client) eqn:E.
      + left. exists k. apply free_spec in E. split; [lia|]. split; [reflexivity|]. split; [exact E|]. intros; lia.
      + assert (U : In (gname k n) (map fst client)).
        { destruct (in_dec string_dec (gname k n) (map fst client)) as [K|K]; trivial.
          apply free_spec in K. congruence. }
        rewrite underscores_snoc. destruct (IH (S k) n) as [(j & A & B & C & D)|R].
        * left. exists j. split; [lia|]. split; [exact B|]. split; [exact C|].
          intros i Hi. destruct (Nat.eq_dec i k) as [->|]; trivial. apply D. lia.
        * right. intros i Hi. destruct (Nat.eq_dec i k) as [->|]; trivial. apply R. lia.
  Qed.

  Lemma candidate_found n : exists j,
    candidate client (S (length client)) "" n = Some (gname j n) /\ ~ In (gname j n) (map fst client)
    /\ forall i, i < j -> In (gname i n) (map fst client).
  Proof.
    destruct (candidate_spec (S (length client)) 0 n) as [(j & A & B & C & D)|R].
    - exists j. split; [exact B|]. split; [exact C|]. intros i Hi. apply D. lia.
    - exfalso.
      assert (ND : NoDup (map (fun i => gname i n) (seq 0 (S (length client))))).
      { apply FinFun.Injective_map_NoDup; [|apply seq_NoDup]. intros a b H. now apply gname_inj in H. }
      assert (Inc : incl (map (fun i => gname i n) (seq 0 (S (length client)))) (map fst client)).
      { intros x Hx. apply in_map_iff in Hx as (i & <- & Hi). apply in_seq in Hi. apply R. lia. }
      pose proof (NoDup_incl_length ND Inc) as L.
      rewrite map_length, seq_length, map_length in L. lia.
  Qed.

  (** ** The invariant *)
  Definition cdef (x : nat) : string * ty := nth x client ("", TName "" false).

  Inductive inv : list qvar -> Prop :=
  | inv_nil : inv []
  | inv_client vs x :
      inv vs -> x < length client -> (forall q, In q vs -> qvalue q <> VVariable x) ->
      inv (vs ++ [QVar (fst (cdef x)) (snd (cdef x)) (VVariable x)])
  | inv_gen vs k t v :
      inv vs -> (forall x, v <> VVariable x) -> ty_names t = true ->
      ~ In (gname k (length vs)) (map fst client) ->
      inv (vs ++ [QVar (gname k (length vs)) t v]).

  Lemma cdef_in x : x < length client -> In (cdef x) client.
  Proof. intros H. now apply nth_In. Qed.

  Lemma cdef_inj x y : x < length client -> y < length client -> fst (cdef x) = fst (cdef y) -> x = y.
  Proof.
    intros Hx Hy E. destruct client_fine as [ND _].
    apply (proj1 (NoDup_nth (map fst client) "") ND); rewrite ?map_length; trivial.
    change "" with (fst ("", TName "" false)). now rewrite !map_nth.
  Qed.

  Lemma inv_in vs : inv vs -> forall q, In q vs ->
    (exists x, x < length client /\ q = QVar (fst (cdef x)) (snd (cdef x)) (VVariable x))
    \/ (exists k n, n < length vs /\ qname q = gname k n /\ ~ In (qname q) (map fst client)
                    /\ ty_names (qty q) = true /\ forall x, qvalue q <> VVariable x).
  Proof.
    induction 1 as [|vs x H IH Hx Hn|vs k t v H IH Hv Ht Hn]; intros q Hq; [easy| |].
    - apply in_app_or in Hq as [Hq|[<-|[]]].
      + destruct (IH q Hq) as [L|(k & n & A & B)]; [now left|right].
        exists k, n. rewrite app_length. split; [cbn; lia|exact B].
      + left. exists x. now split.
    - apply in_app_or in Hq as [Hq|[<-|[]]].
      + destruct (IH q Hq) as [L|(k' & n & A & B)]; [now left|right].
        exists k', n. rewrite app_length. split; [cbn; lia|exact B].
      + right. exists k, (length vs). rewrite app_length. cbn. split; [lia|]. repeat (split; [easy|]). exact Hv.
  Qed.

  Lemma NoDup_snoc {A} (l : list A) x : NoDup l -> ~ In x l -> NoDup (l ++ [x]).
  Proof.
    induction 1 as [|a l Na N IH]; intros H; cbn.
    - constructor; [easy|constructor].
    - constructor.
      + rewrite in_app_iff. intros [K|[K|[]]]; [easy|]. subst. apply H. now left.
      + apply IH. intros K. apply H. now right.
  Qed.

  Lemma inv_nodup vs : inv vs -> NoDup (map qname vs).
  Proof.
    induction 1 as [|vs x H IH Hx Hn|vs k t v H IH Hv Ht Hn]; [constructor| |].
    - rewrite map_app. apply NoDup_snoc; [exact IH|].
      intros K. apply in_map_iff in K as (q & E & Hq). cbn in E.
      destruct (inv_in vs H q Hq) as [(y & Hy & ->)|(k & n & _ & _ & C & _)].
      + cbn in E. apply cdef_inj in E; trivial. subst y. now apply (Hn _ Hq).
      + apply C. rewrite E. apply in_map. now apply cdef_in.
    - rewrite map_app. apply NoDup_snoc; [exact IH|].
      intros K. apply in_map_iff in K as (q & E & Hq). cbn in E.
      destruct (inv_in vs H q Hq) as [(y & Hy & ->)|(k' & n & L & C & _)].
      + cbn in E. apply Hn. rewrite <- E. apply in_map. now apply cdef_in.
      + rewrite C in E. apply gname_inj in E as [_ E]. lia.
  Qed.

  Lemma inv_names vs : inv vs -> Forall (fun q => is_name (qname q) = true /\ ty_names (qty q) = true) vs.
  Proof.
    intros H. apply Forall_forall. intros q Hq.
    destruct (inv_in vs H q Hq) as [(x & Hx & ->)|(k & n & _ & -> & _ & T & _)].
    - destruct client_fine as [_ F]. rewrite Forall_forall in F. cbn. apply F. now apply cdef_in.
    - split; [apply gname_name|exact T].
  Qed.

  Lemma ty_eqb_eq a : forall b, ty_eqb a b = true <-> a = b.
  Proof.
    induction a as [n r|t IH r]; intros [m s|u s]; cbn; split; intros H; try easy.
    - apply andb_prop in H as [A B]. apply String.eqb_eq in A. apply Bool.eqb_prop in B. now subst.
    - injection H as -> ->. now rewrite String.eqb_refl, Bool.eqb_reflx.
    - apply andb_prop in H as [A B]. apply IH in A. apply Bool.eqb_prop in B. now subst.
    - injection H as -> ->. rewrite (proj2 (IH u) eq_refl), Bool.eqb_reflx. reflexivity.
  Qed.

  (** ** One variable *)
  Lemma get_or_insert_spec (J : Type) (sem : value -> option J) t v vs
    (Hsem : forall a b, same_value eq_qq eq_qs a b = true -> sem a = sem b) :
    inv vs -> ty_names t = true -> (forall s, v <> VConst s) ->
    (forall x, v = VVariable x -> x < length client) ->
    exists q ext, get_or_insert client eq_qq eq_qs t v vs = (qname q, vs ++ ext)
      /\ inv (vs ++ ext) /\ In q (vs ++ ext) /\ sem (qvalue q) = sem v /\ qty q = declared_type client t v
      /\ (ext = [] \/ ext = [q]).
  Proof.
    intros I Ht Nc Hv. unfold get_or_insert.
    destruct v as [s|x|a|a|a]; [exfalso; now apply (Nc s)| | | |].
    1:{ cbn [declared_type]. change (nth x client ("", TName "" false)) with (cdef x).
        destruct (find _ vs) as [q|] eqn:F.
        - apply find_some in F as [F1 F2]. apply andb_prop in F2 as [F2 F3]. apply ty_eqb_eq in F2.
          exists q, []. rewrite app_nil_r. split; [reflexivity|]. split; [exact I|]. split; [exact F1|].
          split; [now apply Hsem|]. split; [exact F2|now left].
        - exists (QVar (fst (cdef x)) (snd (cdef x)) (VVariable x)), [QVar (fst (cdef x)) (snd (cdef x)) (VVariable x)].
          split; [reflexivity|]. split.
          + apply inv_client; [exact I|now apply Hv|].
            intros q Hq E. destruct (inv_in vs I q Hq) as [(y & Hy & ->)|(k & n & _ & _ & _ & _ & D)].
            * cbn in E. injection E as ->. apply (find_none _ _ F) in Hq. cbn in Hq.
              rewrite (proj2 (ty_eqb_eq _ _) eq_refl), Nat.eqb_refl in Hq. discriminate Hq.
            * now apply (D x).
          + split; [apply in_or_app; right; now left|]. split; [reflexivity|]. split; [reflexivity|now right]. }
    all: destruct (find _ vs) as [q|] eqn:F;
      [ apply find_some in F as [F1 F2]; apply andb_prop in F2 as [F2 F3]; apply ty_eqb_eq in F2;
        exists q, []; rewrite app_nil_r; split; [reflexivity|]; split; [exact I|]; split; [exact F1|];
        split; [now apply Hsem|]; split; [exact F2|now left]
      | destruct (candidate_found (length vs)) as (j & C1 & C2 & _); rewrite C1;
        match goal with |- context [QVar _ _ ?v] => exists (QVar (gname j (length vs)) t v), [QVar (gname j (length vs)) t v] end;
        split; [reflexivity|]; split;
          [ apply inv_gen; trivial; intros x; discriminate
          | split; [apply in_or_app; right; now left|]; split; [reflexivity|]; split; [reflexivity|now right] ] ].
  Qed.
End Vars.
