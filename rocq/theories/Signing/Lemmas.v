(** Keys, tables of subgraphs and merged settings. *)
From Coq Require Import List Bool Ascii String PeanoNat NArith Lia.
From Verif.Signing Require Import Model Spec.
Import ListNotations.

Lemma bind_good {E A B} (o : outcome E A) (f : A -> outcome E B) b :
  bind o f = Good b <-> exists a, o = Good a /\ f a = Good b.
Proof.
  destruct o as [a|e|]; cbn; split.
  - intros H; exists a; auto.
  - intros (a' & H & K); injection H as <-; exact K.
  - discriminate.
  - intros (a & H & _); discriminate.
  - discriminate.
  - intros (a & H & _); discriminate.
Qed.

Lemma ok_or_good {E A} (e : E) (o : option A) a : ok_or e o = Good a <-> o = Some a.
Proof. destruct o; cbn; split; congruence. Qed.

Lemma or_some {A} (a b : option A) v : or_ a b = Some v <-> a = Some v \/ (a = None /\ b = Some v).
Proof.
  destruct a; cbn; split.
  - auto.
  - intros [H|[H _]]; [exact H|discriminate].
  - auto.
  - intros [H|[_ H]]; [discriminate|exact H].
Qed.

(** ** Texts *)

Lemma space_spec c : is_space c = true <-> Space c.
Proof.
  unfold is_space; rewrite orb_true_iff, andb_true_iff, N.eqb_eq, !N.leb_le; split.
  - intros [H|H]; [|constructor; exact H].
    rewrite <- (ascii_N_embedding c), H; vm_compute; constructor.
  - intros K; inversion K as [E|c' H E]; [left; reflexivity|right; exact H].
Qed.

Lemma json_spec s : looks_like_json s = true <-> JsonText s.
Proof.
  induction s as [|c s IH]; cbn.
  - split; [discriminate|intros H; inversion H].
  - destruct (is_space c) eqn:Q.
    + rewrite IH; split.
      * intros H; apply json_space; [apply space_spec; exact Q|exact H].
      * intros H; inversion H as [s' E|c' s' P R E]; subst; [vm_compute in Q; discriminate|exact R].
    + rewrite Ascii.eqb_eq; split.
      * intros ->; constructor.
      * intros H; inversion H as [s' E|c' s' P R E]; subst; [reflexivity|].
        apply space_spec in P; congruence.
Qed.

Section Keys.
Variable read : string -> option string.
Variable b64 : string -> option bytes.
Variable b64url : string -> option bytes.
Variable pem : string -> option (algorithm * bytes).
Variable json : string -> option jwk.
Variable ec : algorithm -> string -> string -> string -> option bytes.

Notation parse_jwk := (parse_jwk b64url json ec).
Notation from_file := (from_file read b64 b64url pem json ec).
Notation load_from := (load_from read b64 b64url pem json ec).

Lemma ec_spec a j m :
  ec_key_from_jwk ec a j = Good m <->
  exists c d_ x_ y_, crv j = Some c /\ d j = Some d_ /\ x j = Some x_ /\ y j = Some y_ /\ ec a x_ y_ d_ = Some m.
Proof.
  unfold ec_key_from_jwk.
  destruct (crv j) as [c|], (d j) as [d_|], (x j) as [x_|], (y j) as [y_|]; cbn;
    try (split; [discriminate|intros (c' & d' & x' & y' & A & B & C & D & F); discriminate]).
  rewrite ok_or_good; split.
  - intros H; exists c, d_, x_, y_; auto.
  - intros (c' & d' & x' & y' & A & B & C & D & F); congruence.
Qed.

Lemma ed_good j key :
  parse_ed25519 b64url j = Good key <->
  exists d_ x_ private public,
    d j = Some d_ /\ x j = Some x_ /\ b64url d_ = Some private /\ b64url x_ = Some public /\
    List.length private = 32 /\ List.length public = 32 /\ key = Secret Ed25519 (private ++ public) (kid j).
Proof.
  unfold parse_ed25519, validate_private_key, copy_from_slice.
  destruct (d j) as [d_|]; cbn; [|split; [discriminate|intros (? & ? & ? & ? & A & _); discriminate]].
  destruct (x j) as [x_|]; cbn; [|split; [discriminate|intros (? & ? & ? & ? & _ & A & _); discriminate]].
  split.
  - destruct (b64url d_) as [p|] eqn:P; [|discriminate].
    destruct (b64url x_) as [u|] eqn:U; [|discriminate].
    destruct (negb _); [discriminate|].
    destruct (Nat.eqb_spec (List.length p) 32) as [Lp|]; cbn; [|discriminate].
    destruct (Nat.eqb_spec (List.length u) 32) as [Lu|]; cbn; [|discriminate].
    intros H; injection H as <-. exists d_, x_, p, u; auto 10.
  - intros (d' & x' & p & u & D & X & P & U & Lp & Lu & ->).
    injection D as <-. injection X as <-. rewrite P, U, Lp, Lu; reflexivity.
Qed.

Lemma ed_panic j :
  parse_ed25519 b64url j = Panic <->
  exists d_ x_ private public,
    d j = Some d_ /\ x j = Some x_ /\ b64url d_ = Some private /\ b64url x_ = Some public /\
    List.length private <> 32 /\ List.length private + List.length public = 64.
Proof.
  unfold parse_ed25519, validate_private_key, copy_from_slice.
  destruct (d j) as [d_|]; cbn; [|split; [discriminate|intros (? & ? & ? & ? & A & _); discriminate]].
  destruct (x j) as [x_|]; cbn; [|split; [discriminate|intros (? & ? & ? & ? & _ & A & _); discriminate]].
  split.
  - destruct (b64url d_) as [p|] eqn:P; [|discriminate].
    destruct (b64url x_) as [u|] eqn:U; [|discriminate].
    destruct (Nat.eqb_spec (List.length p + List.length u) 64) as [T|]; cbn; [|discriminate].
    intros H. exists d_, x_, p, u. do 4 (split; [auto|]). split; [|exact T].
    intros Lp. assert (Lu : List.length u = 32) by lia. rewrite Lp, Lu in H; discriminate.
  - intros (d' & x' & p & u & D & X & P & U & Lp & T).
    injection D as <-. injection X as <-. rewrite P, U, T; cbn.
    destruct (Nat.eqb_spec (List.length p) 32) as [Q|]; [contradiction|reflexivity].
Qed.

Lemma curve_spec t c a : CurveAlg t c a <->
  t = "EC"%string /\ ((c = "P-256"%string /\ a = EcdsaP256) \/ (c = "P-384"%string /\ a = EcdsaP384)).
Proof.
  split.
  - intros H; inversion H; auto.
  - intros (-> & [(-> & ->)|(-> & ->)]); constructor.
Qed.

Lemma ec_key_good j c a key :
  crv j = Some c -> CurveAlg (kty j) c a ->
  (bind (validate_private_key j) (fun _ => bind (ec_key_from_jwk ec a j) (fun m => Good (Secret a m (kid j))))
   = Good key <-> JwkKey b64url ec j key).
Proof.
  intros Cr Ca. unfold validate_private_key. rewrite bind_good. setoid_rewrite bind_good. setoid_rewrite ok_or_good.
  setoid_rewrite ec_spec. split.
  - intros (d0 & D0 & m & (c' & d_ & x_ & y_ & A & B & C & D & F) & H). injection H as <-.
    exact (jwk_ec b64url ec j c a d_ x_ y_ m Cr Ca B C D F).
  - intros K. apply curve_spec in Ca. destruct Ca as (T & Ca).
    inversion K as [c' a' d_ x_ y_ m A B C D F G H | d_ x_ p u A | k_ m A]; [|congruence|congruence].
    exists d_; split; [exact C|]. exists m.
    rewrite Cr in A; injection A as <-.
    apply curve_spec in B. destruct B as (_ & B).
    assert (a' = a) as -> by (destruct Ca as [(-> & ->)|(-> & ->)], B as [(E & ->)|(E & ->)]; congruence).
    split; [|reflexivity]. exists c, d_, x_, y_; auto.
Qed.

Lemma jwk_spec data key :
  parse_jwk data = Good key <-> exists j, json data = Some j /\ JwkKey b64url ec j key.
Proof.
  unfold Model.parse_jwk.
  destruct (json data) as [j|]; [|split; [discriminate|intros (j & H & _); discriminate]].
  transitivity (JwkKey b64url ec j key); [|split; [intros H; exists j; auto|intros (j' & A & B); congruence]].
  destruct (String.eqb_spec (kty j) "EC") as [T|T].
  { destruct (crv j) as [c|] eqn:Cr.
    - destruct (String.eqb_spec c "P-256") as [Ec|N1].
      { apply (ec_key_good j c); [exact Cr|rewrite T, Ec; constructor]. }
      destruct (String.eqb_spec c "P-384") as [Ec|N2].
      { apply (ec_key_good j c); [exact Cr|rewrite T, Ec; constructor]. }
      split; [discriminate|]. intros K.
      inversion K as [c' a' d_ x_ y_ m A B | d_ x_ p u A | k_ m A]; [|congruence|congruence].
      apply curve_spec in B. destruct B as (_ & [(B & _)|(B & _)]); congruence.
    - split; [discriminate|]. intros K.
      inversion K as [c' a' d_ x_ y_ m A B | d_ x_ p u A | k_ m A]; congruence. }
  destruct (String.eqb_spec (kty j) "OKP") as [T2|T2].
  { destruct (crv j) as [c|] eqn:Cr.
    - destruct (String.eqb_spec c "Ed25519") as [Ec|N1].
      + rewrite ed_good; split.
        * intros (d_ & x_ & p & u & A & B & C & D & F & G & ->). eapply jwk_ed; eauto. congruence.
        * intros K. inversion K as [c' a' d_ x_ y_ m A B | d_ x_ p u A B C D F G H I | k_ m A].
          -- apply curve_spec in B. destruct B; congruence.
          -- exists d_, x_, p, u; auto 10.
          -- congruence.
      + split; [discriminate|]. intros K.
        inversion K as [c' a' d_ x_ y_ m A B | d_ x_ p u A | k_ m A]; [|congruence|congruence].
        apply curve_spec in B. destruct B; congruence.
    - split; [discriminate|]. intros K.
      inversion K as [c' a' d_ x_ y_ m A B | d_ x_ p u A | k_ m A]; congruence. }
  assert (NE : forall key, JwkKey b64url ec j key -> exists k_ m, kty j = "oct"%string /\ alg j = Some "HS256"%string /\
            Model.k j = Some k_ /\ b64url k_ = Some m /\ key = Shared m (kid j)).
  { intros key' K. inversion K as [c' a' d_ x_ y_ m A B | d_ x_ p u A | k_ m A B C D]; [|congruence|].
    - apply curve_spec in B. destruct B; congruence.
    - exists k_, m; auto 10. }
  destruct (String.eqb_spec (kty j) "oct") as [T3|T3].
  - destruct (alg j) as [a|] eqn:Al.
    + destruct (String.eqb_spec a "HS256") as [Ea|Na].
      * destruct (Model.k j) as [k_|] eqn:Kk.
        -- destruct (b64url k_) as [m|] eqn:Bm.
           ++ split.
              ** intros H; injection H as <-. eapply jwk_oct; eauto. congruence.
              ** intros K; apply NE in K. destruct K as (k' & m' & _ & _ & A & B & ->). congruence.
           ++ split; [discriminate|]. intros K; apply NE in K. destruct K as (k' & m' & _ & _ & A & B & _). congruence.
        -- split; [discriminate|]. intros K; apply NE in K. destruct K as (k' & m' & _ & _ & A & _). congruence.
      * split; [discriminate|]. intros K; apply NE in K. destruct K as (k' & m' & _ & A & _). congruence.
    + split; [discriminate|]. intros K; apply NE in K. destruct K as (k' & m' & _ & A & _). congruence.
  - split; [discriminate|]. intros K; apply NE in K. destruct K as (k' & m' & A & _). congruence.
Qed.

Lemma jwk_not_secret_hmac j m i : ~ JwkKey b64url ec j (Secret HmacSha256 m i).
Proof.
  intros K. inversion K as [c' a' d_ x_ y_ m' A B | |]. apply curve_spec in B.
  destruct B as (_ & [(_ & B)|(_ & B)]); discriminate.
Qed.

Lemma file_spec name id want key :
  from_file name want = Good key <-> SourceKey read b64 b64url pem json ec want (File name id) key.
Proof.
  unfold Model.from_file. rewrite bind_good. setoid_rewrite ok_or_good. setoid_rewrite bind_good.
  assert (FK : forall data key0,
    (if looks_like_json data then parse_jwk data
     else match want with
          | Some HmacSha256 => bind (ok_or BadKey (b64 data)) (fun m => Good (Shared m None))
          | _ => bind (ok_or BadKey (pem data)) (fun am => Good (Secret (fst am) (snd am) None))
          end) = Good key0 <-> FileKey b64 b64url pem json ec want data key0).
  { intros data key0. destruct (looks_like_json data) eqn:J.
    - apply json_spec in J. rewrite jwk_spec. split.
      + intros (j & A & B). eapply file_jwk; eauto.
      + intros K; inversion K as [j k' A B C | m A | a m A]; [exists j; auto|contradiction|contradiction].
    - assert (NJ : ~ JsonText data) by (intros H; apply json_spec in H; congruence).
      assert (PEM : want <> Some HmacSha256 ->
        bind (ok_or BadKey (pem data)) (fun am => Good (Secret (fst am) (snd am) None)) = Good key0 <->
        FileKey b64 b64url pem json ec want data key0).
      { intros W. rewrite bind_good. setoid_rewrite ok_or_good. split.
        - intros ([a m] & A & B). injection B as <-. apply file_pem; auto.
        - intros K; inversion K as [j k' A B C | m A B | a m A B C]; [contradiction|contradiction|].
          exists (a, m); auto. }
      destruct want as [[]|]; try (apply PEM; discriminate).
      rewrite bind_good. setoid_rewrite ok_or_good. split.
      + intros (m & A & B). injection B as <-. apply file_hmac; auto.
      + intros K; inversion K as [j k' A B C | m A B C | a m A B C]; [contradiction| |congruence].
        exists m; auto. }
  split.
  - intros (data & R & key0 & F & H). apply FK in F.
    assert (key0 = key /\ forall a, want = Some a -> KeyFor a key) as (-> & KF).
    { destruct key0 as [a m i|m i]; [destruct a|]; destruct want as [[]|]; try discriminate;
        injection H as <-; (split; [reflexivity|intros b Eb; try discriminate; injection Eb as <-; reflexivity]). }
    eapply source_file; eauto.
  - intros K; inversion K as [n' id' data key' R F KF|]; subst. exists data. split; [exact R|].
    exists key. split; [apply FK; exact F|].
    destruct want as [w|]; [|destruct key as [[]|]; reflexivity].
    specialize (KF w eq_refl). destruct key as [a m i|m i]; cbn in KF; subst w; [|reflexivity].
    destruct a; try reflexivity. exfalso.
    inversion F as [j k' A B C | m' A B C | a' m' A B C]; subst; [|congruence].
    exact (jwk_not_secret_hmac _ _ _ C).
Qed.

(** What is loaded is what the source contains. *)
Lemma load_spec src want key :
  load_from src want = Good key <-> SourceKey read b64 b64url pem json ec want src key.
Proof.
  destruct src as [name id|text id]; cbn [Model.load_from]; [apply file_spec|].
  unfold from_string. split.
  - intros H. destruct want as [[]|]; cbn in H; try discriminate;
      apply bind_good in H; destruct H as (m & A & B); apply ok_or_good in A; injection B as <-;
      apply source_inline; auto.
  - intros K; inversion K as [|t' id' m W B]; subst. destruct W as [-> | ->]; cbn; rewrite B; reflexivity.
Qed.

Lemma source_key_alg src want key a :
  SourceKey read b64 b64url pem json ec want src key -> want = Some a -> KeyFor a key.
Proof.
  intros K W. inversion K as [n' id' data key' R F KF|t' id' m W' B]; subst.
  - apply KF; reflexivity.
  - destruct W' as [W'|W']; [discriminate|]. injection W' as ->. reflexivity.
Qed.

End Keys.

(** ** Tables *)

Lemma to_id_from_spec schema : forall i n id,
  NoDup schema -> (to_id_from i schema n = Some id <-> exists j, id = i + j /\ nth_error schema j = Some n).
Proof.
  induction schema as [|s schema IH]; intros i n id ND; cbn [to_id_from].
  - split; [discriminate|]. intros (j & _ & H). destruct j; discriminate.
  - inversion ND as [|s' l NI ND']; subst. rewrite or_some, (IH (S i) n id ND'). split.
    + intros [(j & -> & H)|(_ & H)].
      * exists (S j); split; [lia|exact H].
      * destruct (String.eqb_spec s n) as [->|]; [|discriminate]. injection H as <-. exists 0; split; [lia|reflexivity].
    + intros (j & -> & H). destruct j as [|j].
      * injection H as ->. right. split.
        -- destruct (to_id_from (S i) schema n) as [id|] eqn:Q; [|reflexivity]. exfalso.
           apply (IH (S i) n id ND') in Q. destruct Q as (j & _ & Q). apply nth_error_In in Q. contradiction.
        -- rewrite String.eqb_refl. f_equal; lia.
      * left. exists j. split; [lia|exact H].
Qed.

Lemma to_id_spec schema n id : NoDup schema -> (to_id schema n = Some id <-> nth_error schema id = Some n).
Proof.
  intros ND. unfold to_id. rewrite (to_id_from_spec schema 0 n id ND). split.
  - intros (j & -> & H); exact H.
  - intros H; exists id; auto.
Qed.

Lemma to_id_none schema n : NoDup schema -> to_id schema n = None -> ~ In n schema.
Proof.
  intros ND H K. apply In_nth_error in K. destruct K as (i & K). apply (to_id_spec schema n i ND) in K. congruence.
Qed.

Lemma get_in {A} (l : list (nat * A)) id a : get l id = Some a -> In (id, a) l.
Proof.
  induction l as [|[i b] l IH]; cbn; [discriminate|]. rewrite or_some. intros [H|(_ & H)]; [right; auto|].
  destruct (Nat.eqb_spec i id) as [->|]; [|discriminate]. injection H as ->. left; reflexivity.
Qed.

Lemma get_none {A} (l : list (nat * A)) id : get l id = None -> forall a, ~ In (id, a) l.
Proof.
  induction l as [|[i b] l IH]; cbn; [auto|]. intros H a.
  destruct (get l id) eqn:G; [discriminate|]. cbn in H. intros [K|K]; [|exact (IH eq_refl a K)].
  injection K as -> ->. rewrite Nat.eqb_refl in H; discriminate.
Qed.

(** ** Settings *)

Lemma own_unique c n s s' :
  NoDup (map fst (g_subgraphs c)) -> OwnSection c n s -> OwnSection c n s' -> s = s'.
Proof.
  intros ND (sc & A & B) (sc' & A' & B').
  assert (sc = sc') as <-; [|congruence].
  induction (g_subgraphs c) as [|[m t] l IH]; [contradiction|].
  cbn in ND; inversion ND as [|? ? NI ND']; subst.
  destruct A as [A|A], A' as [A'|A'].
  - congruence.
  - injection A as -> ->. exfalso; apply NI. apply (in_map fst) in A'. exact A'.
  - injection A' as -> ->. exfalso; apply NI. apply (in_map fst) in A. exact A.
  - exact (IH ND' A A').
Qed.

(** What a setting is, by the subgraph's section or none. *)
Lemma says_own_iff c n s {A} (f : sig_config -> option A) r :
  NoDup (map fst (g_subgraphs c)) -> OwnSection c n s ->
  (Says c n f r <-> or_ (f s) (f (g_signatures c)) = r).
Proof.
  intros ND O. split.
  - intros K; destruct K as [s' v O' E|H].
    + rewrite (own_unique c n s s' ND O O'), E; reflexivity.
    + rewrite (H s O); reflexivity.
  - intros <-. destruct (f s) as [v|] eqn:Q; cbn.
    + exact (says_own c n f s v O Q).
    + apply says_gateway. intros s' O'. rewrite <- (own_unique c n s s' ND O O'); exact Q.
Qed.

Lemma says_none_iff c n {A} (f : sig_config -> option A) r :
  (forall s, ~ OwnSection c n s) -> (Says c n f r <-> f (g_signatures c) = r).
Proof.
  intros H. split.
  - intros K; destruct K as [s v O E|_]; [destruct (H s O)|reflexivity].
  - intros <-. apply says_gateway. intros s O; destruct (H s O).
Qed.
