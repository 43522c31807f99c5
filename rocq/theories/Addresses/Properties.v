(** C119: addresses of trusted documents and graphs. *)
From Coq Require Import List Bool Ascii String NArith Lia.
From Verif.Addresses Require Import Model Spec.
Import ListNotations.
Open Scope char_scope.

Local Ltac each := repeat (apply Forall_nil || apply Forall_cons).

(** ** Escaping *)

Lemma decode_escape_char c r : c <> "%" -> decode (escape_char c ++ r) = c :: decode r.
Proof.
  intros NP. destruct c as [[|] [|] [|] [|] [|] [|] [|] [|]]; try reflexivity; destruct (NP eq_refl).
Qed.

Lemma decode_percent c r : decode (percent c ++ r) = c :: decode r.
Proof. destruct c as [[|] [|] [|] [|] [|] [|] [|] [|]]; reflexivity. Qed.

Lemma decode_escape s : ~ In "%" s -> decode (escape s) = s.
Proof.
  induction s as [|c s IH]; intros H; [reflexivity|]. cbn [escape flat_map].
  rewrite decode_escape_char; [|intros ->; apply H; left; reflexivity].
  f_equal. apply IH. intros K; apply H; right; exact K.
Qed.

Lemma dot_decode t r : dot t = Some r -> decode t = "." :: decode r.
Proof.
  destruct t as [|a t]; [discriminate|].
  destruct a as [[|] [|] [|] [|] [|] [|] [|] [|]]; try discriminate.
  - destruct t as [|b t]; [discriminate|].
    destruct b as [[|] [|] [|] [|] [|] [|] [|] [|]]; try discriminate.
    destruct t as [|c t]; [discriminate|].
    destruct c as [[|] [|] [|] [|] [|] [|] [|] [|]]; try discriminate; intros H; injection H as <-; reflexivity.
  - intros H. injection H as <-. reflexivity.
Qed.

Lemma single_decode t : is_single_dot t = true -> decode t = ["."].
Proof.
  unfold is_single_dot. destruct (dot t) as [[|]|] eqn:D; try discriminate. intros _. apply (dot_decode _ _ D).
Qed.
Lemma double_decode t : is_double_dot t = true -> decode t = ["."; "."].
Proof.
  unfold is_double_dot. destruct (dot t) as [r|] eqn:D; [|discriminate]. intros H.
  rewrite (dot_decode _ _ D), (single_decode _ H). reflexivity.
Qed.

(** ** Segments *)

(** A text without separators and characters that are removed. *)
Definition solid (s : text) : Prop := forall c, In c s -> is_sep c = false /\ is_ignored c = false.

Lemma plain_solid s : Plain s -> solid s.
Proof.
  intros (A & B & _ & C & D & E & _) c I_. unfold is_sep, is_ignored. rewrite !orb_false_iff.
  repeat split; apply Ascii.eqb_neq; intros ->; contradiction.
Qed.

Lemma split_solid s : solid s -> split s = [s].
Proof.
  induction s as [|c s IH]; intros H; [reflexivity|]. cbn [split].
  destruct (H c (or_introl eq_refl)) as (-> & _). rewrite IH; [reflexivity|]. intros x I_; apply H; right; exact I_.
Qed.

Lemma split_app s r : solid s -> split (s ++ "/" :: r) = s :: split r.
Proof.
  induction s as [|c s IH]; intros H; [reflexivity|]. cbn [split app].
  destruct (H c (or_introl eq_refl)) as (-> & _). rewrite IH; [reflexivity|]. intros x I_; apply H; right; exact I_.
Qed.

Definition clean (s : text) : text := filter (fun c => negb (is_ignored c)) s.

Lemma clean_solid s : solid s -> clean s = s.
Proof.
  induction s as [|c s IH]; intros H; [reflexivity|]. unfold clean in *. cbn [filter].
  destruct (H c (or_introl eq_refl)) as (_ & ->). cbn [negb]. f_equal. apply IH. intros x I_; apply H; right; exact I_.
Qed.
Lemma clean_app a b : clean (a ++ b) = clean a ++ clean b.
Proof. apply filter_app. Qed.

(** A path made of solid segments. *)
Fixpoint path_of (s : text) (segs : list text) : text :=
  match segs with
  | [] => s
  | t :: segs => s ++ "/" :: path_of t segs
  end.

Lemma clean_path segs : forall s, solid s -> Forall solid segs -> clean (path_of s segs) = path_of s segs.
Proof.
  induction segs as [|t segs IH]; intros s H HS; cbn [path_of]; [apply clean_solid; exact H|].
  inversion HS as [|? ? H1 H2]; subst. rewrite clean_app, (clean_solid s H). f_equal.
  change (clean ("/" :: path_of t segs)) with ("/" :: clean (path_of t segs)). f_equal. apply IH; assumption.
Qed.
Lemma split_path segs : forall s, solid s -> Forall solid segs -> split (path_of s segs) = s :: segs.
Proof.
  induction segs as [|t segs IH]; intros s H HS; cbn [path_of]; [apply split_solid; exact H|].
  inversion HS as [|? ? H1 H2]; subst. rewrite split_app by exact H. f_equal. apply IH; assumption.
Qed.

Lemma set_path_relative s segs :
  solid s -> s <> [] -> Forall solid segs -> set_path (path_of s segs) = rev (normalize [] (map escape (s :: segs))).
Proof.
  intros H NE HS. unfold set_path. fold (clean (path_of s segs)). rewrite clean_path by assumption.
  destruct s as [|c s]; [contradiction|].
  assert (E : path_of (c :: s) segs = c :: match segs with [] => s | t :: segs' => s ++ "/" :: path_of t segs' end).
  { destruct segs; reflexivity. }
  rewrite <- (split_path segs (c :: s) H HS). rewrite E at 1.
  destruct (H c (or_introl eq_refl)) as (Q & _). rewrite Q. reflexivity.
Qed.

Lemma set_path_absolute s segs :
  solid s -> Forall solid segs -> set_path ("/" :: path_of s segs) = rev (normalize [] (map escape (s :: segs))).
Proof.
  intros H HS. unfold set_path. fold (clean ("/" :: path_of s segs)).
  change (clean ("/" :: path_of s segs)) with ("/" :: clean (path_of s segs)). rewrite clean_path by assumption.
  cbn [is_sep]. change (is_sep "/") with true. cbv iota. rewrite (split_path segs s H HS). reflexivity.
Qed.

(** A segment that stays. *)
Definition stays (s : text) : Prop := is_double_dot s = false /\ is_single_dot s = false.

Lemma normalize_stays segs : forall done, Forall stays segs -> normalize done segs = rev segs ++ done.
Proof.
  induction segs as [|s segs IH]; intros done H; [reflexivity|]. inversion H as [|? ? (A & B) H2]; subst.
  cbn [normalize]. rewrite A, B, IH by exact H2. cbn [rev]. rewrite <- app_assoc. reflexivity.
Qed.
Lemma normalize_cons s segs done : stays s -> normalize done (s :: segs) = normalize (s :: done) segs.
Proof. intros (A & B). cbn [normalize]. rewrite A, B. reflexivity. Qed.

Lemma plain_stays s : Plain s -> stays (escape s).
Proof.
  intros (_ & _ & P & _ & _ & _ & D1 & D2). split.
  - destruct (is_double_dot (escape s)) eqn:Q; [|reflexivity]. apply double_decode in Q. rewrite decode_escape in Q by exact P.
    contradiction.
  - destruct (is_single_dot (escape s)) eqn:Q; [|reflexivity]. apply single_decode in Q. rewrite decode_escape in Q by exact P.
    contradiction.
Qed.

Lemma plain_intro s : forallb (fun c => negb (is_sep c || is_ignored c || Ascii.eqb c "%")) s = true ->
  s <> ["."] -> s <> ["."; "."] -> Plain s.
Proof.
  intros F D1 D2. assert (H : forall c, In c s -> is_sep c = false /\ is_ignored c = false /\ c <> "%").
  { intros c I_. apply (proj1 (forallb_forall _ s) F) in I_. apply negb_true_iff in I_. rewrite !orb_false_iff in I_.
    destruct I_ as ((A & B) & C). split; [exact A|]. split; [exact B|]. apply Ascii.eqb_neq. exact C. }
  unfold Plain. repeat split; try assumption; intros I_; apply H in I_; destruct I_ as (A & B & C);
    solve [vm_compute in A; discriminate | vm_compute in B; discriminate | apply C; reflexivity].
Qed.

Lemma plain_td : Plain (T "trusted-documents").
Proof. apply plain_intro; [vm_compute; reflexivity|discriminate|discriminate]. Qed.
Lemma plain_branch : Plain (T "branch").
Proof. apply plain_intro; [vm_compute; reflexivity|discriminate|discriminate]. Qed.
Lemma plain_graphs : Plain (T "graphs").
Proof. apply plain_intro; [vm_compute; reflexivity|discriminate|discriminate]. Qed.
Lemma plain_version : Plain (T "version").
Proof. apply plain_intro; [vm_compute; reflexivity|discriminate|discriminate]. Qed.

Lemma decode_plain s : Plain s -> decode (escape s) = s.
Proof. intros (_ & _ & P & _). apply decode_escape. exact P. Qed.

Lemma plain_set_path s segs :
  Plain s -> s <> [] -> Forall Plain segs -> map decode (set_path (path_of s segs)) = s :: segs.
Proof.
  intros H NE HS. rewrite set_path_relative; [|apply plain_solid; exact H|exact NE|].
  2:{ eapply Forall_impl; [|exact HS]. apply plain_solid. }
  rewrite normalize_stays.
  - rewrite app_nil_r, rev_involutive, map_map. cbn [map]. rewrite decode_plain by exact H. f_equal.
    induction HS as [|t l Ht _ IH]; [reflexivity|]. cbn [map]. rewrite decode_plain by exact Ht. f_equal; exact IH.
  - apply Forall_map. constructor; [apply plain_stays; exact H|]. eapply Forall_impl; [|exact HS]. apply plain_stays.
Qed.

Lemma trusted_path b c d :
  trusted_document_url b c d = set_path (path_of (T "trusted-documents") [T "branch"; b; c; d]).
Proof. reflexivity. Qed.

(** ** Trusted documents *)

(** For plain names the address is that of the document of this identifier, of this client, in the gateway's branch. *)
Theorem C119_document b c d : Plain b -> Plain c -> Plain d -> Document b c d (trusted_document_url b c d).
Proof.
  intros B C D. unfold Document. rewrite trusted_path.
  apply plain_set_path; [exact plain_td|discriminate|]. each; try assumption; exact plain_branch.
Qed.

(** Different plain names have different addresses. *)
Theorem C119_distinct b c d b' c' d' :
  Plain b -> Plain c -> Plain d -> Plain b' -> Plain c' -> Plain d' ->
  trusted_document_url b c d = trusted_document_url b' c' d' -> b = b' /\ c = c' /\ d = d'.
Proof.
  intros B C D B' C' D' E. pose proof (C119_document b c d B C D) as H. pose proof (C119_document b' c' d' B' C' D') as H'.
  unfold Document in *. rewrite E in H. rewrite H in H'. injection H' as -> -> ->. auto.
Qed.

(** Hashes are plain: a request with a hash, or with the text of a document, asks for that document. *)
Theorem C119_hash b c d :
  Plain b -> Plain c -> Forall HexDigit d -> Document b c d (trusted_document_url b c d).
Proof.
  intros B C H. apply C119_document; [exact B|exact C|].
  assert (X : forall x, ~ HexDigit x -> ~ In x d).
  { intros x NX I_. rewrite Forall_forall in H. exact (NX (H x I_)). }
  assert (NH : forall x, (if in_dec ascii_dec x (T "0123456789abcdef") then true else false) = false -> ~ HexDigit x).
  { intros x. destruct (in_dec ascii_dec x _); [discriminate|auto]. }
  unfold Plain. repeat split; try (apply X, NH; vm_compute; reflexivity).
  - intros ->. inversion H as [|? ? K _]; subst. revert K. apply NH. vm_compute. reflexivity.
  - intros ->. inversion H as [|? ? K _]; subst. revert K. apply NH. vm_compute. reflexivity.
Qed.

(** But identifiers of documents are chosen by clients: whatever the gateway's branch and the client's name are, there's one for any
    document of any client in any branch. *)
Lemma solid_dots : solid (T "..").
Proof. intros c [<-|[<-|[]]]; split; vm_compute; reflexivity. Qed.

Theorem C119_reaches b c b' c' d' :
  Plain b -> Plain c -> Plain b' -> Plain c' -> Plain d' ->
  exists d, trusted_document_url b c d = trusted_document_url b' c' d'.
Proof.
  intros B C B' C' D'. exists (path_of (T "..") [T ".."; b'; c'; d']).
  change (trusted_document_url b c (path_of (T "..") [T ".."; b'; c'; d'])) with
    (set_path (path_of (T "trusted-documents") [T "branch"; b; c; T ".."; T ".."; b'; c'; d'])).
  rewrite trusted_path.
  rewrite !set_path_relative;
    try solve [discriminate | apply plain_solid, plain_td |
               each; solve [apply plain_solid; assumption | apply plain_solid, plain_branch | apply solid_dots]].
  f_equal. cbn [map].
  rewrite !(normalize_cons (escape (T "trusted-documents"))) by apply plain_stays, plain_td.
  rewrite !(normalize_cons (escape (T "branch"))) by apply plain_stays, plain_branch.
  rewrite (normalize_cons (escape b)) by (apply plain_stays; exact B).
  rewrite (normalize_cons (escape c)) by (apply plain_stays; exact C).
  reflexivity.
Qed.

(** Nor are they limited to documents: any object of the storage can be had, and is read as a document. *)
Theorem C119_anything b c s segs :
  Plain b -> Plain c -> Plain s -> Forall Plain segs ->
  exists d, map decode (trusted_document_url b c d) = s :: segs.
Proof.
  intros B C P PS. exists (path_of (T "..") (T ".." :: T ".." :: T ".." :: s :: segs)).
  change (trusted_document_url b c _) with
    (set_path (path_of (T "trusted-documents") (T "branch" :: b :: c :: T ".." :: T ".." :: T ".." :: T ".." :: s :: segs))).
  rewrite set_path_relative; [|apply plain_solid, plain_td|discriminate|].
  2:{ assert (SS : Forall solid segs) by (eapply Forall_impl; [|exact PS]; apply plain_solid).
      repeat (apply Forall_cons); try exact SS;
        solve [apply plain_solid; assumption | apply plain_solid, plain_branch | apply solid_dots]. }
  cbn [map].
  rewrite (normalize_cons (escape (T "trusted-documents"))) by apply plain_stays, plain_td.
  rewrite (normalize_cons (escape (T "branch"))) by apply plain_stays, plain_branch.
  rewrite (normalize_cons (escape b)) by (apply plain_stays; exact B).
  rewrite (normalize_cons (escape c)) by (apply plain_stays; exact C).
  change (normalize [escape c; escape b; escape (T "branch"); escape (T "trusted-documents")]
            (escape (T "..") :: escape (T "..") :: escape (T "..") :: escape (T "..") :: escape s :: map escape segs))
    with (normalize [] (map escape (s :: segs))).
  rewrite normalize_stays.
  - rewrite app_nil_r, rev_involutive, map_map. cbn [map]. rewrite decode_plain by exact P. f_equal.
    induction PS as [|t l Ht _ IH]; [reflexivity|]. cbn [map]. rewrite decode_plain by exact Ht. f_equal; exact IH.
  - apply Forall_map. constructor; [apply plain_stays; exact P|]. eapply Forall_impl; [|exact PS]. apply plain_stays.
Qed.

(** ** Graphs *)

Lemma form_safe_plus c : is_form_safe c = true -> c <> "+" /\ c <> "%" /\ is_sep c = false /\ is_ignored c = false /\ is_escaped c = false.
Proof.
  destruct c as [[|] [|] [|] [|] [|] [|] [|] [|]]; intros H; try (vm_compute in H; discriminate);
    (split; [discriminate|]; split; [discriminate|]; auto).
Qed.

(** The characters of a serialized name are kept as they are by [set_path]. *)
Lemma serialize_chars s c : In c (byte_serialize s) -> is_sep c = false /\ is_ignored c = false /\ is_escaped c = false.
Proof.
  unfold byte_serialize. rewrite in_flat_map. intros (x & _ & K).
  destruct (is_form_safe x) eqn:Q.
  - destruct K as [<-|[]]. apply form_safe_plus in Q. destruct Q as (_ & _ & Q). exact Q.
  - destruct (Ascii.eqb x " "); [destruct K as [<-|[]]; auto|].
    destruct x as [[|] [|] [|] [|] [|] [|] [|] [|]]; destruct K as [<-|[<-|[<-|[]]]]; vm_compute; auto.
Qed.

Lemma escape_id s : (forall c, In c s -> is_escaped c = false) -> escape s = s.
Proof.
  induction s as [|c s IH]; intros H; [reflexivity|]. cbn [escape flat_map]. unfold escape_char.
  rewrite (H c (or_introl eq_refl)). cbn [app]. f_equal. apply IH. intros x I_; apply H; right; exact I_.
Qed.

Lemma form_decode_serialize s : form_decode (byte_serialize s) = s.
Proof.
  induction s as [|c s IH]; [reflexivity|]. unfold form_decode, byte_serialize in *. cbn [flat_map].
  destruct (is_form_safe c) eqn:Q.
  - apply form_safe_plus in Q. destruct Q as (NP & NC & _). cbn [app map].
    destruct (Ascii.eqb_spec c "+") as [|_]; [contradiction|].
    change (decode ([c] ++ map (fun c => if Ascii.eqb c "+" then " " else c)
      (flat_map (fun c => if is_form_safe c then [c] else if Ascii.eqb c " " then ["+"] else percent c) s)) = c :: s).
    transitivity (c :: decode (map (fun c => if Ascii.eqb c "+" then " " else c)
      (flat_map (fun c => if is_form_safe c then [c] else if Ascii.eqb c " " then ["+"] else percent c) s))); [|f_equal; exact IH].
    clear IH. destruct c as [[|] [|] [|] [|] [|] [|] [|] [|]]; try reflexivity; destruct (NC eq_refl).
  - destruct (Ascii.eqb_spec c " ") as [->|NS].
    + cbn [app map]. change (Ascii.eqb "+" "+") with true. cbv iota.
      change (" " :: decode (map (fun c => if Ascii.eqb c "+" then " " else c)
        (flat_map (fun c => if is_form_safe c then [c] else if Ascii.eqb c " " then ["+"] else percent c) s)) = " " :: s).
      f_equal. exact IH.
    + rewrite map_app.
      assert (E : map (fun c => if Ascii.eqb c "+" then " " else c) (percent c) = percent c).
      { clear. destruct c as [[|] [|] [|] [|] [|] [|] [|] [|]]; reflexivity. }
      rewrite E, decode_percent. f_equal. exact IH.
Qed.

Lemma serialize_dot s : byte_serialize s = ["."] -> s = ["."].
Proof. intros H. rewrite <- (form_decode_serialize s), H. reflexivity. Qed.

(** The serialized name of a branch has no escaped dots. *)
Lemma serialize_stays s : s <> ["."] -> s <> ["."; "."] -> stays (escape (byte_serialize s)).
Proof.
  intros D1 D2. rewrite escape_id by (intros c I_; apply serialize_chars in I_; destruct I_ as (_ & _ & Q); exact Q).
  assert (NP : forall t, map (fun c => if Ascii.eqb c "+" then " " else c) t = t \/ In "+" t).
  { induction t as [|c t IH]; [left; reflexivity|]. cbn. destruct (Ascii.eqb_spec c "+") as [->|]; [right; left; reflexivity|].
    destruct IH as [->|IH]; [left; reflexivity|right; right; exact IH]. }
  assert (DP : forall t r, dot t = Some r -> In "+" t -> In "+" r).
  { intros t r. destruct t as [|a t]; [discriminate|].
    destruct a as [[|] [|] [|] [|] [|] [|] [|] [|]]; try discriminate.
    - destruct t as [|b t]; [discriminate|].
      destruct b as [[|] [|] [|] [|] [|] [|] [|] [|]]; try discriminate.
      destruct t as [|c t]; [discriminate|].
      destruct c as [[|] [|] [|] [|] [|] [|] [|] [|]]; try discriminate; intros H; injection H as <-;
        intros [K|[K|[K|K]]]; first [discriminate|exact K].
    - intros H; injection H as <-. intros [K|K]; [discriminate|exact K]. }
  split.
  - destruct (is_double_dot (byte_serialize s)) eqn:Q; [|reflexivity]. exfalso. apply D2.
    rewrite <- (form_decode_serialize s). unfold form_decode.
    destruct (NP (byte_serialize s)) as [->|K]; [apply double_decode; exact Q|]. exfalso.
    unfold is_double_dot in Q. destruct (dot (byte_serialize s)) as [r|] eqn:E; [|discriminate].
    apply (DP _ _ E) in K. unfold is_single_dot in Q. destruct (dot r) as [[|]|] eqn:E2; try discriminate.
    exact (DP _ _ E2 K).
  - destruct (is_single_dot (byte_serialize s)) eqn:Q; [|reflexivity]. exfalso. apply D1.
    rewrite <- (form_decode_serialize s). unfold form_decode.
    destruct (NP (byte_serialize s)) as [->|K]; [apply single_decode; exact Q|]. exfalso.
    unfold is_single_dot in Q. destruct (dot (byte_serialize s)) as [[|]|] eqn:E; try discriminate.
    exact (DP _ _ E K).
Qed.

Lemma serialize_solid s : solid (byte_serialize s).
Proof. intros c I_. apply serialize_chars in I_. destruct I_ as (A & B & _). auto. Qed.

(** The address of a graph: any branch can be named, but for those made of one dot or two. *)
Theorem C119_graph slug branch version :
  Plain slug -> Plain version -> branch <> ["."] -> branch <> ["."; "."] ->
  map decode (graph_url (LatestProductionVersion slug)) = [T "graphs"; slug] /\
  (exists b, map form_decode [b] = [branch] /\
     graph_url (LatestVersion slug branch) = [T "graphs"; escape slug; T "branch"; b] /\
     graph_url (Id slug branch version) = [T "graphs"; escape slug; T "branch"; b; T "version"; escape version]) /\
  decode (escape slug) = slug /\ decode (escape version) = version.
Proof.
  intros P V D1 D2.
  assert (EB : escape (byte_serialize branch) = byte_serialize branch).
  { apply escape_id. intros c I_; apply serialize_chars in I_; destruct I_ as (_ & _ & Q); exact Q. }
  pose proof (serialize_stays branch D1 D2) as SB.
  split; [|split; [exists (byte_serialize branch); split; [cbn [map]; rewrite form_decode_serialize; reflexivity|split]|
                   split; apply decode_plain; assumption]].
  - change (graph_url (LatestProductionVersion slug)) with (set_path ("/" :: path_of (T "graphs") [slug])).
    rewrite set_path_absolute; [|apply plain_solid, plain_graphs|each; apply plain_solid; exact P].
    rewrite normalize_stays.
    + rewrite app_nil_r, rev_involutive. cbn [map]. rewrite !decode_plain; [reflexivity|exact P|exact plain_graphs].
    + each; try apply plain_stays, plain_graphs; apply plain_stays; exact P.
  - change (graph_url (LatestVersion slug branch)) with
      (set_path ("/" :: path_of (T "graphs") [slug; T "branch"; byte_serialize branch])).
    rewrite set_path_absolute; [|apply plain_solid, plain_graphs|].
    2:{ each; [apply plain_solid; exact P|apply plain_solid, plain_branch|apply serialize_solid]. }
    rewrite normalize_stays.
    + rewrite app_nil_r, rev_involutive. cbn [map]. rewrite EB. reflexivity.
    + cbn [map]. constructor; [apply plain_stays, plain_graphs|]. constructor; [apply plain_stays; exact P|].
      constructor; [apply plain_stays, plain_branch|]. constructor; [exact SB|constructor].
  - change (graph_url (Id slug branch version)) with
      (set_path ("/" :: path_of (T "graphs") [slug; T "branch"; byte_serialize branch; T "version"; version])).
    rewrite set_path_absolute; [|apply plain_solid, plain_graphs|].
    2:{ each; [apply plain_solid; exact P|apply plain_solid, plain_branch|apply serialize_solid|
          apply plain_solid, plain_version|apply plain_solid; exact V]. }
    rewrite normalize_stays.
    + rewrite app_nil_r, rev_involutive. cbn [map]. rewrite EB. reflexivity.
    + cbn [map]. constructor; [apply plain_stays, plain_graphs|]. constructor; [apply plain_stays; exact P|].
      constructor; [apply plain_stays, plain_branch|]. constructor; [exact SB|].
      constructor; [apply plain_stays, plain_version|]. constructor; [apply plain_stays; exact V|constructor].
Qed.
