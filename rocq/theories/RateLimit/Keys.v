(** The keys under which rate limits are counted in Redis (C32).

    Modelled code: crates/runtime-local/src/rate_limiting/redis.rs 81-90.
    Strings are lists of bytes; a bucket is a u64, printed in decimal. *)

From Coq Require Import List NArith Bool Lia Decimal DecimalN Ascii String.
From Verif.OpCache Require Import Tiered.
Import ListNotations.
Local Open Scope N_scope.

Fixpoint bytes_of_string (s : string) : bytes :=
  match s with
  | EmptyString => []
  | String c r => N_of_ascii c :: bytes_of_string r
  end.

(** Display of an integer. *)
Fixpoint digits (d : uint) : bytes :=
  match d with
  | Nil => []
  | D0 r => 48 :: digits r | D1 r => 49 :: digits r | D2 r => 50 :: digits r | D3 r => 51 :: digits r
  | D4 r => 52 :: digits r | D5 r => 53 :: digits r | D6 r => 54 :: digits r | D7 r => 55 :: digits r
  | D8 r => 56 :: digits r | D9 r => 57 :: digits r
  end.

Definition dec (n : N) : bytes := digits (N.to_uint n).

Inductive limit_key := Global | Subgraph (name : bytes).

Definition generate_key (prefix : bytes) (bucket : N) (k : limit_key) : bytes :=
  match k with
  | Global => prefix ++ bytes_of_string ":rate_limit:global:" ++ dec bucket
  | Subgraph g => prefix ++ bytes_of_string ":subgraph:rate_limit:" ++ g ++ bytes_of_string ":" ++ dec bucket
  end.

Lemma digits_inj : forall d d', digits d = digits d' -> d = d'.
Proof.
  induction d; intros d' H; destruct d'; cbn in H; try discriminate; try reflexivity;
    injection H as H; f_equal; apply IHd; exact H.
Qed.

Lemma dec_inj : forall n n', dec n = dec n' -> n = n'.
Proof. intros n n' H. apply DecimalN.Unsigned.to_uint_inj, digits_inj, H. Qed.

Lemma digits_colon : forall d, ~ In 58 (digits d).
Proof. induction d; cbn; intros H; try contradiction; destruct H as [H|H]; try discriminate; contradiction. Qed.

(** Cut at the last colon. *)
Lemma last_colon : forall (g g' : bytes) n n', ~ In 58 n -> ~ In 58 n' -> g ++ 58 :: n = g' ++ 58 :: n' -> g = g' /\ n = n'.
Proof.
  induction g as [|x g IH]; intros [|y g'] n n' F F' E; cbn in E.
  - injection E as E. auto.
  - exfalso. injection E as _ E. apply F. rewrite E. apply in_or_app. right. left. reflexivity.
  - exfalso. injection E as _ E. apply F'. rewrite <- E. apply in_or_app. right. left. reflexivity.
  - injection E as -> E. destruct (IH g' n n' F F' E) as [-> ->]. auto.
Qed.

(** Different limits, and different windows, are counted under different keys. *)
Theorem C32_distinct : forall prefix b b' k k', generate_key prefix b k = generate_key prefix b' k' -> k = k' /\ b = b'.
Proof.
  intros p b b' k k' E. unfold generate_key in E.
  destruct k as [|g], k' as [|g']; apply app_inv_head in E.
  - split; [reflexivity|]. apply app_inv_head in E. apply dec_inj. exact E.
  - discriminate.
  - discriminate.
  - apply app_inv_head in E. cbn [bytes_of_string app] in E. change (N_of_ascii ":") with 58 in E.
    apply last_colon in E; [|apply digits_colon|apply digits_colon]. destruct E as [-> E]. apply dec_inj in E. subst. auto.
Qed.

Example C32_example :
  generate_key (bytes_of_string "p") 120 (Subgraph (bytes_of_string "a:1")) = bytes_of_string "p:subgraph:rate_limit:a:1:120" /\
  generate_key (bytes_of_string "p") 120 Global = bytes_of_string "p:rate_limit:global:120".
Proof. split; vm_compute; reflexivity. Qed.

(** With different prefixes the same key may be used. *)
Theorem C32_prefixes_refuted : exists p p' b k k', p <> p' /\ k <> k' /\ generate_key p b k = generate_key p' b k'.
Proof.
  exists (bytes_of_string "p"), (bytes_of_string "p:subgraph:rate_limit:a"), 7,
    (Subgraph (bytes_of_string "a:rate_limit:global")), Global.
  split; [discriminate|]. split; [discriminate|]. vm_compute. reflexivity.
Qed.
