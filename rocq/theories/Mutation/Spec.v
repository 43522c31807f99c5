(** Specification of the order of the requests of a mutation. *)
From Coq Require Import List Arith Bool.
From Verif.Scheduler Require Import Model Spec.
From Verif.Mutation Require Import Model.
Import ListNotations.

(** [f] comes before [g] in the document. *)
Definition precedes (fields : list field) (f g : field) : Prop := exists a b c, fields = a ++ f :: b ++ g :: c.
(** Fields are distinct, a partition has one resolver, new nodes are new. *)
Definition consistent (fields : list field) (next : nat) : Prop :=
  NoDup (map f_id fields) /\
  (forall f g, In f fields -> In g fields -> f_partition f = f_partition g -> f_resolver f = f_resolver g) /\
  (forall f, In f fields -> f_partition f < next).
(** The solver makes one partition per resolver. *)
Definition one_partition_per_resolver (fields : list field) : Prop :=
  forall f g, In f fields -> In g fields -> f_resolver f = f_resolver g -> f_partition f = f_partition g.
(** The request of partition [p] contains field [f]. *)
Definition sends (m : plan) (p : nat) (f : field) : Prop := In (p, f_id f) (p_edges m).
(** The number of requests that contain [f]. *)
Definition times_sent (m : plan) (f : field) : nat := length (filter (fun e => snd e =? f_id f) (p_edges m)).
(** A field with resolver [r] was followed by a field with another resolver. *)
Definition interrupted (r : nat) (fields : list field) : Prop :=
  exists x y, precedes fields x y /\ f_resolver x = r /\ f_resolver y <> r.
(** After [before], [f] directly continues a run of fields of the same resolver that is not its first run. *)
Definition resent (before : list field) (f : field) : Prop :=
  exists d e, before = d ++ [e] /\ f_resolver e = f_resolver f /\ interrupted (f_resolver f) before.

(** A request was sent and its answer was not seen yet. *)
Definition in_flight (p : nat) (log : list event) : Prop :=
  In (Started p) log /\ ~ In (Succeeded p) log /\ ~ In (Failed p) log.
(** The field is sent in some request, in the order of the document. *)
Definition in_order (fields : list field) (m : plan) : Prop :=
  forall f g p q i j, precedes fields f g -> sends m p f -> sends m q g ->
  nth_error (map fst (p_partitions m)) i = Some p -> nth_error (map fst (p_partitions m)) j = Some q -> i <= j.
