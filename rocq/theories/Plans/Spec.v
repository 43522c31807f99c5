(** Specification: what a plan requires, and when the check of a protected field took place. *)
From Coq Require Import List Arith Bool.
From Verif.Scheduler Require Model Spec.
From Verif.Plans Require Import Model.
Import ListNotations.

(** In the required field set [s], the schema fields of [path] lead to the field [f] of the query. *)
Inductive leads : list req -> list nat -> nat -> Prop :=
| L_here : forall s f m sub, In (Item f m sub) s -> leads s [m] f
| L_below : forall s g m sub path f, In (Item g m sub) s -> leads sub path f -> leads s (m :: path) f.

(** The request for partition [p] needs the field [f]: as a key, or for one of the fields it asks for. *)
Definition needs (o : operation) (p : partition) (path : list nat) (f : nat) : Prop :=
  leads (p_requires p) path f \/ (p_lookup p = false /\ exists g, In g (p_fields p) /\ leads (f_requires (field o g)) path f).

Definition range (o : operation) (s : list req) : Prop := forall path f, leads s path f -> f < length (o_fields o).
(** Ids are in range. *)
Definition well_formed (o : operation) : Prop :=
  (forall d, In d (o_fields o) -> f_partition d < length (o_partitions o) /\ range o (f_requires d) /\ range o (f_super d)) /\
  (forall p, In p (o_partitions o) -> range o (p_requires p) /\ (forall f, In f (p_fields p) -> f < length (o_fields o)) /\
     (forall q, In q (p_parents p) -> q < length (o_partitions o))) /\
  (forall r f, In r (o_rules o) -> In f (ru_fields r) -> f < length (o_fields o)) /\
  (forall p, In p (o_mutation_order o) -> p < length (o_partitions o)).

(** Rule [k] protects the field [f], which is in the response. *)
Definition protects (o : operation) (k f : nat) : Prop :=
  exists r, nth_error (o_rules o) k = Some r /\ In f (ru_fields r) /\ f_in_response (field o f) = true.
(** The objects a rule looks at are tracked: those of the parent field, or of the field itself. *)
Definition tracked (o : operation) (k f : nat) : Prop :=
  forall r, nth_error (o_rules o) k = Some r ->
  match ru_target r with
  | OnOutput => f_output (field o f) <> None
  | _ => f_parent (field o f) <> Some None
  end.
(** Modifier [j] applies rule [k] to the field [f]. *)
Definition applies (ms : list modifier) (j k f : nat) : Prop :=
  exists m t, nth_error ms j = Some m /\ m_rule m = k /\ In t (m_targets m) /\ i_field t = f.
Definition checked (ms : list modifier) (log : list Scheduler.Model.event) (k f : nat) : Prop :=
  exists j, applies ms j k f /\ In (Scheduler.Model.Modified j) log.
