(* Checks for the conditions of the claims, to show examples that meet them. *)
From Coq Require Import String List Bool Arith ZArith Lia.
From Verif.Compose Require Import Model Spec Facts LookupFacts.
Import ListNotations.
Local Open Scope string_scope.
Local Open Scope list_scope.

Fixpoint nodupb (l : list name) : bool := match l with nil => true | x :: r => negb (mem x r) && nodupb r end.
Lemma nodupb_ok : forall l, nodupb l = true -> NoDup l.
Proof.
  induction l as [|x l IH]; intros E; [constructor|]. cbn [nodupb] in E. apply andb_true_iff in E. destruct E as (A & B).
  apply negb_true_iff, mem_not_in in A. constructor; [exact A|apply IH; exact B].
Qed.

Definition definedb (g : subgraph) (n : name) : bool := mem n (map d_name (g_defs g)) || mem n builtin_scalars.
Lemma definedb_ok : forall g n, definedb g n = true -> defined g n.
Proof. intros g n E. apply orb_true_iff in E. destruct E as [E|E]; apply mem_in in E; [left|right]; exact E. Qed.

Definition has_kindb (g : subgraph) (n : name) (k : kind) : bool :=
  existsb (fun d => String.eqb (d_name d) n && kind_eqb (d_kind d) k) (g_defs g).
Lemma kind_eqb_eq : forall a b, kind_eqb a b = true -> a = b.
Proof. intros [] []; cbn; congruence. Qed.
Lemma has_kindb_ok : forall g n k, has_kindb g n k = true -> has_kind g n k.
Proof.
  intros g n k E. apply existsb_exists in E. destruct E as (d & I & E). apply andb_true_iff in E. destruct E as (A & B).
  apply String.eqb_eq in A. apply kind_eqb_eq in B. exists d. auto.
Qed.

Definition usual_rootb (g : subgraph) (r : option name) (n : name) : bool :=
  match r with
  | Some m => String.eqb m n && has_kindb g n KObject
  | None => negb (mem n (map d_name (g_defs g)))
  end.
Lemma usual_rootb_ok : forall g r n, usual_rootb g r n = true -> usual_root g r n.
Proof.
  intros g [m|] n E; cbn [usual_rootb] in E.
  - left. apply andb_true_iff in E. destruct E as (A & B). apply String.eqb_eq in A. subst. split; [reflexivity|]. apply has_kindb_ok. exact B.
  - right. split; [reflexivity|]. apply negb_true_iff, mem_not_in in E. exact E.
Qed.

Definition well_formedb (g : subgraph) : bool :=
  nodupb (map d_name (g_defs g)) &&
  forallb (fun d =>
    nodupb (map f_name (d_fields d)) && nodupb (map fst (d_values d)) &&
    forallb (fun f =>
      nodupb (map a_name (f_args f)) &&
      (negb (kind_eqb (d_kind d) KInputObject) || match f_args f with nil => true | _ => false end) &&
      definedb g (base (f_type f)) && forallb (fun a => definedb g (base (a_type a))) (f_args f)) (d_fields d) &&
    forallb (fun m => has_kindb g m KObject) (d_members d)) (g_defs g) &&
  forallb (fun p => has_kindb g (fst p) KInterface && (has_kindb g (snd p) KObject || has_kindb g (snd p) KInterface)) (g_impls g) &&
  usual_rootb g (g_query g) "Query" && usual_rootb g (g_mutation g) "Mutation" && usual_rootb g (g_subscription g) "Subscription".

Lemma well_formedb_ok : forall g, well_formedb g = true -> well_formed g.
Proof.
  intros g E. unfold well_formedb in E.
  apply andb_true_iff in E. destruct E as (E & RS). apply andb_true_iff in E. destruct E as (E & RM).
  apply andb_true_iff in E. destruct E as (E & RQ). apply andb_true_iff in E. destruct E as (E & IM).
  apply andb_true_iff in E. destruct E as (E & DS). rewrite forallb_forall in DS, IM.
  assert (D : forall d, In d (g_defs g) -> nodupb (map f_name (d_fields d)) = true /\ nodupb (map fst (d_values d)) = true /\
    (forall f, In f (d_fields d) -> nodupb (map a_name (f_args f)) = true /\
       (d_kind d = KInputObject -> f_args f = nil) /\ definedb g (base (f_type f)) = true /\
       forallb (fun a => definedb g (base (a_type a))) (f_args f) = true) /\
    forallb (fun m => has_kindb g m KObject) (d_members d) = true).
  { intros d I. specialize (DS d I). apply andb_true_iff in DS. destruct DS as (X & M). apply andb_true_iff in X. destruct X as (X & F).
    apply andb_true_iff in X. destruct X as (X & V). split; [exact X|]. split; [exact V|]. split; [|exact M]. intros f J. rewrite forallb_forall in F. specialize (F f J).
    apply andb_true_iff in F. destruct F as (F & A). apply andb_true_iff in F. destruct F as (F & B).
    apply andb_true_iff in F. destruct F as (F & K). split; [exact F|]. split; [|auto].
    intros KI. rewrite KI in K. cbn in K. destruct (f_args f); [reflexivity|discriminate]. }
  constructor.
  - apply nodupb_ok. exact E.
  - intros d I. apply nodupb_ok. apply (D d I).
  - intros d f I J. apply nodupb_ok. apply (D d I). exact J.
  - intros d I. apply nodupb_ok. apply (D d I).
  - intros d f I K J. apply (D d I); assumption.
  - intros d f I J. destruct (D d I) as (_ & _ & H & _). destruct (H f J) as (_ & _ & B & A).
    split; [apply definedb_ok; exact B|]. intros a IA. rewrite forallb_forall in A. apply definedb_ok. apply A. exact IA.
  - intros d m I J. destruct (D d I) as (_ & _ & _ & M). rewrite forallb_forall in M. apply has_kindb_ok. apply M. exact J.
  - intros i n I. specialize (IM (i, n) I). cbn [fst snd] in IM. apply andb_true_iff in IM. destruct IM as (A & B).
    split; [apply has_kindb_ok; exact A|]. apply orb_true_iff in B. destruct B as [B|B]; [left|right]; apply has_kindb_ok; exact B.
  - apply usual_rootb_ok. exact RQ.
  - apply usual_rootb_ok. exact RM.
  - apply usual_rootb_ok. exact RS.
Qed.

Definition same_kindsb (gs : list subgraph) : bool :=
  forallb (fun d => forallb (fun d' => negb (String.eqb (d_name d) (d_name d')) || kind_eqb (d_kind d) (d_kind d')) (all_defs gs) &&
                    (negb (mem (d_name d) builtin_scalars) || kind_eqb (d_kind d) KScalar)) (all_defs gs).
Lemma all_defs_in : forall gs g d, In g gs -> In d (g_defs g) -> In d (all_defs gs).
Proof. intros gs g d I J. apply in_flat_map. exists g. auto. Qed.
Lemma same_kindsb_ok : forall gs, same_kindsb gs = true -> same_kinds gs.
Proof.
  intros gs E. unfold same_kindsb in E. rewrite forallb_forall in E. split.
  - intros g g' d d' G G' D D' N. specialize (E d (all_defs_in gs g d G D)). apply andb_true_iff in E. destruct E as (E & _).
    rewrite forallb_forall in E. specialize (E d' (all_defs_in gs g' d' G' D')). rewrite N, String.eqb_refl in E. apply kind_eqb_eq. exact E.
  - intros g d G D B. specialize (E d (all_defs_in gs g d G D)). apply andb_true_iff in E. destruct E as (_ & E).
    apply mem_in in B. rewrite B in E. apply kind_eqb_eq. exact E.
Qed.

Definition same_depthsb (gs : list subgraph) : bool :=
  forallb (fun d => forallb (fun d' => negb (String.eqb (d_name d) (d_name d')) ||
    forallb (fun f => forallb (fun f' => negb (String.eqb (f_name f) (f_name f')) ||
      (Nat.eqb (depth (field_type f)) (depth (field_type f')) &&
       forallb (fun a => forallb (fun a' => negb (String.eqb (a_name a) (a_name a')) ||
         Nat.eqb (depth (type_of (a_type a))) (depth (type_of (a_type a')))) (f_args f')) (f_args f)))
      (d_fields d')) (d_fields d)) (all_defs gs)) (all_defs gs).
Lemma same_depthsb_ok : forall gs, same_depthsb gs = true -> same_depths gs.
Proof.
  intros gs E g g' d d' f f' G G' D D' N F F' NF. unfold same_depthsb in E. rewrite forallb_forall in E.
  specialize (E d (all_defs_in gs g d G D)). rewrite forallb_forall in E. specialize (E d' (all_defs_in gs g' d' G' D')).
  rewrite N, String.eqb_refl in E. cbn [negb orb] in E. rewrite forallb_forall in E. specialize (E f F).
  rewrite forallb_forall in E. specialize (E f' F'). rewrite NF, String.eqb_refl in E. cbn [negb orb] in E.
  apply andb_true_iff in E. destruct E as (A & B). split; [apply Nat.eqb_eq; exact A|].
  intros a a' I I' NA. rewrite forallb_forall in B. specialize (B a I). rewrite forallb_forall in B. specialize (B a' I').
  rewrite NA, String.eqb_refl in B. apply Nat.eqb_eq. exact B.
Qed.

Definition no_entity_interfacesb (gs : list subgraph) : bool :=
  forallb (fun d => (negb (kind_eqb (d_kind d) KInterface) || match d_keys d with nil => true | _ => false end) &&
                    negb (interface_object (d_dirs d))) (all_defs gs).
Lemma no_entity_interfacesb_ok : forall gs, no_entity_interfacesb gs = true -> no_entity_interfaces gs.
Proof.
  intros gs E g d G D. unfold no_entity_interfacesb in E. rewrite forallb_forall in E. specialize (E d (all_defs_in gs g d G D)).
  apply andb_true_iff in E. destruct E as (A & B). split; [|apply negb_true_iff; exact B].
  intros K. rewrite K in A. cbn in A. destruct (d_keys d); [reflexivity|discriminate].
Qed.

Definition sound_inputb (gs : list subgraph) : bool :=
  forallb well_formedb gs && same_kindsb gs && no_entity_interfacesb gs.
Lemma sound_inputb_ok : forall gs, sound_inputb gs = true -> sound_input gs.
Proof.
  intros gs E. apply andb_true_iff in E. destruct E as (E & C). apply andb_true_iff in E. destruct E as (A & B).
  constructor.
  - intros g I. rewrite forallb_forall in A. apply well_formedb_ok. apply A. exact I.
  - apply same_kindsb_ok. exact B.
  - apply no_entity_interfacesb_ok. exact C.
Qed.

(* Short forms for the examples. *)
Definition tnull (n : name) : ftype := mkftype n (mkwrapping false nil).
Definition treq (n : name) : ftype := mkftype n (mkwrapping true nil).
Definition shared : directives := mkdirectives true false false false false false false false false false None nil nil.
Definition fld (n : name) (t : ftype) : field := mkfield n t nil None shared.
Definition fld_args (n : name) (t : ftype) (l : list argument) : field := mkfield n t l None shared.
Definition arg (n : name) (t : ftype) : argument := mkargument n t None plain.
Definition infld (n : name) (t : ftype) (d : option value) : field := mkfield n t nil d plain.
Definition object (n : name) (fs : list field) : definition := mkdef n KObject fs nil nil nil plain.
Definition interface (n : name) (fs : list field) : definition := mkdef n KInterface fs nil nil nil plain.
Definition input (n : name) (fs : list field) : definition := mkdef n KInputObject fs nil nil nil plain.
Definition scalar_def (n : name) : definition := mkdef n KScalar nil nil nil nil plain.
Definition enum (n : name) (vs : list name) : definition := mkdef n KEnum nil (map (fun v => (v, plain)) vs) nil nil plain.
Definition union (n : name) (ms : list name) : definition := mkdef n KUnion nil nil ms nil plain.
Definition graph (n : name) (defs : list definition) (impls : list (name * name)) : subgraph :=
  mkgraph n ApolloV2 defs impls (Some "Query") None None.
