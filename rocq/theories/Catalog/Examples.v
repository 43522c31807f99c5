(** A gateway with four extensions, and what is not so. *)
From Coq Require Import List Bool String NArith Arith Sorting.Permutation Lia.
From Verif.Catalog Require Import Model Spec Properties Auth Events.
Import ListNotations.
Open Scope string_scope.
Open Scope list_scope.

Definition mf (name : string) (k : kind) (p : list permission) : manifest :=
  {| mf_name := name; mf_kind := k; mf_permissions := p; mf_legacy_filter := None |}.

Definition any_version (f : permission -> option bool) (path : option string) (req : version -> bool) : ext_config :=
  {| xc_version := req; xc_path := path; xc_flag := f; xc_pool := None; xc_guest := None |}.

Definition one_x (v : version) : bool := let '(a, _, _) := v in N.eqb a 1.

Definition config (f : event_filter) : list (string * ext_config) := [
  ("apikey", any_version (fun p => if permission_eqb p PNetwork then Some false else None) None one_x);
  ("hooks", any_version (fun _ => None) (Some "./hooks") (fun _ => true));
  ("jwt", any_version (fun _ => None) None one_x);
  ("rest", any_version (fun _ => None) None (fun _ => true))].

Definition dir (v : version) : option dirent := Some {| de_dir := Some true; de_version := Some v |}.

(** Versions 1.2.0, 2.0.0 and 1.10.0 of everything are installed, in this order. *)
Definition example_disk (f : event_filter) : disk := {|
  d_installed := fun _ => Some [Some {| de_dir := Some false; de_version := None |}; dir (1, 2, 0)%N; dir (2, 0, 0)%N; dir (1, 10, 0)%N];
  d_content := fun at_ =>
    match at_ with
    | LPath _ => Some [Some (FiManifest (Some (mf "hooks" (KHooks (Some f)) []))); Some FiWasm]
    | LInstalled key _ =>
      Some [Some (FiOther "README.md"); Some FiWasm;
            Some (FiManifest (Some (mf key (if String.eqb key "rest" then KOther else KAuthentication) [PNetwork; PStdout])))]
    end
|}.

Definition example_catalog (f : event_filter) : list extension :=
  match create_catalog (example_disk f) (config f) with ROk l => l | RErr _ => [] end.

(** The greatest version that is accepted is 1.10.0, and not 1.2.0. *)
Example ex_versions :
  map (fun x => (e_key x, e_path x)) (example_catalog FAll) =
  [("apikey", LInstalled "apikey" (1, 10, 0)%N); ("hooks", LPath "./hooks");
   ("jwt", LInstalled "jwt" (1, 10, 0)%N); ("rest", LInstalled "rest" (2, 0, 0)%N)].
Proof. vm_compute. reflexivity. Qed.

Definition example_gateway (f : event_filter) : gateway :=
  match gateway_new (fun _ => true) (example_catalog f) (config f) with
  | Some (Started g) => g
  | _ => {| g_hooks := None; g_filter := None; g_authentication := [] |}
  end.

(** The network is closed to the first by the configuration, and open to the second by its manifest. *)
Example ex_permissions :
  map (fun pc => (pc_id pc, map (pc_allowed pc) [PNetwork; PStdout; PStderr; PEnvironment])) (g_authentication (example_gateway FAll)) =
  [(0, [false; true; false; false]); (2, [true; true; false; false])].
Proof. vm_compute. reflexivity. Qed.

Example ex_nodup : forall f, NoDup (map fst (config f)).
Proof.
  intros f. cbn [config map fst]. repeat (apply NoDup_cons; [cbn [In]; intuition discriminate|]). apply NoDup_nil.
Qed.

(** The catalog of the second disk, where everything is listed the other way round, is the same. *)
Definition reversed (d : disk) : disk := {|
  d_installed := fun k => option_map (@rev _) (d_installed d k);
  d_content := fun a => option_map (@rev _) (d_content d a)
|}.

Example ex_readable : forall f, Readable (example_disk f) /\ Readable (reversed (example_disk f)).
Proof.
  intros f. split; split.
  - intros key entries E. injection E as <-. repeat (apply Forall_nil || apply Forall_cons); eexists; eexists; split; reflexivity.
  - intros [p|k v] files E; injection E as <-; repeat (apply Forall_nil || apply Forall_cons); eexists; reflexivity.
  - intros [p|k v] files E; injection E as <-; cbn [In]; intuition discriminate.
  - intros [p|k v] files a b E; injection E as <-; cbn [In]; intuition congruence.
  - intros key entries E. injection E as <-. cbn [rev app].
    repeat (apply Forall_nil || apply Forall_cons); eexists; eexists; split; reflexivity.
  - intros [p|k v] files E; injection E as <-; cbn [rev app]; repeat (apply Forall_nil || apply Forall_cons); eexists; reflexivity.
  - intros [p|k v] files E; injection E as <-; cbn [rev app In]; intuition discriminate.
  - intros [p|k v] files a b E; injection E as <-; cbn [rev app In]; intuition congruence.
Qed.

Example ex_listing : create_catalog (reversed (example_disk FAll)) (config FAll) = ROk (example_catalog FAll).
Proof. vm_compute. reflexivity. Qed.

(** An extension under another name than its own is refused. *)
Example ex_name :
  create_catalog (example_disk FAll) [("other", any_version (fun _ => None) (Some "./hooks") (fun _ => true))] =
  RErr (EName "other" "hooks").
Proof. vm_compute. reflexivity. Qed.

(** Requests. Replies of the extensions 0 (apikey) and 2 (jwt), and the order they are in. *)
Definition the_world (a b : reply) (order : list nat -> list nat) : world := {|
  w_on_request := inl None;
  w_reply := fun id => if Nat.eqb id 0 then a else b;
  w_order := order;
  w_next := fun _ _ => 200%N;
  w_on_response := fun s => inl s
|}.

Definition the_layer (r : resource) (default : option behavior) : layer :=
  match build_layer (example_catalog FAll) r default (Some "public") with
  | inl l => l
  | inr _ => {| l_ids := []; l_default := None; l_contract := None |}
  end.

Definition all_of_them : resource := {| rs_extensions := None; rs_default := None |}.
Definition only_jwt : resource := {| rs_extensions := Some ["jwt"]; rs_default := Some BDeny |}.

Definition failed (n : N) (s : string) : failure := {| f_status := n; f_text := s |}.

Lemma example_setup : forall r default,
  (exists l, build_layer (example_catalog FAll) r default (Some "public") = inl l) ->
  SetUp (example_disk FAll) (fun _ => true) (config FAll) r default (Some "public") (example_catalog FAll)
    (example_gateway FAll) (the_layer r default).
Proof.
  intros r default [l H]. split; [apply ex_nodup|]. split; [vm_compute; reflexivity|]. split; [vm_compute; reflexivity|].
  unfold the_layer. rewrite H. reflexivity.
Qed.

Example ex_setup : SetUp (example_disk FAll) (fun _ => true) (config FAll) all_of_them None (Some "public")
  (example_catalog FAll) (example_gateway FAll) (the_layer all_of_them None).
Proof. apply example_setup. eexists. vm_compute. reflexivity. Qed.

(** The token of the second, although the first refuses. *)
Example ex_token :
  call (the_world (Refused (failed 401 "no key")) (Gave (TGiven "t")) (fun l => l)) (example_gateway FAll) (the_layer all_of_them None) =
  Some ([Ask 0; Ask 2; Reach (TGiven "t") (Some "public"); Respond 200%N], Served 200%N).
Proof. vm_compute. reflexivity. Qed.

(** The client's error is told, and not the crash before it. *)
Example ex_error :
  call (the_world Trapped (Refused (failed 401 "expired")) (fun l => l)) (example_gateway FAll) (the_layer all_of_them None) =
  Some ([Ask 0; Ask 2], Failed (failed 401 "expired")).
Proof. vm_compute. reflexivity. Qed.

(** Only the extension that is named is asked. *)
Example ex_only :
  call (the_world (Gave (TGiven "key")) (Refused (failed 403 "no")) (fun l => l)) (example_gateway FAll) (the_layer only_jwt (Some BAnonymous)) =
  Some ([Ask 2], Failed (failed 403 "no")).
Proof. vm_compute. reflexivity. Qed.

Example ex_not_authentication :
  build_layer (example_catalog FAll) {| rs_extensions := Some ["jwt"; "rest"]; rs_default := None |} None None = inr (NotAuthentication "rest").
Proof. vm_compute. reflexivity. Qed.

Lemma rev_fair : forall A (l : list A), Permutation (rev l) l.
Proof. intros A l. apply Permutation_sym, Permutation_rev. Qed.

(** Not so: the token of a request depends on the request and the answers to it. With two extensions that both give
    one, it is that of the faster one. *)
Theorem C121_token_order_refuted : exists d works config r default contract catalog g l w w' e e',
  SetUp d works config r default contract catalog g l /\ Fair w /\ Fair w' /\
  w_on_request w = w_on_request w' /\ (forall id, w_reply w id = w_reply w' id) /\
  call w g l = Some (e, Served 200%N) /\ call w' g l = Some (e', Served 200%N) /\
  In (Reach (TGiven "key") (Some "public")) e /\ In (Reach (TGiven "jwt") (Some "public")) e'.
Proof.
  exists (example_disk FAll), (fun _ => true), (config FAll), all_of_them, None, (Some "public"), (example_catalog FAll),
    (example_gateway FAll), (the_layer all_of_them None),
    (the_world (Gave (TGiven "key")) (Gave (TGiven "jwt")) (fun l => l)),
    (the_world (Gave (TGiven "key")) (Gave (TGiven "jwt")) (@rev nat)). eexists. eexists.
  split; [exact ex_setup|]. split; [intros ids; apply Permutation_refl|]. split; [intros ids; apply rev_fair|].
  split; [reflexivity|]. split; [reflexivity|]. split; [vm_compute; reflexivity|]. split; [vm_compute; reflexivity|].
  split; cbn [In]; auto.
Qed.

(** Not so: a request without a token is turned away unless anonymous requests are allowed. A resource with an empty
    list of extensions is open, although the gateway has extensions that authenticate. *)
Theorem C121_empty_list_refuted : exists d works config r contract catalog g l w e x id,
  SetUp d works config r None contract catalog g l /\ Fair w /\ rs_default r = None /\
  nth_error catalog id = Some x /\ IsAuth x /\
  call w g l = Some (e, Served 200%N) /\ In (Reach TAnonymous contract) e.
Proof.
  exists (example_disk FAll), (fun _ => true), (config FAll), {| rs_extensions := Some []; rs_default := None |}, (Some "public"),
    (example_catalog FAll), (example_gateway FAll), (the_layer {| rs_extensions := Some []; rs_default := None |} None),
    (the_world Trapped Trapped (fun l => l)). eexists. eexists. exists 0.
  split; [apply example_setup; eexists; vm_compute; reflexivity|]. split; [intros ids; apply Permutation_refl|].
  split; [reflexivity|]. split; [vm_compute; reflexivity|]. split; [reflexivity|]. split; [vm_compute; reflexivity|]. cbn [In]. auto.
Qed.

(** Not so: with an anonymous default, those whose credentials are refused, or whose extension crashes, are told. They
    go on as anonymous. *)
Theorem C121_refused_credentials_refuted : exists d works config r default contract catalog g l w e,
  SetUp d works config r default contract catalog g l /\ Fair w /\
  (forall id, w_reply w id = Refused (failed 403 "revoked") \/ w_reply w id = Trapped) /\
  call w g l = Some (e, Served 200%N) /\ In (Reach TAnonymous contract) e.
Proof.
  exists (example_disk FAll), (fun _ => true), (config FAll), all_of_them, (Some BAnonymous), (Some "public"), (example_catalog FAll),
    (example_gateway FAll), (the_layer all_of_them (Some BAnonymous)),
    (the_world (Refused (failed 403 "revoked")) Trapped (fun l => l)). eexists.
  split; [apply example_setup; eexists; vm_compute; reflexivity|]. split; [intros ids; apply Permutation_refl|].
  split; [intros id; cbn [the_world w_reply]; destruct (Nat.eqb id 0); [left|right]; reflexivity|].
  split; [vm_compute; reflexivity|]. cbn [In]. auto.
Qed.

(** Events *)

Example ex_all_events :
  queue (example_gateway FAll) (example_catalog FAll) [Host EOperation "a"; Guest (Some "b"); Guest None; Host EHttp "c"] =
  [{| ev_type := EOperation; ev_data := "a" |}; {| ev_type := EExtension; ev_data := "b" |}; {| ev_type := EHttp; ev_data := "c" |}].
Proof. vm_compute. reflexivity. Qed.

Example ex_some_events :
  queue (example_gateway (FTypes [EHttp])) (example_catalog (FTypes [EHttp])) [Host EOperation "a"; Guest (Some "b"); Host EHttp "c"] =
  [{| ev_type := EHttp; ev_data := "c" |}].
Proof. vm_compute. reflexivity. Qed.

(** Not so: a hooks extension gets the events it asks for. One that asks for those of extensions, by name, gets none of
    them: the flag that lets guests keep them to themselves is set exactly when they are wanted. *)
Theorem C122_events_refuted : exists d works config catalog g l,
  NoDup (map fst config) /\ create_catalog d config = ROk catalog /\
  gateway_new works catalog config = Some (Started g) /\
  Wants (g_filter g) EExtension /\ l = [Guest (Some "login")] /\
  queue g catalog l = [] /\ ~ Seen (g_filter g) l (queue g catalog l).
Proof.
  set (f := FTypes [EOperation; EExtension]).
  exists (example_disk f), (fun _ => true), (config f), (example_catalog f), (example_gateway f), [Guest (Some "login")].
  split; [apply ex_nodup|]. split; [vm_compute; reflexivity|]. split; [vm_compute; reflexivity|].
  assert (W : Wants (g_filter (example_gateway f)) EExtension).
  { right. exists [EOperation; EExtension]. split; [vm_compute; reflexivity|]. cbn [In]. auto. }
  split; [exact W|]. split; [reflexivity|].
  assert (Q : queue (example_gateway f) (example_catalog f) [Guest (Some "login")] = []) by (vm_compute; reflexivity).
  split; [exact Q|]. rewrite Q. intros H. inversion H; subst. contradiction.
Qed.
