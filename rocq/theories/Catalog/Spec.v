(** What the configuration of extensions means, said without the loops of the code. *)
From Coq Require Import List Bool String NArith Sorting.Permutation.
From Verif.Catalog Require Import Model.
Import ListNotations.
Open Scope string_scope.
Open Scope list_scope.

(** The order of versions. *)
Definition Below (a b : version) : Prop :=
  let '(a1, a2, a3) := a in
  let '(b1, b2, b3) := b in
  (a1 < b1 \/ (a1 = b1 /\ (a2 < b2 \/ (a2 = b2 /\ a3 < b3))))%N.

(** The version [v] of the extension [key] is installed. *)
Definition Has (d : disk) (key : string) (v : version) : Prop :=
  exists entries, d_installed d key = Some entries /\ In (Some {| de_dir := Some true; de_version := Some v |}) entries.

(** The directory an extension is to be read from: the one that is configured, otherwise the one of the greatest
    version installed that is accepted. *)
Definition Chosen (d : disk) (key : string) (c : ext_config) (at_ : location) : Prop :=
  match xc_path c with
  | Some p => at_ = LPath p
  | None =>
    exists v, at_ = LInstalled key v /\ Has d key v /\ xc_version c v = true /\
      forall v', Has d key v' -> xc_version c v' = true -> ~ Below v v'
  end.

(** The directory has an extension in it, whose manifest is [m]. *)
Definition Contains (d : disk) (at_ : location) (m : manifest) : Prop :=
  exists files, d_content d at_ = Some files /\ In (Some FiWasm) files /\ In (Some (FiManifest (Some m))) files.

(** The extension an entry of the configuration is about. *)
Definition Right (d : disk) (kc : string * ext_config) (x : extension) : Prop :=
  e_key x = fst kc /\ Chosen d (fst kc) (snd kc) (e_path x) /\ Contains d (e_path x) (e_manifest x) /\
  mf_name (e_manifest x) = fst kc.

(** Nothing fails while directories are listed, and they have one manifest at most, which can be parsed. *)
Record Readable (d : disk) : Prop := {
  r_dirs : forall key entries, d_installed d key = Some entries ->
    Forall (fun e => exists x b, e = Some x /\ de_dir x = Some b) entries;
  r_files : forall at_ files, d_content d at_ = Some files -> Forall (fun f => exists x, f = Some x) files;
  r_manifests : forall at_ files, d_content d at_ = Some files -> ~ In (Some (FiManifest None)) files;
  r_one : forall at_ files a b, d_content d at_ = Some files ->
    In (Some (FiManifest a)) files -> In (Some (FiManifest b)) files -> a = b
}.

(** What an extension may do: what the configuration says, and what its manifest asks for when it says nothing. *)
Definition May (c : ext_config) (m : manifest) (p : permission) : Prop :=
  xc_flag c p = Some true \/ (xc_flag c p = None /\ In p (mf_permissions m)).

(** The extension at the place [id] of the catalog is of this kind. *)
Definition IsHooks (x : extension) : Prop := exists f, mf_kind (e_manifest x) = KHooks f.
Definition IsAuth (x : extension) : Prop := mf_kind (e_manifest x) = KAuthentication.

(** The extensions that are to authenticate the requests for a resource: those it names, or all there are. *)
Definition Authenticates (config : list (string * ext_config)) (catalog : list extension) (r : resource) (id : nat)
  : Prop :=
  match rs_extensions r with
  | Some keys => exists key c, In key keys /\ nth_error config id = Some (key, c)
  | None => exists x, nth_error catalog id = Some x /\ IsAuth x
  end.

(** What happens when nobody gives a token. The behaviour of the resource goes before that of the gateway. *)
Definition Default (r : resource) (default : option behavior) (b : option behavior) : Prop :=
  (rs_default r = None /\ b = default) \/ (rs_default r <> None /\ b = rs_default r).

(** The identifiers of the extensions that were asked. *)
Fixpoint asks (l : list effect) : list nat :=
  match l with
  | [] => []
  | Ask id :: l => id :: asks l
  | _ :: l => asks l
  end.

(** Nobody in the list gives a token. *)
Definition Tokenless (w : world) (l : list nat) : Prop := forall id t, In id l -> w_reply w id <> Gave t.

(** The token a request gets, given the extensions in the order they complete in. *)
Definition Admitted (w : world) (order : list nat) (b : option behavior) (t : token) : Prop :=
  (order = [] /\ b <> Some BDeny /\ t = TAnonymous) \/
  (exists before id after, order = before ++ id :: after /\ Tokenless w before /\ w_reply w id = Gave t) \/
  (order <> [] /\ Tokenless w order /\ b = Some BAnonymous /\ t = TAnonymous).

(** The failure of an extension that gives no token. *)
Definition Fails (w : world) (id : nat) (e : failure) : Prop :=
  w_reply w id = Refused e \/
  ((w_reply w id = NoInstance \/ w_reply w id = Trapped) /\ e = {| f_status := 500; f_text := "Internal extension error" |}).

Definition ClientError (e : failure) : Prop := (400 <= f_status e < 500)%N.

(** The failure that is reported of those of a list: the first that is the client's fault, otherwise the first. *)
Definition Reported (w : world) (order : list nat) (e : failure) : Prop :=
  (exists before id after, order = before ++ id :: after /\ Fails w id e /\ ClientError e /\
     forall j e', In j before -> Fails w j e' -> ~ ClientError e') \/
  ((forall j e', In j order -> Fails w j e' -> ~ ClientError e') /\
   exists id after, order = id :: after /\ Fails w id e).

(** The refusal a request gets. *)
Definition Denied (w : world) (order : list nat) (b : option behavior) (e : failure) : Prop :=
  (order = [] /\ b = Some BDeny /\ e = {| f_status := 401; f_text := "Unauthenticated" |}) \/
  (order <> [] /\ Tokenless w order /\ b <> Some BAnonymous /\ Reported w order e).

(** The events a filter lets through. *)
Definition Wants (f : option event_filter) (ty : event_type) : Prop :=
  f = Some FAll \/ exists l, f = Some (FTypes l) /\ In ty l.

(** The events that whoever has the filter [f] should get, of all that happens, in order. *)
Inductive Seen (f : option event_filter) : list happening -> list event -> Prop :=
| seen_nil : Seen f [] []
| seen_host ty data l q : Wants f ty -> Seen f l q -> Seen f (Host ty data :: l) ({| ev_type := ty; ev_data := data |} :: q)
| seen_host_not ty data l q : ~ Wants f ty -> Seen f l q -> Seen f (Host ty data :: l) q
| seen_guest data l q :
    Wants f EExtension -> Seen f l q -> Seen f (Guest (Some data) :: l) ({| ev_type := EExtension; ev_data := data |} :: q)
| seen_guest_not data l q : ~ Wants f EExtension -> Seen f l q -> Seen f (Guest data :: l) q
| seen_broken l q : Seen f l q -> Seen f (Guest None :: l) q.

(** Events that are not of extensions. *)
Definition OfHost (h : happening) : Prop := exists ty data, h = Host ty data /\ ty <> EExtension.
