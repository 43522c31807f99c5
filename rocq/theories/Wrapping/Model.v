(** Model of the packed type modifiers.
    Source: crates/graphql-wrapping-types/src/lib.rs and mutable.rs. *)
From Coq Require Import NArith List Bool String.
Import ListNotations.
Local Open Scope N_scope.

(** lib.rs:5-9 — the masks.  The shift is [LIST_WRAPPER_LENGTH_MASK.trailing_zeros()] = 11 and
    the maximum is [LIST_WRAPPER_MASK.trailing_ones()] = 11. *)
Definition LIST_WRAPPER_LENGTH_MASK : N := 30720.   (* 0b0111_1000_0000_0000 *)
Definition LIST_WRAPPER_SHIFT : N := 11.
Definition MAX_LIST_WRAPINGS : N := 11.
Definition INNER_IS_REQUIRED_FLAG : N := 32768.     (* 0b1000_0000_0000_0000 *)

(** lib.rs:27 — [Wrapping(u16)]; the u16 is an [N] (all operations below stay under 2^16 and
    [u16_not] is the 16-bit complement). *)
Definition wrapping := N.
Definition u16_not (x : N) : N := 65535 - x.

(** lib.rs:30 *)
Definition new : wrapping := 0.

(** lib.rs:42-44 *)
Definition inner_is_required (w : wrapping) : bool := negb (N.land w INNER_IS_REQUIRED_FLAG =? 0).

(** lib.rs:70-72 *)
Definition get_list_length (w : wrapping) : N :=
  N.shiftr (N.land w LIST_WRAPPER_LENGTH_MASK) LIST_WRAPPER_SHIFT.

(** lib.rs:151-155 *)
Inductive list_wrapping := LListNonNull | LList.
(** lib.rs:145-149 *)
Inductive wrapping_type := WNonNull | WList.

(** lib.rs:47-57 — innermost to outermost; the Rust iterator is materialised as a list. *)
Definition list_wrappings (w : wrapping) : list list_wrapping :=
  map (fun i => if N.land w (N.shiftl 1 (N.of_nat i)) =? 0 then LList else LListNonNull)
      (seq 0 (N.to_nat (get_list_length w))).

(** lib.rs:60-68 *)
Definition iter (w : wrapping) : list wrapping_type :=
  (if inner_is_required w then [WNonNull] else []) ++
  flat_map (fun lw => match lw with LList => [WList] | LListNonNull => [WList; WNonNull] end)
           (list_wrappings w).

(** lib.rs:74-77 — the failed [assert!] is [None]. *)
Definition set_list_length (w : wrapping) (len : N) : option wrapping :=
  if len <? MAX_LIST_WRAPINGS then
    Some (N.lor (N.lor (N.land w INNER_IS_REQUIRED_FLAG) (N.shiftl len LIST_WRAPPER_SHIFT))
                (N.land w (N.shiftl 1 len - 1)))
  else None.

(** lib.rs:84-89 *)
Definition list_ (w : wrapping) : option wrapping :=
  let len := get_list_length w in
  match set_list_length w (len + 1) with
  | Some w' => Some (N.land w' (u16_not (N.shiftl 1 len)))
  | None => None
  end.

(** lib.rs:92-97 *)
Definition list_non_null (w : wrapping) : option wrapping :=
  let len := get_list_length w in
  match set_list_length w (len + 1) with
  | Some w' => Some (N.lor w' (N.shiftl 1 len))
  | None => None
  end.

(** lib.rs:100-108 *)
Definition non_null (w : wrapping) : wrapping :=
  let len := get_list_length w in
  if len =? 0 then N.lor w INNER_IS_REQUIRED_FLAG else N.lor w (N.shiftl 1 (len - 1)).

(** lib.rs:111-124 — the zip loop. *)
Fixpoint zip_lenient (s o : list list_wrapping) : bool :=
  match s, o with
  | LListNonNull :: _, LList :: _ => false
  | _ :: s', _ :: o' => zip_lenient s' o'
  | _, _ => true
  end.
Definition is_equal_or_more_lenient_than (self other : wrapping) : bool :=
  if inner_is_required self && negb (inner_is_required other) then false
  else if negb (get_list_length self =? get_list_length other) then false
  else zip_lenient (list_wrappings self) (list_wrappings other).

(** lib.rs:163-168; [next_back] is the last element. *)
Definition is_non_null (w : wrapping) : bool :=
  match rev (list_wrappings w) with
  | LListNonNull :: _ => true
  | LList :: _ => false
  | [] => inner_is_required w
  end.
(** lib.rs:159-161 *)
Definition is_nullable (w : wrapping) : bool := negb (is_non_null w).
(** lib.rs:170-172 *)
Definition is_list (w : wrapping) : bool :=
  match list_wrappings w with [] => false | _ => true end.

(** mutable.rs:21-35 — [None] panic; inner [None]: not a list. *)
Definition pop_outermost_list_wrapping (w : wrapping) : option (wrapping * option list_wrapping) :=
  let end_ := get_list_length w in
  if end_ =? 0 then Some (w, None)
  else
    let lw := if negb (N.land w (N.shiftl 1 (end_ - 1)) =? 0) then LListNonNull else LList in
    match set_list_length w (end_ - 1) with
    | Some w' => Some (w', Some lw)
    | None => None
    end.

(** mutable.rs:37-42 *)
Definition push_outermost_list_wrapping (w : wrapping) (lw : list_wrapping) : option wrapping :=
  match lw with LListNonNull => list_non_null w | LList => list_ w end.

(** lib.rs:126-129 *)
Definition without_list (w : wrapping) : option (option wrapping) :=
  match pop_outermost_list_wrapping w with
  | None => None
  | Some (w', Some _) => Some (Some w')
  | Some (_, None) => Some None
  end.

(** lib.rs:131-142 *)
Definition without_non_null (w : wrapping) : option wrapping :=
  if is_nullable w then Some w
  else if is_list w then
    match pop_outermost_list_wrapping w with
    | None => None
    | Some (w', _) => push_outermost_list_wrapping w' LList
    end
  else Some (N.land w (u16_not INNER_IS_REQUIRED_FLAG)).

(** lib.rs:184-205 *)
Definition type_display (w : wrapping) (name : string) : string :=
  String.concat "" (repeat "["%string (N.to_nat (get_list_length w))) ++ name ++
  (if inner_is_required w then "!" else "") ++
  String.concat "" (map (fun lw => match lw with LListNonNull => "]!" | LList => "]" end%string)
                        (list_wrappings w)).

(** A client of the library: a sequence of builder calls.  [without_list] on a non-list returns
    [None] in Rust and leaves the caller with the original value. *)
Inductive op := OpList | OpListNonNull | OpNonNull | OpWithoutList | OpWithoutNonNull.
Definition step (w : wrapping) (o : op) : option wrapping :=
  match o with
  | OpList => list_ w
  | OpListNonNull => list_non_null w
  | OpNonNull => Some (non_null w)
  | OpWithoutList => match without_list w with
                     | None => None
                     | Some None => Some w
                     | Some (Some w') => Some w'
                     end
  | OpWithoutNonNull => without_non_null w
  end.
Fixpoint run (w : wrapping) (ops : list op) : option wrapping :=
  match ops with
  | [] => Some w
  | o :: ops' => match step w o with Some w' => run w' ops' | None => None end
  end.
