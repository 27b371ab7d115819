(** * GenSpec: what an implementor of Storage owes its callers, read off the
    documentation of the trait (ser_raw/src/storage/mod.rs), and what its callers may
    then expect. *)
From Verif Require Import Base Types Storage Spec GenStorage.
Local Open Scope N_scope.

(** The first [n] bytes are the same. *)
Definition same_below (n : N) (m m' : mem) : Prop := forall i, i < n -> m i = m' i.

Section GenSpec.
Context {P : Params}.

(** ** The implementor's side

    [inv]: the implementor's own invariant.  [contents]: the bytes it stores, by position.
    [empties]: whether push_slice_unchecked also takes empty slices (the documentation
    does not exclude them; AlignedVec cannot take them before its first allocation, C13). *)
Record keeps_contract {St} (I : storage_impl St) (inv : St -> Prop) (contents : St -> mem)
    (empties : bool) : Prop := {
  (** storage/mod.rs:46 "capacity() will always be a multiple of" MAX_VALUE_ALIGNMENT;
      :76-78 MAX_CAPACITY; the position is inside the storage. *)
  kc_state : forall s, inv s ->
    (MVA | i_capacity I s) /\ i_capacity I s <= MAXC /\ i_pos I s <= i_capacity I s;
  (** storage/mod.rs:185-186 *)
  kc_new : inv (i_new I) /\ i_pos I (i_new I) = 0;
  (** storage/mod.rs:217-228: called as documented, it may fail but not misbehave *)
  kc_with_capacity_unchecked : forall c,
    0 < c -> c <= MAXC -> (MVA | c) ->
    match i_with_capacity_unchecked I c tt with
    | Ok s _ => inv s /\ i_pos I s = 0 /\ c <= i_capacity I s
    | Panic _ _ | Abort => True
    | UB | OutOfFuel => False
    end;
  (** storage/mod.rs:236-246 *)
  kc_set_pos : forall s n,
    inv s -> n <= i_capacity I s -> (VA | n) ->
    exists s', i_set_pos I n s = Ok tt s' /\ inv s' /\ i_pos I s' = n /\
      i_capacity I s' = i_capacity I s /\
      same_below (N.min n (i_pos I s)) (contents s') (contents s);
  (** storage/mod.rs:301-331: there is capacity, [size] is right, pos() is aligned *)
  kc_push_slice_unchecked : forall s l n data,
    inv s -> good_layout l -> 0 < l_size l -> (0 < n \/ empties = true) ->
    (l_align l | i_pos I s) -> i_pos I s + l_size l * n <= i_capacity I s ->
    exists s', i_push_slice_unchecked I l n data (l_size l * n) s = Ok tt s' /\ inv s' /\
      i_pos I s' = i_pos I s + l_size l * n /\ i_capacity I s' = i_capacity I s /\
      same_below (i_pos I s) (contents s') (contents s) /\
      (forall i, i < l_size l * n -> contents s' (i_pos I s + i) = data i);
  (** storage/mod.rs:365-372, and :277 "reserve is allowed to alter pos": forwards, by a
      multiple of MAX_VALUE_ALIGNMENT, as anything else would undo align_for. *)
  kc_reserve : forall s n,
    inv s -> (VA | i_pos I s) -> n < umod ->
    match i_reserve I n s with
    | Ok _ s' => inv s' /\ i_pos I s <= i_pos I s' /\ (MVA | i_pos I s' - i_pos I s) /\
        i_pos I s' + n <= i_capacity I s' /\
        same_below (i_pos I s) (contents s') (contents s)
    | Panic _ s' => inv s' /\ i_pos I s' = i_pos I s /\
        same_below (i_pos I s) (contents s') (contents s)
    | Abort => True
    | UB | OutOfFuel => False
    end;
  (** storage/mod.rs:465-466 *)
  kc_shrink_to_fit : forall s,
    inv s -> (VA | i_pos I s) ->
    match i_shrink_to_fit I s with
    | Ok _ s' | Panic _ s' => inv s' /\ i_pos I s' = i_pos I s /\
        same_below (i_pos I s) (contents s') (contents s)
    | Abort => True
    | UB | OutOfFuel => False
    end
}.

(** An implementor whose reserve leaves the position alone (as AlignedVec's does). *)
Definition reserve_keeps_pos {St} (I : storage_impl St) (inv : St -> Prop) : Prop :=
  forall s n, inv s -> (VA | i_pos I s) -> n < umod ->
    match i_reserve I n s with
    | Ok _ s' => i_pos I s' = i_pos I s
    | _ => True
    end.

(** ** The callers' side *)

(** Between calls of safe methods the position is also a multiple of VALUE_ALIGNMENT. *)
Definition ready {St} (I : storage_impl St) (inv : St -> Prop) (s : St) : Prop :=
  inv s /\ (VA | i_pos I s).

(** Values of layout [l] and number pushed by a call, with their bytes. *)
Definition op_data (o : sop) : option (layout * N * mem) :=
  match o with
  | OPush l d => Some (l, 1, d)
  | OPushSlice l n d => Some (l, n, d)
  | OPushBytes n d => Some (u8_layout, n, d)
  | _ => None
  end.

(** Space left empty by a call. *)
Definition op_gap (o : sop) : option (layout * N) :=
  match o with
  | OPushEmpty l => Some (l, 1)
  | OPushEmptySlice l n => Some (l, n)
  | _ => None
  end.

(** Calls whose behaviour the contract above decides: slices are not empty unless the
    implementor takes empty ones, and the space push_empty and push_empty_slice leave is a
    multiple of VALUE_ALIGNMENT (otherwise they call set_pos outside its contract: C65). *)
Definition op_in_contract (empties : bool) (o : sop) : Prop :=
  op_valid o /\
  (forall l n d, op_data o = Some (l, n, d) -> 0 < n \/ empties = true) /\
  (forall l n, op_gap o = Some (l, n) -> (VA | l_size l * n)).

(** push_slice::<T> of [n] values with bytes [data] returned [p]. *)
Definition g_pushed {St} (I : storage_impl St) (inv : St -> Prop) (contents : St -> mem)
    (s : St) (l : layout) (n : N) (data : mem) (p : N) (s' : St) : Prop :=
  if l_size l =? 0 then p = 0 /\ s' = s
  else
    (l_align l | p) /\ i_pos I s <= p /\
    least_multiple (p + l_size l * n) VA (i_pos I s') /\
    same_below (i_pos I s) (contents s') (contents s) /\
    (forall i, i < l_size l * n -> contents s' (p + i) = data i) /\
    ready I inv s'.

(** What a whole history of calls has stored: every value that takes space is at the
    position returned for it, aligned for its type and below pos(), and no two overlap
    ([from]: where the first may start). *)
Fixpoint stored {St} (I : storage_impl St) (contents : St -> mem) (s : St) (from : N)
    (os : list sop) (rs : list (option N)) : Prop :=
  match os, rs with
  | [], [] => True
  | o :: os', r :: rs' =>
      match op_data o, op_gap o, r with
      | Some (l, n, d), _, Some p =>
          if l_size l =? 0 then p = 0 /\ stored I contents s from os' rs'
          else
            from <= p /\ (l_align l | p) /\ p + l_size l * n <= i_pos I s /\
            (forall i, i < l_size l * n -> contents s (p + i) = d i) /\
            stored I contents s (p + l_size l * n) os' rs'
      | _, Some (l, n), Some p =>
          from <= p /\ (l_align l | p) /\ p + l_size l * n <= i_pos I s /\
          stored I contents s (p + l_size l * n) os' rs'
      | None, None, None => stored I contents s from os' rs'
      | _, _, _ => False
      end
  | _, _ => False
  end.

Definition not_clear (o : sop) : Prop := match o with OClear => False | _ => True end.

End GenSpec.
