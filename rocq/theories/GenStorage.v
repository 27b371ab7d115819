(** * GenStorage: the trait Storage (ser_raw/src/storage/mod.rs) for an arbitrary
    implementor.

    storage/mod.rs:13-14 invites users to "build your own implementation of Storage";
    storage/mod.rs:89-92 says only the methods without a default body have to be written.
    Here the required methods are the fields of a record, the default methods are the
    definitions below, and [aligned_vec] is the library's own implementor (Storage.v).
    Simplification: the const parameters STORAGE_ALIGNMENT, MAX_VALUE_ALIGNMENT,
    VALUE_ALIGNMENT and MAX_CAPACITY are those of the run ([Params]), not fields; an
    implementor that overrides a default method is not modelled. *)
From Verif Require Import Base Types Storage.
Local Open Scope N_scope.

(** The required methods of Storage, on a state [St] of any type.
    storage/mod.rs:186 new, :228 with_capacity_unchecked, :231 capacity, :234 pos,
    :246 set_pos, :331 push_slice_unchecked, :372 reserve, :466 shrink_to_fit.
    A constructor has no state to start from: it runs on [unit] and answers a state. *)
Record storage_impl (St : Type) := mkImpl {
  i_new : St;
  i_with_capacity_unchecked : N -> M unit St;
  i_capacity : St -> N;
  i_pos : St -> N;
  i_set_pos : N -> M St unit;
  i_push_slice_unchecked : layout -> N -> mem -> N -> M St unit;
  i_reserve : N -> M St unit;
  i_shrink_to_fit : M St unit
}.
Arguments i_new {St}.
Arguments i_with_capacity_unchecked {St}.
Arguments i_capacity {St}.
Arguments i_pos {St}.
Arguments i_set_pos {St}.
Arguments i_push_slice_unchecked {St}.
Arguments i_reserve {St}.
Arguments i_shrink_to_fit {St}.

Section GenStorage.
Context {P : Params}.

(** ** The default methods of Storage *)
Section Defaults.
Context {St : Type}.
Variable I : storage_impl St.

(** storage/mod.rs:196-215  with_capacity *)
Definition g_with_capacity (capacity : N) : M unit St :=
  assert_alignments_valid ;;;
  if capacity =? 0 then ret (i_new I)
  else
    assert_or PWithCapacity (capacity <=? MAXC) ;;;
    capacity' <- align_up_to capacity MVA ;;
    i_with_capacity_unchecked I capacity'.

(** storage/mod.rs:436-453  align *)
Definition g_align (alignment : N) : M St unit :=
  dassert (ret (VA <=? alignment)) ;;;
  dassert (ret (alignment <=? MVA)) ;;;
  dassert (ret (is_pow2 alignment)) ;;;
  pos <- gets (i_pos I) ;;
  new_pos <- align_up_to pos alignment ;;
  i_set_pos I new_pos.

(** storage/mod.rs:379-395  align_for::<T> *)
Definition g_align_for (l : layout) : M St unit :=
  if VA <? l_align l then g_align (l_align l) else ret tt.

(** storage/mod.rs:416-419  align_after_any *)
Definition g_align_after_any : M St unit := g_align VA.

(** storage/mod.rs:400-408  align_after::<T> *)
Definition g_align_after (l : layout) : M St unit :=
  if 0 <? l_size l mod VA then g_align_after_any else ret tt.

(** storage/mod.rs:261-291  push_slice *)
Definition g_push_slice (l : layout) (len : N) (data : mem) : M St N :=
  if l_size l =? 0 then ret 0
  else
    g_align_for l ;;;
    size <- mul_u (l_size l) len ;;
    i_reserve I size ;;;
    pos <- gets (i_pos I) ;;
    i_push_slice_unchecked I l len data size ;;;
    g_align_after l ;;;
    ret pos.

(** storage/mod.rs:249-251  push *)
Definition g_push (l : layout) (data : mem) : M St N := g_push_slice l 1 data.

(** storage/mod.rs:297-299  push_bytes *)
Definition g_push_bytes (len : N) (data : mem) : M St N := g_push_slice u8_layout len data.

(** storage/mod.rs:353-363  push_empty_slice *)
Definition g_push_empty_slice (l : layout) (len : N) : M St N :=
  g_align_for l ;;;
  size <- mul_u (l_size l) len ;;
  i_reserve I size ;;;
  pos <- gets (i_pos I) ;;
  new_pos <- add_u pos size ;;
  i_set_pos I new_pos ;;;
  g_align_after l ;;;
  ret pos.

(** storage/mod.rs:337-339  push_empty *)
Definition g_push_empty (l : layout) : M St N := g_push_empty_slice l 1.

(** storage/mod.rs:460-463  clear *)
Definition g_clear : M St unit := i_set_pos I 0.

(** A client's call of one of the safe methods, and histories of them, as in
    Storage.v. *)
Definition g_run_op (o : sop) : M St (option N) :=
  let some_pos m := (p <- m ;; ret (Some p)) in
  let no_pos m := (m ;;; ret None) in
  match o with
  | OPush l d => some_pos (g_push l d)
  | OPushSlice l n d => some_pos (g_push_slice l n d)
  | OPushBytes n d => some_pos (g_push_bytes n d)
  | OPushEmpty l => some_pos (g_push_empty l)
  | OPushEmptySlice l n => some_pos (g_push_empty_slice l n)
  | OReserve n => no_pos (i_reserve I n)
  | OAlignFor l => no_pos (g_align_for l)
  | OAlignAfter l => no_pos (g_align_after l)
  | OAlignAfterAny => no_pos g_align_after_any
  | OClear => no_pos g_clear
  | OShrink => no_pos (i_shrink_to_fit I)
  end.
Fixpoint g_run_ops (os : list sop) : M St unit :=
  match os with
  | [] => ret tt
  | o :: os' => fun s =>
      match g_run_op o s with
      | Ok _ s' => g_run_ops os' s'
      | Panic _ s' => g_run_ops os' s'
      | Abort => Abort
      | UB => UB
      | OutOfFuel => OutOfFuel
      end
  end.
Fixpoint g_run_seq (os : list sop) : M St (list (option N)) :=
  match os with
  | [] => ret []
  | o :: os' =>
      r <- g_run_op o ;;
      rs <- g_run_seq os' ;;
      ret (r :: rs)
  end.

End Defaults.

(** ** AlignedVec as an implementor: aligned_vec.rs:73-269 (the methods of Storage.v). *)
Definition aligned_vec : storage_impl sw := {|
  i_new := sw_new;
  i_with_capacity_unchecked := fun c _ =>
    match with_capacity_unchecked c sw_new with
    | Ok _ w => Ok w tt
    | Panic p _ => Panic p tt
    | Abort => Abort
    | UB => UB
    | OutOfFuel => OutOfFuel
    end;
  i_capacity := fun w => s_cap (sw_s w);
  i_pos := fun w => s_pos (sw_s w);
  i_set_pos := set_pos;
  i_push_slice_unchecked := push_slice_unchecked;
  i_reserve := reserve;
  i_shrink_to_fit := shrink_to_fit
|}.

End GenStorage.
