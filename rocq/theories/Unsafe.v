(** * Unsafe: the unsafe methods of a storage, with their documented contracts. *)
From Verif Require Import Base Types Storage Spec.
Local Open Scope N_scope.

(** Calls of unsafe methods of Storage and RandomAccessStorage; [l]: the layout of [T]. *)
Inductive ucall :=
| CSetPos (new_pos : N)                                          (* set_pos *)
| CPush (l : layout) (len : N) (data : mem) (size : N)           (* push_slice_unchecked::<T> *)
| CAlign (alignment : N)                                         (* align *)
| CWrite (pos : N) (l : layout) (len : N) (data : mem)           (* write_slice::<T>, write::<T> *)
| CRead (pos : N) (l : layout)                                   (* read::<T>, read_mut::<T> *)
| CPtr (pos : N).                                                (* ptr, mut_ptr *)

(** What a call returns. *)
Inductive uret := RUnit | RCells (c : mem) | RAddr (a : N).

Section Unsafe.
Context {P : Params}.
Notation cap w := (s_cap (sw_s w)).
Notation pos w := (s_pos (sw_s w)).
Notation ptr w := (s_ptr (sw_s w)).
Notation buf w := (s_buf (sw_s w)).

Definition run_ucall (c : ucall) : M sw uret :=
  match c with
  | CSetPos n => set_pos n ;;; ret RUnit
  | CPush l n d size => push_slice_unchecked l n d size ;;; ret RUnit
  | CAlign a => align a ;;; ret RUnit
  | CWrite p l n d => write_slice p l n d ;;; ret RUnit
  | CRead p l => x <- read p l ;; ret (RCells x)
  | CPtr p => x <- ptr_at p ;; ret (RAddr x)
  end.

(** The layout of some Rust type; arguments that can exist: numbers are usize values, slices
    have at most isize::MAX bytes. *)
Definition any_layout (l : layout) : Prop :=
  pow2 (l_align l) /\ (l_align l | l_size l) /\ l_size l <= imax.
Definition args_ok (c : ucall) : Prop :=
  match c with
  | CSetPos n | CAlign n | CPtr n => n < umod
  | CPush l n _ size => any_layout l /\ l_size l * n <= imax /\ size < umod
  | CWrite p l n _ => any_layout l /\ l_size l * n <= imax /\ p < umod
  | CRead p l => any_layout l /\ p < umod
  end.

(** The "Safety" sections: storage/mod.rs:237-242 (set_pos), :304-326 (push_slice_unchecked),
    :423-434 (align), :475-483 and :491-499 (write, write_slice), :504-507 and :512-515 (read,
    read_mut: that a [T] "is present" is checked as far as it lies below pos()), :525-531 and
    :541-547 (ptr, mut_ptr). *)
Definition contract (w : sw) (c : ucall) : Prop :=
  match c with
  | CSetPos n => n <= cap w /\ (VA | n)
  | CPush l n _ size => pos w + size <= cap w /\ size = l_size l * n /\ (l_align l | pos w)
  | CAlign a => VA <= a /\ a <= MVA /\ pow2 a
  | CWrite p l n _ => p + l_size l * n <= cap w /\ (l_align l | p)
  | CRead p l => p + l_size l <= pos w /\ (l_align l | p)
  | CPtr p => 0 < cap w /\ p <= cap w
  end.

(** What the documentation says the call does. *)
Definition does (w : sw) (c : ucall) (r : uret) (w' : sw) : Prop :=
  ptr w' = ptr w /\ cap w' = cap w /\ sw_calls w' = sw_calls w /\ sw_trace w' = sw_trace w /\
  match c with
  | CSetPos n => pos w' = n /\ forall i, buf w' i = buf w i
  | CPush l n d size =>
      pos w' = pos w + size /\
      (forall i, i < size -> buf w' (pos w + i) = d i) /\
      (forall i, i < pos w \/ pos w + size <= i -> buf w' i = buf w i)
  | CAlign a => least_multiple (pos w) a (pos w') /\ forall i, buf w' i = buf w i
  | CWrite p l n d =>
      pos w' = pos w /\
      (forall i, i < l_size l * n -> buf w' (p + i) = d i) /\
      (forall i, i < p \/ p + l_size l * n <= i -> buf w' i = buf w i)
  | CRead p l => w' = w /\ exists x, r = RCells x /\ forall i, i < l_size l -> x i = buf w (p + i)
  | CPtr p => w' = w /\ r = RAddr (ptr w + p)
  end.

(** The call accesses memory as a [T] at an address not aligned for [T]. *)
Definition misaligned (w : sw) (c : ucall) : Prop :=
  match c with
  | CPush l _ _ _ => l_size l <> 0 /\ ~ (l_align l | ptr w + pos w)
  | CWrite p l _ _ => l_size l <> 0 /\ ~ (l_align l | ptr w + p)
  | CRead p l => ~ (l_align l | ptr w + p)
  | _ => False
  end.

(** Histories of safe and unsafe calls; push_slice_unchecked::<T> followed by
    align_after::<T> as its documentation asks.  Panics of safe calls are caught. *)
Inductive hcall := HSafe (o : sop) | HUnsafe (c : ucall).
Definition run_h (h : hcall) : M sw unit :=
  match h with
  | HSafe o => fun w =>
      match run_op o w with
      | Ok _ w' | Panic _ w' => Ok tt w'
      | Abort => Abort
      | UB => UB
      | OutOfFuel => OutOfFuel
      end
  | HUnsafe (CPush l n d size) => run_ucall (CPush l n d size) ;;; align_after l
  | HUnsafe c => run_ucall c ;;; ret tt
  end.
Fixpoint run_hs (hs : list hcall) : M sw unit :=
  match hs with [] => ret tt | h :: hs' => run_h h ;;; run_hs hs' end.

(** Every unsafe call meets its contract in the state it is made in. *)
Fixpoint respects (hs : list hcall) (w : sw) : Prop :=
  match hs with
  | [] => True
  | h :: hs' =>
      match h with HSafe o => op_valid o | HUnsafe c => args_ok c /\ contract w c end /\
      match run_h h w with Ok _ w' => respects hs' w' | _ => True end
  end.

End Unsafe.
