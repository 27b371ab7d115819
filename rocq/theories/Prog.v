(** * Prog: the code as sequences of memory accesses and allocator calls.

    Storage.v, Serializer.v and Serialize.v run a method in one go on a storage whose buffer is a
    value of its own, and read the input from a constant memory.  Here the same methods are
    programs: they call the allocator, and read and write bytes of one memory, by address, one
    instruction at a time.  Machine.v runs any number of such programs, interleaved, on one memory.

    Only what touches memory or the allocator is an instruction.  The fields of an AlignedVec and
    of a serializer are state of the program: safe Rust gives the code that runs a method exclusive
    access to them (&mut self).

    Every definition cites the code it models; where Storage.v and Serializer.v model the same
    code, the definition here differs in the instructions only. *)
From Verif Require Import Base Types Storage.
Local Open Scope N_scope.

(** ** Programs *)

(** A program on fields [S] with result [A].
    [Done]: finished.  [IAlloc], [IRealloc]: std::alloc::alloc and realloc, going on with
    the address answered (0: null).  [IDealloc]: std::alloc::dealloc.
    [ICopy src dst n]: ptr::copy_nonoverlapping of n bytes from the value being stored to the
    buffer.  [IStore dst n data]: the same from a local variable with bytes [data].
    [ILoad a n]: read n bytes through a reference to the input.  [IRead a n]: read n bytes of
    the buffer. *)
Inductive prog (S A : Type) : Type :=
| Done (o : outcome S A)
| IAlloc (size align : N) (k : N -> prog S A)
| IRealloc (addr old_size align new_size : N) (k : N -> prog S A)
| IDealloc (addr size align : N) (k : prog S A)
| ICopy (src dst n : N) (k : prog S A)
| IStore (dst n : N) (data : mem) (k : prog S A)
| ILoad (addr n : N) (k : list cell -> prog S A)
| IRead (addr n : N) (k : list cell -> prog S A).
Arguments Done {S A}.
Arguments IAlloc {S A}.
Arguments IRealloc {S A}.
Arguments IDealloc {S A}.
Arguments ICopy {S A}.
Arguments IStore {S A}.
Arguments ILoad {S A}.
Arguments IRead {S A}.

(** [n] bytes of memory [m] from address [a]; bytes read as a memory of their own. *)
Definition cells (m : mem) (a n : N) : list cell := map (fun i => m (a + N.of_nat i)) (seq 0 (N.to_nat n)).
Definition mem_of (l : list cell) : mem := fun i => nth (N.to_nat i) l None.

(** [p], then [f] if it returned, [g] if it panicked. *)
Fixpoint pthen {S S' A B} (f : A -> S -> prog S' B) (g : panic -> S -> prog S' B) (p : prog S A) : prog S' B :=
  match p with
  | Done (Ok a s) => f a s
  | Done (Panic e s) => g e s
  | Done Abort => Done Abort
  | Done UB => Done UB
  | Done OutOfFuel => Done OutOfFuel
  | IAlloc size align k => IAlloc size align (fun a => pthen f g (k a))
  | IRealloc a o al n k => IRealloc a o al n (fun a' => pthen f g (k a'))
  | IDealloc a size align k => IDealloc a size align (pthen f g k)
  | ICopy src dst n k => ICopy src dst n (pthen f g k)
  | IStore dst n data k => IStore dst n data (pthen f g k)
  | ILoad a n k => ILoad a n (fun c => pthen f g (k c))
  | IRead a n k => IRead a n (fun c => pthen f g (k c))
  end.

(** Methods. *)
Definition HM (S A : Type) := S -> prog S A.
Definition hbind {S A B} (m : HM S A) (f : A -> HM S B) : HM S B :=
  fun s => pthen f (fun e s' => Done (Panic e s')) (m s).
Notation "x <~ m ;; k" := (hbind m (fun x => k)) (at level 61, m at next level, right associativity).
Notation "m ;;~ k" := (hbind m (fun _ => k)) (at level 61, right associativity).

(** Code that only computes with the fields. *)
Definition pu {S A} (m : M S A) : HM S A := fun s => Done (m s).
Definition hret {S A} (a : A) : HM S A := pu (ret a).
Definition hub {S A} : HM S A := fun _ => Done UB.

(** std::panic::catch_unwind. *)
Definition catch {S A} (m : HM S A) : HM S (option A) :=
  fun s => pthen (fun a s' => Done (Ok (Some a) s')) (fun _ s' => Done (Ok None s')) (m s).

(** ** AlignedVec, instruction by instruction *)

(** The fields of AlignedVec (aligned_vec.rs:62-71). *)
Record hdr := mkHdr { h_ptr : N; h_cap : N; h_pos : N }.

(** Where the bytes written come from: the memory behind a reference, or a local variable. *)
Inductive source := SMem (a : N) | SLocal (data : mem).
Definition src_data (m : mem) (s : source) : mem :=
  match s with SMem a => mem_from m a | SLocal d => d end.
Definition iput {S A} (s : source) (dst n : N) (k : prog S A) : prog S A :=
  match s with SMem a => ICopy a dst n k | SLocal d => IStore dst n d k end.

Section Prog.
Context {P : Params}.

(** aligned_vec.rs:142-152 *)
Definition hp : HM hdr N := pu (gets h_ptr).
Definition hcap : HM hdr N := pu (gets h_cap).
Definition hpos : HM hdr N := pu (gets h_pos).
Definition hset_ptr (p : N) : HM hdr unit := pu (modify (fun h => mkHdr p (h_cap h) (h_pos h))).
Definition hset_cap (c : N) : HM hdr unit := pu (modify (fun h => mkHdr (h_ptr h) c (h_pos h))).
Definition hput_pos (n : N) : HM hdr unit := pu (modify (fun h => mkHdr (h_ptr h) (h_cap h) n)).

(** aligned_vec.rs:100-111  new *)
Definition hdr_new : hdr := mkHdr dangling_u8 0 0.

(** aligned_vec.rs:308-324  alloc *)
Definition h_alloc (capacity : N) : HM hdr N :=
  pu (dassert (ret (0 <? capacity))) ;;~
  pu (dassert (m <- aligned_max_capacity SA ;; ret (capacity <=? m))) ;;~
  fun h => IAlloc capacity SA (fun a => if a =? 0 then Done Abort else Done (Ok a h)).

(** aligned_vec.rs:326-346  realloc (layout() at :358-363) *)
Definition h_realloc (new_cap : N) : HM hdr N :=
  cap <~ hcap ;;
  pu (dassert (ret (0 <? cap))) ;;~
  pu (dassert (ret (0 <? new_cap))) ;;~
  pu (dassert (m <- aligned_max_capacity SA ;; ret (new_cap <=? m))) ;;~
  fun h => IRealloc (h_ptr h) (h_cap h) SA new_cap (fun a => if a =? 0 then Done Abort else Done (Ok a h)).

(** aligned_vec.rs:348-356  dealloc *)
Definition h_dealloc : HM hdr unit :=
  cap <~ hcap ;;
  pu (dassert (ret (0 <? cap))) ;;~
  fun h => IDealloc (h_ptr h) (h_cap h) SA (Done (Ok tt h)).

(** aligned_vec.rs:113-140  with_capacity_unchecked *)
Definition h_with_capacity_unchecked (capacity : N) : HM hdr unit :=
  pu assert_alignments_valid ;;~
  pu (dassert (ret (0 <? capacity))) ;;~
  pu (dassert (ret (capacity <=? MAXC))) ;;~
  pu (dassert (is_aligned_to capacity MVA)) ;;~
  p <~ h_alloc capacity ;;
  hset_ptr p ;;~ hset_cap capacity ;;~ hput_pos 0.

(** storage/mod.rs:196-215  with_capacity *)
Definition h_with_capacity (capacity : N) : HM hdr unit :=
  pu assert_alignments_valid ;;~
  if capacity =? 0 then pu assert_alignments_valid
  else
    pu (assert_or PWithCapacity (capacity <=? MAXC)) ;;~
    capacity' <~ pu (align_up_to capacity MVA) ;;
    h_with_capacity_unchecked capacity'.

(** aligned_vec.rs:164-169  set_pos *)
Definition h_set_pos (new_pos : N) : HM hdr unit :=
  cap <~ hcap ;;
  pu (dassert (ret (new_pos <=? cap))) ;;~
  pu (dassert (is_aligned_to new_pos VA)) ;;~
  hput_pos new_pos.

(** aligned_vec.rs:383-399  write_slice.  Pointer arithmetic past the end of the block
    (ptr.add, :396) and a misaligned destination are UB; the machine checks the rest. *)
Definition h_write_slice (pos : N) (l : layout) (len : N) (s : source) : HM hdr unit :=
  cap <~ hcap ;;
  pu (dassert (ret (pos <=? cap))) ;;~
  pu (dassert (d <- sub_u cap pos ;; sz <- mul_u (l_size l) len ;; ret (sz <=? d))) ;;~
  pu (dassert (is_aligned_to pos (l_align l))) ;;~
  if l_size l =? 0 then hret tt
  else fun h =>
    if (pos + l_size l * len <=? h_cap h) && ((h_ptr h + pos) mod (l_align l) =? 0)
    then iput s (h_ptr h + pos) (l_size l * len) (Done (Ok tt h))
    else Done UB.

(** storage/mod.rs:484-487  write *)
Definition h_write (pos : N) (l : layout) (s : source) : HM hdr unit := h_write_slice pos l 1 s.

(** aligned_vec.rs:195-207  push_slice_unchecked *)
Definition h_push_slice_unchecked (l : layout) (len : N) (s : source) (size : N) : HM hdr unit :=
  pu (dassert (cap <- gets h_cap ;; pos <- gets h_pos ;; d <- sub_u cap pos ;; ret (size <=? d))) ;;~
  pu (dassert (sz <- mul_u (l_size l) len ;; ret (size =? sz))) ;;~
  pu (dassert (pos <- gets h_pos ;; is_aligned_to pos (l_align l))) ;;~
  if l_size l =? 0 then hret tt
  else
    pos <~ hpos ;;
    h_write_slice pos l len s ;;~
    pos' <~ hpos ;;
    new_pos <~ pu (add_u pos' size) ;;
    hput_pos new_pos.

(** aligned_vec.rs:271-306  grow_for_reserve *)
Definition h_grow_for_reserve (additional : N) : HM hdr unit :=
  pu (dassert (ret (0 <? additional))) ;;~
  pos <~ hpos ;;
  new_cap <~ pu (if pos + additional <? umod then ret (pos + additional) else panics PCapacity) ;;
  np <~ pu (next_power_of_two MAXC) ;;
  new_cap <~ pu (if np / 2 <? new_cap
                 then assert_or PCapacity (new_cap <=? MAXC) ;;; ret MAXC
                 else next_power_of_two new_cap) ;;
  cap <~ hcap ;;
  if cap =? 0 then
    p <~ h_alloc (N.max new_cap MVA) ;;
    hset_ptr p ;;~ hset_cap (N.max new_cap MVA)
  else
    p <~ h_realloc new_cap ;;
    hset_ptr p ;;~ hset_cap new_cap.

(** aligned_vec.rs:223-230  reserve *)
Definition h_reserve (additional : N) : HM hdr unit :=
  cap <~ hcap ;;
  pos <~ hpos ;;
  if wrapping_sub cap pos <? additional then h_grow_for_reserve additional else hret tt.

(** storage/mod.rs:436-453  align *)
Definition h_align (alignment : N) : HM hdr unit :=
  pu (dassert (ret (VA <=? alignment))) ;;~
  pu (dassert (ret (alignment <=? MVA))) ;;~
  pu (dassert (ret (is_pow2 alignment))) ;;~
  pos <~ hpos ;;
  new_pos <~ pu (align_up_to pos alignment) ;;
  h_set_pos new_pos.

(** storage/mod.rs:379-395 align_for, :416-419 align_after_any, :400-408 align_after *)
Definition h_align_for (l : layout) : HM hdr unit :=
  if VA <? l_align l then h_align (l_align l) else hret tt.
Definition h_align_after_any : HM hdr unit := h_align VA.
Definition h_align_after (l : layout) : HM hdr unit :=
  if 0 <? l_size l mod VA then h_align_after_any else hret tt.

(** storage/mod.rs:261-291  push_slice *)
Definition h_push_slice (l : layout) (len : N) (s : source) : HM hdr N :=
  if l_size l =? 0 then hret 0
  else
    h_align_for l ;;~
    size <~ pu (mul_u (l_size l) len) ;;
    h_reserve size ;;~
    pos <~ hpos ;;
    h_push_slice_unchecked l len s size ;;~
    h_align_after l ;;~
    hret pos.

(** storage/mod.rs:249-251 push, :297-299 push_bytes *)
Definition h_push (l : layout) (s : source) : HM hdr N := h_push_slice l 1 s.
Definition h_push_bytes (len : N) (s : source) : HM hdr N := h_push_slice u8_layout len s.

(** storage/mod.rs:353-363 push_empty_slice, :337-339 push_empty *)
Definition h_push_empty_slice (l : layout) (len : N) : HM hdr N :=
  h_align_for l ;;~
  size <~ pu (mul_u (l_size l) len) ;;
  h_reserve size ;;~
  pos <~ hpos ;;
  new_pos <~ pu (add_u pos size) ;;
  h_set_pos new_pos ;;~
  h_align_after l ;;~
  hret pos.
Definition h_push_empty (l : layout) : HM hdr N := h_push_empty_slice l 1.

(** storage/mod.rs:460-463  clear *)
Definition h_clear : HM hdr unit := h_set_pos 0.

(** aligned_vec.rs:238-253  shrink_to_fit *)
Definition h_shrink_to_fit : HM hdr unit :=
  pos <~ hpos ;;
  new_cap <~ pu (align_up_to pos MVA) ;;
  cap <~ hcap ;;
  if negb (new_cap =? cap) then
    p <~ (if new_cap =? 0 then h_dealloc ;;~ hret dangling_u8 else h_realloc new_cap) ;;
    hset_ptr p ;;~
    hset_cap new_cap
  else hret tt.

(** aligned_vec.rs:515-520  Drop *)
Definition h_drop : HM hdr unit :=
  cap <~ hcap ;;
  if 0 <? cap then h_dealloc else hret tt.

End Prog.

(** The safe methods of Storage, the values pushed being at an address of the memory. *)
Inductive hop :=
| HPush (l : layout) (src : N)
| HPushSlice (l : layout) (len src : N)
| HPushBytes (len src : N)
| HPushEmpty (l : layout)
| HPushEmptySlice (l : layout) (len : N)
| HReserve (additional : N)
| HAlignFor (l : layout)
| HAlignAfter (l : layout)
| HAlignAfterAny
| HClear
| HShrink.

Definition h_run_op {P : Params} (o : hop) : HM hdr (option N) :=
  let some_pos m := (p <~ m ;; hret (Some p)) in
  let no_pos m := (m ;;~ hret None) in
  match o with
  | HPush l a => some_pos (h_push l (SMem a))
  | HPushSlice l n a => some_pos (h_push_slice l n (SMem a))
  | HPushBytes n a => some_pos (h_push_bytes n (SMem a))
  | HPushEmpty l => some_pos (h_push_empty l)
  | HPushEmptySlice l n => some_pos (h_push_empty_slice l n)
  | HReserve n => no_pos (h_reserve n)
  | HAlignFor l => no_pos (h_align_for l)
  | HAlignAfter l => no_pos (h_align_after l)
  | HAlignAfterAny => no_pos h_align_after_any
  | HClear => no_pos h_clear
  | HShrink => no_pos h_shrink_to_fit
  end.

(** The same call in the model of Storage.v, the memory being [m]. *)
Definition op_of (m : mem) (o : hop) : sop :=
  match o with
  | HPush l a => OPush l (mem_from m a)
  | HPushSlice l n a => OPushSlice l n (mem_from m a)
  | HPushBytes n a => OPushBytes n (mem_from m a)
  | HPushEmpty l => OPushEmpty l
  | HPushEmptySlice l n => OPushEmptySlice l n
  | HReserve n => OReserve n
  | HAlignFor l => OAlignFor l
  | HAlignAfter l => OAlignAfter l
  | HAlignAfterAny => OAlignAfterAny
  | HClear => OClear
  | HShrink => OShrink
  end.
