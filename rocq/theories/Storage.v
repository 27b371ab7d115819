(** * Storage: model of ser_raw/src/util.rs, ser_raw/src/storage/mod.rs and
    ser_raw/src/storage/aligned_vec.rs. *)
From Verif Require Import Base Types.
Local Open Scope N_scope.

(** ** Calls made to the global allocator, as recorded in a run *)
Inductive aevent :=
| EAlloc (addr size align : N)
| ERealloc (old_addr old_size align new_addr new_size : N)
| EDealloc (addr size align : N).

(** The fields of AlignedVec (aligned_vec.rs:62-71) plus, as [s_buf], the
    contents of the memory block it owns (index 0 = byte at [s_ptr]). *)
Record store := mkStore {
  s_ptr : N;
  s_cap : N;
  s_pos : N;
  s_buf : mem
}.

(** A storage together with the allocator's side of the run. *)
Record sw := mkSW {
  sw_s : store;
  sw_calls : nat;            (* number of alloc/realloc calls so far *)
  sw_trace : list aevent     (* all allocator calls, oldest first *)
}.

Section Storage.
Context {P : Params}.

(** ** util.rs *)

(** util.rs:14-18  align_up_to *)
Definition align_up_to {S} (pos alignment : N) : M S N :=
  dassert (ret (is_pow2 alignment)) ;;;
  s <- add_u pos alignment ;;
  s1 <- sub_u s 1 ;;
  a1 <- sub_u alignment 1 ;;
  ret (N.land s1 (N.lnot a1 (8 * pW))).

(** util.rs:23-27  is_aligned_to *)
Definition is_aligned_to {S} (pos alignment : N) : M S bool :=
  dassert (ret (is_pow2 alignment)) ;;;
  a1 <- sub_u alignment 1 ;;
  ret (N.land pos a1 =? 0).

(** util.rs:46-57  aligned_max_capacity *)
Definition aligned_max_capacity {S} (alignment : N) : M S N :=
  assert_or PAssert (negb (alignment =? 0)) ;;;
  assert_or PAssert (is_pow2 alignment) ;;;
  assert_or PAssert (alignment <? imax) ;;;
  a1 <- sub_u alignment 1 ;;
  sub_u imax a1.

(** util.rs:83-102  aligned_max_u32_capacity *)
Definition u32_max : N := 2 ^ 32 - 1.
Definition aligned_max_u32_capacity {S} (alignment : N) : M S N :=
  assert_or PAssert (negb (alignment =? 0)) ;;;
  assert_or PAssert (is_pow2 alignment) ;;;
  assert_or PAssert ((alignment <? u32_max) && (alignment <? imax)) ;;;
  if 8 <=? pW then add_u u32_max 1
  else (a1 <- sub_u alignment 1 ;; sub_u imax a1).

(** storage/mod.rs:140-183  ASSERT_ALIGNMENTS_VALID (evaluated at compile time;
    [Ok] means the program compiles). *)
Definition assert_alignments_valid {S} : M S unit :=
  assert_or PAssert (0 <? SA) ;;;
  assert_or PAssert (SA <? imax) ;;;
  assert_or PAssert (is_pow2 SA) ;;;
  assert_or PAssert (0 <? MVA) ;;;
  assert_or PAssert (MVA <=? SA) ;;;
  assert_or PAssert (is_pow2 MVA) ;;;
  assert_or PAssert (0 <? VA) ;;;
  assert_or PAssert (VA <=? MVA) ;;;
  assert_or PAssert (is_pow2 VA) ;;;
  assert_or PAssert (0 <? MAXC) ;;;
  m <- aligned_max_capacity SA ;;
  assert_or PAssert (MAXC <=? m) ;;;
  assert_or PAssert (MAXC mod MVA =? 0).

(** ** State access *)
Definition get_ptr : M sw N := gets (fun w => s_ptr (sw_s w)).
Definition get_cap : M sw N := gets (fun w => s_cap (sw_s w)).    (* aligned_vec.rs:142-146 capacity *)
Definition get_pos : M sw N := gets (fun w => s_pos (sw_s w)).    (* aligned_vec.rs:148-152 pos *)

Definition with_store (w : sw) (s : store) : sw :=
  mkSW s (sw_calls w) (sw_trace w).
Definition put_ptr (p : N) : M sw unit :=
  modify (fun w => with_store w (mkStore p (s_cap (sw_s w)) (s_pos (sw_s w)) (s_buf (sw_s w)))).
Definition put_cap (c : N) : M sw unit :=
  modify (fun w => with_store w (mkStore (s_ptr (sw_s w)) c (s_pos (sw_s w)) (s_buf (sw_s w)))).
Definition put_pos (n : N) : M sw unit :=
  modify (fun w => with_store w (mkStore (s_ptr (sw_s w)) (s_cap (sw_s w)) n (s_buf (sw_s w)))).
Definition put_buf (b : mem) : M sw unit :=
  modify (fun w => with_store w (mkStore (s_ptr (sw_s w)) (s_cap (sw_s w)) (s_pos (sw_s w)) b)).

(** NonNull::<u8>::dangling(): address 1 (std: align_of::<u8>()). *)
Definition dangling_u8 : N := 1.

(** aligned_vec.rs:100-111  new.  A storage is created in a run in which
    nothing has been allocated yet. *)
Definition store_new : store := mkStore dangling_u8 0 0 no_mem.
Definition sw_new : sw := mkSW store_new 0 [].

(** aligned_vec.rs:308-324  alloc.  std::alloc::alloc is UB for size 0 and
    Layout::from_size_align_unchecked for an illegal layout.  The new block is
    uninitialised. *)
Definition alloc (capacity : N) : M sw N :=
  dassert (ret (0 <? capacity)) ;;;
  dassert (m <- aligned_max_capacity SA ;; ret (capacity <=? m)) ;;;
  fun w =>
    if (0 <? capacity) && layout_legal capacity SA then
      let a := orc (sw_calls w) capacity in
      if a =? 0 then Abort
      else Ok a (mkSW (mkStore (s_ptr (sw_s w)) (s_cap (sw_s w)) (s_pos (sw_s w)) no_mem)
                      (S (sw_calls w))
                      (sw_trace w ++ [EAlloc a capacity SA]))
    else UB.

(** aligned_vec.rs:326-346  realloc (layout() at :358-363).  std: UB unless the
    old layout is that of the live block and the new size is legal and not 0;
    the common prefix is kept, the rest is uninitialised. *)
Definition realloc (new_cap : N) : M sw N :=
  cap <- get_cap ;;
  dassert (ret (0 <? cap)) ;;;
  dassert (ret (0 <? new_cap)) ;;;
  dassert (m <- aligned_max_capacity SA ;; ret (new_cap <=? m)) ;;;
  fun w =>
    let st := sw_s w in
    if (0 <? s_cap st) && (0 <? new_cap)
       && layout_legal (s_cap st) SA && layout_legal new_cap SA then
      let a := orc (sw_calls w) new_cap in
      if a =? 0 then Abort
      else Ok a (mkSW (mkStore (s_ptr st) (s_cap st) (s_pos st)
                         (fun i => if (i <? s_cap st) && (i <? new_cap) then s_buf st i else None))
                      (S (sw_calls w))
                      (sw_trace w ++ [ERealloc (s_ptr st) (s_cap st) SA a new_cap]))
    else UB.

(** aligned_vec.rs:348-356  dealloc *)
Definition dealloc : M sw unit :=
  cap <- get_cap ;;
  dassert (ret (0 <? cap)) ;;;
  fun w =>
    let st := sw_s w in
    if (0 <? s_cap st) && layout_legal (s_cap st) SA then
      Ok tt (mkSW (mkStore (s_ptr st) (s_cap st) (s_pos st) no_mem)
                  (sw_calls w)
                  (sw_trace w ++ [EDealloc (s_ptr st) (s_cap st) SA]))
    else UB.

(** aligned_vec.rs:113-140  with_capacity_unchecked, run on [sw_new]: the
    fields are those of the struct literal. *)
Definition with_capacity_unchecked (capacity : N) : M sw unit :=
  assert_alignments_valid ;;;
  dassert (ret (0 <? capacity)) ;;;
  dassert (ret (capacity <=? MAXC)) ;;;
  dassert (is_aligned_to capacity MVA) ;;;
  p <- alloc capacity ;;
  put_ptr p ;;; put_cap capacity ;;; put_pos 0.

(** storage/mod.rs:196-215  with_capacity *)
Definition with_capacity (capacity : N) : M sw unit :=
  assert_alignments_valid ;;;
  if capacity =? 0 then
    assert_alignments_valid            (* Self::new(), aligned_vec.rs:102-111 *)
  else
    assert_or PWithCapacity (capacity <=? MAXC) ;;;
    capacity' <- align_up_to capacity MVA ;;
    with_capacity_unchecked capacity'.

(** aligned_vec.rs:164-169  set_pos *)
Definition set_pos (new_pos : N) : M sw unit :=
  cap <- get_cap ;;
  dassert (ret (new_pos <=? cap)) ;;;
  dassert (is_aligned_to new_pos VA) ;;;
  put_pos new_pos.

(** aligned_vec.rs:383-399  write_slice of [len] values of layout [l] whose
    bytes are [data].  ptr::copy_nonoverlapping is UB unless the destination
    is inside the block and aligned for T, even when [len] is 0. *)
Definition write_slice (pos : N) (l : layout) (len : N) (data : mem) : M sw unit :=
  cap <- get_cap ;;
  dassert (ret (pos <=? cap)) ;;;
  dassert (d <- sub_u cap pos ;; sz <- mul_u (l_size l) len ;; ret (sz <=? d)) ;;;
  dassert (is_aligned_to pos (l_align l)) ;;;
  if l_size l =? 0 then ret tt
  else fun w =>
    let st := sw_s w in
    if (pos + l_size l * len <=? s_cap st) && ((s_ptr st + pos) mod (l_align l) =? 0)
    then put_buf (blit (s_buf st) pos (l_size l * len) data) w
    else UB.

(** storage/mod.rs:484-487  write *)
Definition write (pos : N) (l : layout) (data : mem) : M sw unit :=
  write_slice pos l 1 data.

(** aligned_vec.rs:407-413  read (and :421-427 read_mut): the cells of the [T]
    referred to.  Dereferencing is UB unless in bounds and aligned. *)
Definition read (pos : N) (l : layout) : M sw mem :=
  dassert (e <- add_u pos (l_size l) ;; p <- get_pos ;; ret (e <=? p)) ;;;
  dassert (is_aligned_to pos (l_align l)) ;;;
  fun w =>
    let st := sw_s w in
    if (pos + l_size l <=? s_cap st) && ((s_ptr st + pos) mod (l_align l) =? 0)
    then Ok (fun i => if i <? l_size l then s_buf st (pos + i) else None) w
    else UB.

(** aligned_vec.rs:444-449 ptr, :466-471 mut_ptr: address of a position. *)
Definition ptr_at (pos : N) : M sw N :=
  cap <- get_cap ;;
  dassert (ret (0 <? cap)) ;;;
  dassert (ret (pos <=? cap)) ;;;
  p <- get_ptr ;;
  if pos <=? cap then ret (p + pos) else ub.

(** aligned_vec.rs:490-492 as_ptr, :503-505 as_mut_ptr *)
Definition as_ptr : M sw N := get_ptr.

(** aligned_vec.rs:195-207  push_slice_unchecked *)
Definition push_slice_unchecked (l : layout) (len : N) (data : mem) (size : N) : M sw unit :=
  dassert (cap <- get_cap ;; pos <- get_pos ;; d <- sub_u cap pos ;; ret (size <=? d)) ;;;
  dassert (sz <- mul_u (l_size l) len ;; ret (size =? sz)) ;;;
  dassert (pos <- get_pos ;; is_aligned_to pos (l_align l)) ;;;
  if l_size l =? 0 then ret tt
  else
    pos <- get_pos ;;
    write_slice pos l len data ;;;
    pos' <- get_pos ;;
    new_pos <- add_u pos' size ;;
    put_pos new_pos.

(** aligned_vec.rs:271-306  grow_for_reserve *)
Definition grow_for_reserve (additional : N) : M sw unit :=
  dassert (ret (0 <? additional)) ;;;
  pos <- get_pos ;;
  new_cap <- (if pos + additional <? umod then ret (pos + additional)   (* checked_add *)
              else panics PCapacity) ;;
  np <- next_power_of_two MAXC ;;
  new_cap <- (if np / 2 <? new_cap
              then assert_or PCapacity (new_cap <=? MAXC) ;;; ret MAXC
              else next_power_of_two new_cap) ;;
  cap <- get_cap ;;
  if cap =? 0 then
    let new_cap' := N.max new_cap MVA in
    p <- alloc new_cap' ;;
    put_ptr p ;;; put_cap new_cap'
  else
    p <- realloc new_cap ;;
    put_ptr p ;;; put_cap new_cap.

(** aligned_vec.rs:223-230  reserve *)
Definition reserve (additional : N) : M sw unit :=
  cap <- get_cap ;;
  pos <- get_pos ;;
  let remaining := wrapping_sub cap pos in
  if remaining <? additional then grow_for_reserve additional else ret tt.

(** storage/mod.rs:436-453  align *)
Definition align (alignment : N) : M sw unit :=
  dassert (ret (VA <=? alignment)) ;;;
  dassert (ret (alignment <=? MVA)) ;;;
  dassert (ret (is_pow2 alignment)) ;;;
  pos <- get_pos ;;
  new_pos <- align_up_to pos alignment ;;
  set_pos new_pos.

(** storage/mod.rs:379-395  align_for::<T> *)
Definition align_for (l : layout) : M sw unit :=
  if VA <? l_align l then align (l_align l) else ret tt.

(** storage/mod.rs:416-419  align_after_any *)
Definition align_after_any : M sw unit := align VA.

(** storage/mod.rs:400-408  align_after::<T> *)
Definition align_after (l : layout) : M sw unit :=
  if 0 <? l_size l mod VA then align_after_any else ret tt.

(** storage/mod.rs:261-291  push_slice *)
Definition push_slice (l : layout) (len : N) (data : mem) : M sw N :=
  if l_size l =? 0 then ret 0
  else
    align_for l ;;;
    size <- mul_u (l_size l) len ;;
    reserve size ;;;
    pos <- get_pos ;;
    push_slice_unchecked l len data size ;;;
    align_after l ;;;
    ret pos.

(** storage/mod.rs:249-251  push *)
Definition push (l : layout) (data : mem) : M sw N := push_slice l 1 data.

(** storage/mod.rs:297-299  push_bytes *)
Definition push_bytes (len : N) (data : mem) : M sw N := push_slice u8_layout len data.

(** storage/mod.rs:353-363  push_empty_slice *)
Definition push_empty_slice (l : layout) (len : N) : M sw N :=
  align_for l ;;;
  size <- mul_u (l_size l) len ;;
  reserve size ;;;
  pos <- get_pos ;;
  new_pos <- add_u pos size ;;
  set_pos new_pos ;;;
  align_after l ;;;
  ret pos.

(** storage/mod.rs:337-339  push_empty *)
Definition push_empty (l : layout) : M sw N := push_empty_slice l 1.

(** storage/mod.rs:460-463  clear *)
Definition clear : M sw unit := set_pos 0.

(** aligned_vec.rs:238-253  shrink_to_fit *)
Definition shrink_to_fit : M sw unit :=
  pos <- get_pos ;;
  new_cap <- align_up_to pos MVA ;;
  cap <- get_cap ;;
  if negb (new_cap =? cap) then
    p <- (if new_cap =? 0 then dealloc ;;; ret dangling_u8 else realloc new_cap) ;;
    put_ptr p ;;;
    put_cap new_cap
  else ret tt.

(** aligned_vec.rs:515-520  Drop *)
Definition drop_store : M sw unit :=
  cap <- get_cap ;;
  if 0 <? cap then dealloc else ret tt.

(** ** Client histories: the safe methods of Storage *)
Inductive sop :=
| OPush (l : layout) (data : mem)
| OPushSlice (l : layout) (len : N) (data : mem)
| OPushBytes (len : N) (data : mem)
| OPushEmpty (l : layout)
| OPushEmptySlice (l : layout) (len : N)
| OReserve (additional : N)
| OAlignFor (l : layout)
| OAlignAfter (l : layout)
| OAlignAfterAny
| OClear
| OShrink.

Definition some_pos (m : M sw N) : M sw (option N) := p <- m ;; ret (Some p).
Definition no_pos (m : M sw unit) : M sw (option N) := m ;;; ret None.

(** The position returned, for the operations that return one. *)
Definition run_op (o : sop) : M sw (option N) :=
  match o with
  | OPush l d => some_pos (push l d)
  | OPushSlice l n d => some_pos (push_slice l n d)
  | OPushBytes n d => some_pos (push_bytes n d)
  | OPushEmpty l => some_pos (push_empty l)
  | OPushEmptySlice l n => some_pos (push_empty_slice l n)
  | OReserve n => no_pos (reserve n)
  | OAlignFor l => no_pos (align_for l)
  | OAlignAfter l => no_pos (align_after l)
  | OAlignAfterAny => no_pos align_after_any
  | OClear => no_pos clear
  | OShrink => no_pos shrink_to_fit
  end.

(** A client that runs the operations one after the other and catches panics
    (std::panic::catch_unwind), going on with the storage as it was left. *)
Fixpoint run_ops (os : list sop) : M sw unit :=
  match os with
  | [] => ret tt
  | o :: os' => fun w =>
      match run_op o w with
      | Ok _ w' => run_ops os' w'
      | Panic _ w' => run_ops os' w'
      | Abort => Abort
      | UB => UB
      | OutOfFuel => OutOfFuel
      end
  end.

(** A client that collects the positions returned (a panic ends the run). *)
Fixpoint run_seq (os : list sop) : M sw (list (option N)) :=
  match os with
  | [] => ret []
  | o :: os' =>
      r <- run_op o ;;
      rs <- run_seq os' ;;
      ret (r :: rs)
  end.

End Storage.
