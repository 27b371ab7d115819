(** * Serializer: model of ser_raw/src/pos.rs, ser_raw/src/serializer.rs,
    ser_raw/src/serializer_traits/*.rs and of the impls which
    derive(Serializer) generates (ser_raw_derive_serializer/src/ser_types/*.rs). *)
From Verif Require Import Base Types Storage.
Local Open Scope N_scope.

(** ser_raw_derive_serializer/src/common.rs:8-13; the structs in
    ser_raw/src/serializers/ use PureCopy, PtrOffset and Complete. *)
Inductive kind := PureCopy | PosTracking | PtrOffset | Complete.

(** pos.rs:14-17  PosMapping *)
Record posmap := mkMap { pm_in : N; pm_out : N }.

(** pos.rs:90-92 TrackingAddr and :125 NoopAddr *)
Inductive addr := ANoop | ATrack (n : N).

(** pos.rs:167-172  PtrGroup *)
Record pgroup := mkGroup { pg_addr : N; pg_pos : list N }.

(** pos.rs:148-151  Ptrs *)
Record ptrs := mkPtrs { pt_current : pgroup; pt_past : list pgroup }.

(** State of a serializer: storage (with the allocator), position mapping
    (unused by PureCopy) and pointer record (used by Complete only). *)
Record zs := mkZ { z_sw : sw; z_map : posmap; z_ptrs : ptrs }.

(** A slice &[T]: layout of T, address, length, and the bytes found there. *)
Record slice := mkSlice { sl_lay : layout; sl_addr : N; sl_len : N; sl_data : mem }.

Section Serializer.
Context {P : Params}.

(** ** pos.rs *)

(** pos.rs:32-37 PosMapping::dummy; :154-159 Ptrs::new, :178-190 PtrGroup::new, dummy *)
Definition map_dummy : posmap := mkMap 0 0.
Definition group_new (storage_addr : N) : pgroup := mkGroup storage_addr [].
Definition ptrs_new : ptrs := mkPtrs (group_new 0) [].

(** pos.rs:94-110, 127-139  Addr::from_ref, from_ref_offset.  The Addr type is
    NoopAddr for pure_copy and pos_tracking, TrackingAddr for ptr_offset and
    complete (pure_copy.rs:10, pos_tracking.rs:17, ptr_offset.rs:17, complete.rs:18
    of ser_types). *)
Definition tracking (k : kind) : bool :=
  match k with PureCopy | PosTracking => false | PtrOffset | Complete => true end.
Definition addr_from_ref {S} (k : kind) (a : N) : M S addr :=
  if tracking k then ret (ATrack a) else ret ANoop.
Definition addr_from_ref_offset {S} (k : kind) (a off : N) : M S addr :=
  if tracking k then (n <- add_u a off ;; ret (ATrack n)) else ret ANoop.

(** pos.rs:115-117 ActiveAddr::addr.  NoopAddr has no such method (a type error);
    the model makes that [UB]. *)
Definition addr_n {S} (a : addr) : M S N :=
  match a with ATrack n => ret n | ANoop => ub end.

(** pos.rs:43-45  pos_for_addr (pos_for at :51-53 is the same on an address) *)
Definition pos_for_addr {S} (pm : posmap) (a : addr) : M S N :=
  n <- addr_n a ;;
  d <- sub_u n (pm_in pm) ;;
  add_u d (pm_out pm).

(** ** State access *)
Definition lift {A} (m : M sw A) : M zs A :=
  fun z => match m (z_sw z) with
           | Ok a w => Ok a (mkZ w (z_map z) (z_ptrs z))
           | Panic p w => Panic p (mkZ w (z_map z) (z_ptrs z))
           | Abort => Abort
           | UB => UB
           | OutOfFuel => OutOfFuel
           end.

(** serializer_traits/pos_tracking.rs:11-15 *)
Definition get_map : M zs posmap := gets z_map.
Definition set_map (pm : posmap) : M zs unit :=
  modify (fun z => mkZ (z_sw z) pm (z_ptrs z)).
(** serializer_traits/complete.rs:18-22 *)
Definition get_ptrs : M zs ptrs := gets z_ptrs.
Definition set_ptrs (p : ptrs) : M zs unit :=
  modify (fun z => mkZ (z_sw z) (z_map z) p).

(** ** Methods of Serializer that no kind overrides *)

(** serializer.rs:365-367 push_raw_slice, :352-354 push_raw, :406-408
    push_raw_bytes, :418-420 push_empty, :434-436 push_empty_slice *)
Definition push_raw_slice (s : slice) : M zs N :=
  lift (push_slice (sl_lay s) (sl_len s) (sl_data s)).
Definition push_raw (s : slice) : M zs N := push_raw_slice s.   (* s has length 1 *)
Definition push_raw_bytes (len : N) (data : mem) : M zs N := lift (push_bytes len data).
Definition ser_push_empty (l : layout) : M zs N := lift (push_empty l).
Definition ser_push_empty_slice (l : layout) (len : N) : M zs N := lift (push_empty_slice l len).
Definition ser_capacity : M zs N := lift get_cap.   (* serializer.rs:497-499 *)
Definition ser_pos : M zs N := lift get_pos.        (* serializer.rs:503-505 *)

(** ** Pointer writing *)

(** serializer_traits/ptr_offset.rs:21-28  PtrOffset::do_overwrite_ptr *)
Definition po_overwrite_ptr (ptr_pos target_pos : N) : M zs unit :=
  dassert (c <- ser_capacity ;; d <- sub_u c pW ;; ret (ptr_pos <=? d)) ;;;
  dassert (is_aligned_to ptr_pos pW) ;;;
  dassert (c <- ser_capacity ;; ret (target_pos <=? c)) ;;;
  lift (write ptr_pos usize_layout (word_src target_pos)).

(** pos.rs:194-196 is_empty *)
Definition group_is_empty (g : pgroup) : bool :=
  match pg_pos g with [] => true | _ => false end.

(** serializer_traits/complete.rs:67-75  new_ptr_group *)
Definition new_ptr_group (pt : ptrs) (storage_addr : N) : ptrs :=
  if group_is_empty (pt_current pt) then
    mkPtrs (mkGroup storage_addr (pg_pos (pt_current pt))) (pt_past pt)
  else
    mkPtrs (group_new storage_addr) (pt_past pt ++ [pt_current pt]).

(** pos.rs:212-214  push_pos *)
Definition group_push (g : pgroup) (pos : N) : pgroup :=
  mkGroup (pg_addr g) (pg_pos g ++ [pos]).

(** serializer_traits/complete.rs:44-76  Complete::do_overwrite_ptr *)
Definition co_overwrite_ptr (ptr_pos target_pos : N) : M zs unit :=
  dassert (c <- ser_capacity ;; d <- sub_u c pW ;; ret (ptr_pos <=? d)) ;;;
  dassert (is_aligned_to ptr_pos pW) ;;;
  dassert (c <- ser_capacity ;; ret (target_pos <=? c)) ;;;
  storage_addr <- lift as_ptr ;;
  target_addr <- add_u storage_addr target_pos ;;
  lift (write ptr_pos usize_layout (word_src target_addr)) ;;;
  pt <- get_ptrs ;;
  let pt := if negb (storage_addr =? pg_addr (pt_current pt))
            then new_ptr_group pt storage_addr else pt in
  set_ptrs (mkPtrs (group_push (pt_current pt) ptr_pos) (pt_past pt)).

(** PtrWriting::overwrite_ptr: ser_types/ptr_offset.rs:66-69, ser_types/complete.rs:80-83.
    The other kinds do not implement PtrWriting (a type error, [UB] here). *)
Definition overwrite_ptr (k : kind) (ptr_pos target_pos : N) : M zs unit :=
  match k with
  | PtrOffset => po_overwrite_ptr ptr_pos target_pos
  | Complete => co_overwrite_ptr ptr_pos target_pos
  | _ => ub
  end.

(** ** push_slice and push_and_process_slice per kind *)

(** serializer.rs:333-342  Serializer::push_and_process_slice (default) *)
Definition dflt_push_and_process_slice (s : slice) (a : addr) (process : M zs unit) : M zs N :=
  pos <- push_raw_slice s ;;
  process ;;;
  ret pos.

(** serializer_traits/pos_tracking.rs:39-41 and :44-67 *)
Definition pt_push_slice (s : slice) (a : addr) : M zs N := push_raw_slice s.
Definition pt_push_and_process_slice (s : slice) (a : addr) (process : M zs unit) : M zs N :=
  before <- get_map ;;
  pos <- lift (push_slice (sl_lay s) (sl_len s) (sl_data s)) ;;
  set_map (mkMap (sl_addr s) pos) ;;;
  process ;;;
  set_map before ;;;
  ret pos.

(** serializer_traits/ptr_writing.rs:32-41 and :44-70 *)
Definition pw_push_slice (k : kind) (s : slice) (a : addr) : M zs N :=
  pos <- push_raw_slice s ;;
  pm <- get_map ;;
  ptr_pos <- pos_for_addr pm a ;;
  overwrite_ptr k ptr_pos pos ;;;
  ret pos.
Definition pw_push_and_process_slice (k : kind) (s : slice) (a : addr) (process : M zs unit) : M zs N :=
  before <- get_map ;;
  pos <- lift (push_slice (sl_lay s) (sl_len s) (sl_data s)) ;;
  ptr_pos <- pos_for_addr before a ;;
  overwrite_ptr k ptr_pos pos ;;;
  set_map (mkMap (sl_addr s) pos) ;;;
  process ;;;
  set_map before ;;;
  ret pos.

(** Dispatch as generated by derive(Serializer): ser_types/pure_copy.rs:8-12
    (nothing overridden), pos_tracking.rs:31-39, ptr_offset.rs:30-39, complete.rs:31-40. *)
Definition push_and_process_slice (k : kind) (s : slice) (a : addr) (process : M zs unit) : M zs N :=
  match k with
  | PureCopy => dflt_push_and_process_slice s a process
  | PosTracking => pt_push_and_process_slice s a process
  | PtrOffset | Complete => pw_push_and_process_slice k s a process
  end.

(** serializer.rs:312-319  push_and_process (the slice has length 1) *)
Definition push_and_process (k : kind) (s : slice) (a : addr) (process : M zs unit) : M zs N :=
  push_and_process_slice k s a process.

(** serializer.rs:297-299 (default), ser_types/pos_tracking.rs:26-29,
    ptr_offset.rs:24-28, complete.rs:25-29 *)
Definition ser_push_slice (k : kind) (s : slice) (a : addr) : M zs N :=
  match k with
  | PureCopy => push_and_process_slice k s a (ret tt)
  | PosTracking => pt_push_slice s a
  | PtrOffset | Complete => pw_push_slice k s a
  end.

(** serializer.rs:282-284  push (the slice has length 1) *)
Definition ser_push (k : kind) (s : slice) (a : addr) : M zs N := ser_push_slice k s a.

(** ** overwrite / overwrite_with *)

(** serializer_traits/writable.rs:10-13  Writable::do_overwrite *)
Definition do_overwrite (a : addr) (l : layout) (data : mem) : M zs unit :=
  pm <- get_map ;;
  pos <- pos_for_addr pm a ;;
  lift (write pos l data).

(** serializer.rs:455 (default: no-op); ser_types/complete.rs:42-46 *)
Definition overwrite (k : kind) (a : addr) (l : layout) (data : mem) : M zs unit :=
  match k with
  | Complete => do_overwrite a l data
  | _ => ret tt
  end.

(** serializer.rs:486 (default: no-op); ser_types/complete.rs:48-52 with
    serializer_traits/complete.rs:31-33 *)
Definition overwrite_with (k : kind) (wr : M zs unit) : M zs unit :=
  match k with
  | Complete => wr
  | _ => ret tt
  end.

(** ** serialize_value, finalize *)

(** serializer.rs:260-269 (default) and serializer_traits/pos_tracking.rs:23-35;
    [root] is the value as a slice of length 1, [data] its serialize_data. *)
Definition serialize_value_with (k : kind) (root : slice) (data : M zs unit) : M zs N :=
  match k with
  | PureCopy =>
      pos <- push_raw root ;;
      data ;;;
      ret pos
  | _ =>
      pos <- push_raw root ;;
      set_map (mkMap (sl_addr root) pos) ;;;
      data ;;;
      ret pos
  end.

(** pos.rs:222-237  correct_ptrs.  [*ptr] reads and writes a usize in the buffer:
    UB unless in bounds, aligned and initialised. *)
Definition correct_ptr (shift_by ptr_pos : N) : M sw unit :=
  fun w =>
    let st := sw_s w in
    if (ptr_pos + pW <=? s_cap st) && ((s_ptr st + ptr_pos) mod pW =? 0) then
      match read_word (s_buf st) ptr_pos with
      | Some x => put_buf (blit (s_buf st) ptr_pos pW (word_src (wrapping_add x shift_by))) w
      | None => UB
      end
    else UB.
Fixpoint correct_all (shift_by : N) (l : list N) : M sw unit :=
  match l with
  | [] => ret tt
  | p :: l' => correct_ptr shift_by p ;;; correct_all shift_by l'
  end.
Definition correct_ptrs (g : pgroup) (storage_ptr : N) : M sw unit :=
  correct_all (wrapping_sub storage_ptr (pg_addr g)) (pg_pos g).

(** serializer_traits/complete.rs:94-98: the loop over [past] *)
Fixpoint correct_past (gs : list pgroup) (storage_ptr : N) : M sw unit :=
  match gs with
  | [] => ret tt
  | g :: gs' =>
      (if negb (pg_addr g =? storage_ptr) then correct_ptrs g storage_ptr else ret tt) ;;;
      correct_past gs' storage_ptr
  end.

(** serializer_traits/complete.rs:83-102  do_finalize *)
Definition co_finalize : M zs unit :=
  storage_ptr <- lift as_ptr ;;
  pt <- get_ptrs ;;
  (if negb (pg_addr (pt_current pt) =? storage_ptr) && negb (group_is_empty (pt_current pt))
   then lift (correct_ptrs (pt_current pt) storage_ptr) else ret tt) ;;;
  lift (correct_past (pt_past pt) storage_ptr).

(** serializer.rs:491-493 (default: into_storage), ser_types/complete.rs:54-58.
    The storage handed back is [z_sw] of the final state. *)
Definition finalize (k : kind) : M zs unit :=
  match k with
  | Complete => co_finalize
  | _ => ret tt
  end.

(** ** Constructors: serializers/*.rs new, with_capacity, from_storage
    (complete.rs:93-145, ptr_offset.rs:67-115, pure_copy.rs:73-116). *)
Definition from_storage (w : sw) : zs := mkZ w map_dummy ptrs_new.
Definition z_new : zs := from_storage sw_new.

End Serializer.
