(** * GenSerializer: the serializers derive(Serializer) generates, over an arbitrary
    storage.

    A user's own serializer struct may hold any [Storage] (serializer.rs:30-120, the
    example in ser_raw_derive_serializer/src/lib.rs); ptr_offset needs
    RandomAccessStorage, complete also ContiguousStorage.  The definitions are those of
    Serializer.v and Serialize.v with the storage's methods taken from a record, method by
    method; [av_serialize_all] (PropGenSer.v) says that over AlignedVec they are the same. *)
From Verif Require Import Base Types Storage Serializer Serialize GenStorage.
Local Open Scope N_scope.

(** A Storage that is also RandomAccessStorage and ContiguousStorage:
    storage/mod.rs:500 write_slice, :559-568 as_ptr / as_mut_ptr.
    [r_correct_ptr shift pos]: what reading the word at as_mut_ptr().add(pos), adding
    [shift] and writing it back does to the storage (pos.rs:222-237); raw memory access by
    the serializer, not a method. *)
Record ra_impl (St : Type) := mkRA {
  r_st : storage_impl St;
  r_write_slice : N -> layout -> N -> mem -> M St unit;
  r_as_ptr : St -> N;
  r_correct_ptr : N -> N -> M St unit
}.
Arguments r_st {St}.
Arguments r_write_slice {St}.
Arguments r_as_ptr {St}.
Arguments r_correct_ptr {St}.

(** State of a serializer over a storage of type [St]. *)
Record gz (St : Type) := mkGZ { gz_st : St; gz_map : posmap; gz_ptrs : ptrs }.
Arguments mkGZ {St}.
Arguments gz_st {St}.
Arguments gz_map {St}.
Arguments gz_ptrs {St}.

Section GenSerializer.
Context {P : Params}.
Context {St : Type}.
Variable R : ra_impl St.
Notation I := (r_st R).

Definition glift {A} (m : M St A) : M (gz St) A :=
  fun z => match m (gz_st z) with
           | Ok a w => Ok a (mkGZ w (gz_map z) (gz_ptrs z))
           | Panic p w => Panic p (mkGZ w (gz_map z) (gz_ptrs z))
           | Abort => Abort
           | UB => UB
           | OutOfFuel => OutOfFuel
           end.

(** serializer_traits/pos_tracking.rs:11-15, serializer_traits/complete.rs:18-22 *)
Definition g_get_map : M (gz St) posmap := gets gz_map.
Definition g_set_map (pm : posmap) : M (gz St) unit :=
  modify (fun z => mkGZ (gz_st z) pm (gz_ptrs z)).
Definition g_get_ptrs : M (gz St) ptrs := gets gz_ptrs.
Definition g_set_ptrs (p : ptrs) : M (gz St) unit :=
  modify (fun z => mkGZ (gz_st z) (gz_map z) p).

(** serializer.rs:365-367 push_raw_slice, :497-499 capacity *)
Definition g_push_raw_slice (s : slice) : M (gz St) N :=
  glift (g_push_slice I (sl_lay s) (sl_len s) (sl_data s)).
Definition g_capacity : M (gz St) N := gets (fun z => i_capacity I (gz_st z)).

(** storage/mod.rs:484-487  write *)
Definition g_write (pos : N) (l : layout) (data : mem) : M St unit := r_write_slice R pos l 1 data.

(** serializer_traits/ptr_offset.rs:21-28 *)
Definition g_po_overwrite_ptr (ptr_pos target_pos : N) : M (gz St) unit :=
  dassert (c <- g_capacity ;; d <- sub_u c pW ;; ret (ptr_pos <=? d)) ;;;
  dassert (is_aligned_to ptr_pos pW) ;;;
  dassert (c <- g_capacity ;; ret (target_pos <=? c)) ;;;
  glift (g_write ptr_pos usize_layout (word_src target_pos)).

(** serializer_traits/complete.rs:44-76 *)
Definition g_co_overwrite_ptr (ptr_pos target_pos : N) : M (gz St) unit :=
  dassert (c <- g_capacity ;; d <- sub_u c pW ;; ret (ptr_pos <=? d)) ;;;
  dassert (is_aligned_to ptr_pos pW) ;;;
  dassert (c <- g_capacity ;; ret (target_pos <=? c)) ;;;
  storage_addr <- gets (fun z => r_as_ptr R (gz_st z)) ;;
  target_addr <- add_u storage_addr target_pos ;;
  glift (g_write ptr_pos usize_layout (word_src target_addr)) ;;;
  pt <- g_get_ptrs ;;
  let pt := if negb (storage_addr =? pg_addr (pt_current pt))
            then new_ptr_group pt storage_addr else pt in
  g_set_ptrs (mkPtrs (group_push (pt_current pt) ptr_pos) (pt_past pt)).

(** ser_types/ptr_offset.rs:66-69, ser_types/complete.rs:80-83 *)
Definition g_overwrite_ptr (k : kind) (ptr_pos target_pos : N) : M (gz St) unit :=
  match k with
  | PtrOffset => g_po_overwrite_ptr ptr_pos target_pos
  | Complete => g_co_overwrite_ptr ptr_pos target_pos
  | _ => ub
  end.

(** serializer.rs:333-342, serializer_traits/pos_tracking.rs:44-67, ptr_writing.rs:32-70,
    dispatched as in ser_types/*.rs *)
Definition g_pw_push_slice (k : kind) (s : slice) (a : addr) : M (gz St) N :=
  pos <- g_push_raw_slice s ;;
  pm <- g_get_map ;;
  ptr_pos <- pos_for_addr pm a ;;
  g_overwrite_ptr k ptr_pos pos ;;;
  ret pos.
Definition g_push_and_process_slice (k : kind) (s : slice) (a : addr) (process : M (gz St) unit)
  : M (gz St) N :=
  match k with
  | PureCopy =>
      pos <- g_push_raw_slice s ;;
      process ;;;
      ret pos
  | PosTracking =>
      before <- g_get_map ;;
      pos <- glift (g_push_slice I (sl_lay s) (sl_len s) (sl_data s)) ;;
      g_set_map (mkMap (sl_addr s) pos) ;;;
      process ;;;
      g_set_map before ;;;
      ret pos
  | PtrOffset | Complete =>
      before <- g_get_map ;;
      pos <- glift (g_push_slice I (sl_lay s) (sl_len s) (sl_data s)) ;;
      ptr_pos <- pos_for_addr before a ;;
      g_overwrite_ptr k ptr_pos pos ;;;
      g_set_map (mkMap (sl_addr s) pos) ;;;
      process ;;;
      g_set_map before ;;;
      ret pos
  end.

(** serializer.rs:297-299, ser_types/pos_tracking.rs:26-29, ptr_offset.rs:24-28, complete.rs:25-29 *)
Definition g_ser_push_slice (k : kind) (s : slice) (a : addr) : M (gz St) N :=
  match k with
  | PureCopy => g_push_and_process_slice k s a (ret tt)
  | PosTracking => g_push_raw_slice s
  | PtrOffset | Complete => g_pw_push_slice k s a
  end.

(** serializer.rs:455, :486; ser_types/complete.rs:42-52; serializer_traits/writable.rs:10-13 *)
Definition g_do_overwrite (a : addr) (l : layout) (data : mem) : M (gz St) unit :=
  pm <- g_get_map ;;
  pos <- pos_for_addr pm a ;;
  glift (g_write pos l data).
Definition g_overwrite (k : kind) (a : addr) (l : layout) (data : mem) : M (gz St) unit :=
  match k with
  | Complete => g_do_overwrite a l data
  | _ => ret tt
  end.
Definition g_overwrite_with (k : kind) (wr : M (gz St) unit) : M (gz St) unit :=
  match k with
  | Complete => wr
  | _ => ret tt
  end.

(** serializer.rs:260-269, serializer_traits/pos_tracking.rs:23-35 *)
Definition g_serialize_value_with (k : kind) (root : slice) (data : M (gz St) unit) : M (gz St) N :=
  match k with
  | PureCopy =>
      pos <- g_push_raw_slice root ;;
      data ;;;
      ret pos
  | _ =>
      pos <- g_push_raw_slice root ;;
      g_set_map (mkMap (sl_addr root) pos) ;;;
      data ;;;
      ret pos
  end.

(** pos.rs:222-237, serializer_traits/complete.rs:83-102 *)
Fixpoint g_correct_all (shift_by : N) (l : list N) : M St unit :=
  match l with
  | [] => ret tt
  | p :: l' => r_correct_ptr R shift_by p ;;; g_correct_all shift_by l'
  end.
Definition g_correct_ptrs (g : pgroup) (storage_ptr : N) : M St unit :=
  g_correct_all (wrapping_sub storage_ptr (pg_addr g)) (pg_pos g).
Fixpoint g_correct_past (gs : list pgroup) (storage_ptr : N) : M St unit :=
  match gs with
  | [] => ret tt
  | g :: gs' =>
      (if negb (pg_addr g =? storage_ptr) then g_correct_ptrs g storage_ptr else ret tt) ;;;
      g_correct_past gs' storage_ptr
  end.
Definition g_co_finalize : M (gz St) unit :=
  storage_ptr <- gets (fun z => r_as_ptr R (gz_st z)) ;;
  pt <- g_get_ptrs ;;
  (if negb (pg_addr (pt_current pt) =? storage_ptr) && negb (group_is_empty (pt_current pt))
   then glift (g_correct_ptrs (pt_current pt) storage_ptr) else ret tt) ;;;
  glift (g_correct_past (pt_past pt) storage_ptr).
Definition g_finalize (k : kind) : M (gz St) unit :=
  match k with
  | Complete => g_co_finalize
  | _ => ret tt
  end.

(** The constructor of a serializer, on a storage. *)
Definition g_from_storage (s : St) : gz St := mkGZ s map_dummy ptrs_new.

(** ** serialize_impls/*.rs over such a serializer *)

(** ptrs.rs:219-276 *)
Definition g_overwrite_empty (k : kind) (vo : voffs) (dangle a : N) : M (gz St) unit :=
  let cap_offset := vo_cap vo in
  let ptr_offset := vo_ptr vo in
  if (cap_offset =? 0) && (ptr_offset =? pW) then
    (ad <- addr_from_ref k a ;; g_overwrite k ad two_words_layout (two_words 0 dangle))
  else if (cap_offset =? pW) && (ptr_offset =? 0) then
    (ad <- addr_from_ref k a ;; g_overwrite k ad two_words_layout (two_words dangle 0))
  else if (cap_offset =? pW) && (ptr_offset =? pW * 2) then
    (ad <- addr_from_ref_offset k a pW ;; g_overwrite k ad two_words_layout (two_words 0 dangle))
  else if (cap_offset =? pW * 2) && (ptr_offset =? pW) then
    (ad <- addr_from_ref_offset k a pW ;; g_overwrite k ad two_words_layout (two_words dangle 0))
  else
    (ad <- addr_from_ref_offset k a cap_offset ;; g_overwrite k ad usize_layout (word_src 0) ;;;
     ad <- addr_from_ref_offset k a ptr_offset ;; g_overwrite k ad usize_layout (word_src dangle)).

(** ptrs.rs:69-71, multiples.rs:9-11, :22-26, structs.rs:25-29, enums.rs:106-115 *)
Fixpoint g_for_elems (n : nat) (a sz : N) (f : N -> M (gz St) unit) : M (gz St) unit :=
  match n with
  | O => ret tt
  | S n' => f a ;;; g_for_elems n' (a + sz) sz f
  end.
Fixpoint g_for_fields (fs : list (N * ty)) (a : N) (f : ty -> N -> M (gz St) unit) : M (gz St) unit :=
  match fs with
  | [] => ret tt
  | (off, t) :: fs' => f t (a + off) ;;; g_for_fields fs' a f
  end.

Section Impl.
Variable k : kind.
Variable E : tenv.
Variable m : mem.

(** ptrs.rs:12-29 *)
Definition g_ser_box (t : ty) (a : N) (rec : ty -> N -> M (gz St) unit) : M (gz St) unit :=
  if size_of E t =? 0 then ret tt
  else
    ptr_addr <- addr_from_ref k a ;;
    p <- load_word m a ;;
    g_push_and_process_slice k (slice_at m (layout_of E t) p 1) ptr_addr (rec t p) ;;;
    ret tt.

(** ptrs.rs:37-73 *)
Definition g_ser_vec (vl : vlay) (t : ty) (a : N) (rec : ty -> N -> M (gz St) unit) : M (gz St) unit :=
  if size_of E t =? 0 then ret tt
  else
    len <- load_word m (a + len_off vl) ;;
    if len =? 0 then
      g_overwrite_with k (
        cap <- load_word m (a + cap_off vl) ;;
        if negb (cap =? 0) then
          (vo <- const_or (vec_offsets vl (align_of E t)) ;;
           g_overwrite_empty k vo (align_of E t) a)
        else ret tt)
    else
      g_overwrite_with k (
        cap <- load_word m (a + cap_off vl) ;;
        if negb (cap =? len) then
          (vo <- const_or (vec_offsets vl (align_of E t)) ;;
           cap_addr <- addr_from_ref_offset k a (vo_cap vo) ;;
           g_overwrite k cap_addr usize_layout (word_src len))
        else ret tt) ;;;
      vo <- const_or (vec_offsets vl (align_of E t)) ;;
      ptr_addr <- addr_from_ref_offset k a (vo_ptr vo) ;;
      p <- load_word m (a + ptr_off vl) ;;
      g_push_and_process_slice k (slice_at m (layout_of E t) p len) ptr_addr
        (g_for_elems (N.to_nat len) p (size_of E t) (rec t)) ;;;
      ret tt.

(** ptrs.rs:79-104 *)
Definition g_ser_string (vl : vlay) (a : N) : M (gz St) unit :=
  len <- load_word m (a + len_off vl) ;;
  if len =? 0 then
    g_overwrite_with k (
      cap <- load_word m (a + cap_off vl) ;;
      if negb (cap =? 0) then
        (vo <- const_or (vec_offsets vl 1) ;;
         g_overwrite_empty k vo 1 a)
      else ret tt)
  else
    g_overwrite_with k (
      cap <- load_word m (a + cap_off vl) ;;
      if negb (cap =? len) then
        (vo <- const_or (vec_offsets vl 1) ;;
         cap_addr <- addr_from_ref_offset k a (vo_cap vo) ;;
         g_overwrite k cap_addr usize_layout (word_src len))
      else ret tt) ;;;
    vo <- const_or (vec_offsets vl 1) ;;
    ptr_addr <- addr_from_ref_offset k a (vo_ptr vo) ;;
    p <- load_word m (a + ptr_off vl) ;;
    g_ser_push_slice k (slice_at m u8_layout p len) ptr_addr ;;;
    ret tt.

(** serialize_data of every type of the universe, as in Serialize.v *)
Fixpoint g_ser_data (fuel : nat) (t : ty) (a : N) : M (gz St) unit :=
  match fuel with
  | O => fun _ => OutOfFuel
  | S fuel' =>
      match resolve E t with
      | TPrim _ _ => ret tt
      | TBox t' => g_ser_box t' a (g_ser_data fuel')
      | TVec vl t' => g_ser_vec vl t' a (g_ser_data fuel')
      | TString vl => g_ser_string vl a
      | TArray t' n => g_for_elems (N.to_nat n) a (size_of E t') (g_ser_data fuel' t')
      | TStruct _ fs => g_for_fields fs a (g_ser_data fuel')
      | TEnum _ d vss =>
          match read_discr m a d with
          | Some v =>
              match nth_error vss v with
              | Some fs => g_for_fields fs a (g_ser_data fuel')
              | None => ub
              end
          | None => ub
          end
      | TNamed _ => panics PAssert
      end
  end.

(** serializer.rs:217-269 *)
Definition g_serialize_value (fuel : nat) (t : ty) (a : N) : M (gz St) N :=
  g_serialize_value_with k (slice_at m (layout_of E t) a 1) (g_ser_data fuel t a).
Fixpoint g_serialize_values (fuel : nat) (vs : list (ty * N)) : M (gz St) (list N) :=
  match vs with
  | [] => ret []
  | (t, a) :: vs' =>
      pos <- g_serialize_value fuel t a ;;
      ps <- g_serialize_values fuel vs' ;;
      ret (pos :: ps)
  end.
Definition g_serialize_all (fuel : nat) (vs : list (ty * N)) : M (gz St) (list N) :=
  ps <- g_serialize_values fuel vs ;;
  g_finalize k ;;;
  ret ps.
Definition g_serialize (fuel : nat) (t : ty) (a : N) : M (gz St) N :=
  pos <- g_serialize_value fuel t a ;;
  g_finalize k ;;;
  ret pos.

End Impl.
End GenSerializer.

(** AlignedVec: aligned_vec.rs:383-399 write_slice, :490-505 as_ptr; pos.rs:222-237. *)
Definition aligned_vec_ra {P : Params} : ra_impl sw := {|
  r_st := aligned_vec;
  r_write_slice := write_slice;
  r_as_ptr := fun w => s_ptr (sw_s w);
  r_correct_ptr := correct_ptr
|}.
