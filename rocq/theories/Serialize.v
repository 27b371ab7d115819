(** * Serialize: model of ser_raw/src/serialize_impls/*.rs over the type
    universe of Types.v, and of Serializer::serialize. *)
From Verif Require Import Base Types Storage Serializer.
Local Open Scope N_scope.

Section Serialize.
Context {P : Params}.

(** ** Compile-time detection of the fields of Vec / String (ptrs.rs:116-206) *)

(** mem::transmute between Vec<T> / String and [usize; 3]. *)
Definition words_of (vl : vlay) (cap ptr len : N) : list N :=
  match vl with
  | CPL => [cap; ptr; len] | CLP => [cap; len; ptr]
  | PCL => [ptr; cap; len] | PLC => [ptr; len; cap]
  | LCP => [len; cap; ptr] | LPC => [len; ptr; cap]
  end.
Definition word_at (ix : N) (ws : list N) : N := nth (N.to_nat ix) ws 0.

(** ptrs.rs:129-147 PTR_INDEX ([dangle] = align_of::<T>()), :176-194
    STRING_PTR_INDEX ([dangle] = 1).  Vec::new() / String::new(): len 0, capacity 0,
    dangling pointer.  [None] = compile error (assert!/panic! in a const). *)
Definition ptr_index (vl : vlay) (dangle : N) : option N :=
  let bytes := words_of vl 0 dangle 0 in
  let b0 := word_at 0 bytes in
  let b1 := word_at 1 bytes in
  let b2 := word_at 2 bytes in
  if b0 =? dangle then
    (if (b1 =? 0) && (b2 =? 0) then Some 0 else None)
  else if b1 =? dangle then
    (if (b0 =? 0) && (b2 =? 0) then Some 1 else None)
  else if b2 =? dangle then
    (if (b0 =? 0) && (b1 =? 0) then Some 2 else None)
  else None.

(** ptrs.rs:158-167 OFFSETS_VEC, :197-206 OFFSETS_STRING *)
Definition offsets_words (ix dangle : N) : option (list N) :=
  if ix =? 0 then Some [dangle; pW; pW * 2]
  else if ix =? 1 then Some [0; dangle; pW * 2]
  else if ix =? 2 then Some [0; pW; dangle]
  else None.

Record voffs := mkVoffs { vo_ptr : N; vo_cap : N; vo_len : N }.

(** PTR_OFFSET (ptrs.rs:149, :195), OFFSETS_VEC.capacity() and .len(): the
    fields capacity and len of the transmuted words, read where the compiler put them. *)
Definition vec_offsets (vl : vlay) (dangle : N) : option voffs :=
  match ptr_index vl dangle with
  | None => None
  | Some ix =>
      match offsets_words ix dangle with
      | None => None
      | Some ws => Some (mkVoffs (ix * pW) (word_at (cap_ix vl) ws) (word_at (len_ix vl) ws))
      end
  end.

(** A program whose constants do not evaluate does not compile; modelled as a
    panic, which the theorems exclude. *)
Definition const_or {S A} (o : option A) : M S A :=
  match o with Some x => ret x | None => panics PAssert end.

(** ** Reading the input (Rust: typed reads through the reference) *)
Definition load_word {S} (m : mem) (a : N) : M S N :=
  match read_word m a with Some x => ret x | None => ub end.

(** The [T] at address [a] as a slice of length [n]. *)
Definition slice_at (m : mem) (l : layout) (a n : N) : slice :=
  mkSlice l a n (mem_from m a).

(** ** overwrite_capacity_and_ptr_for_empty_vec / _string (ptrs.rs:219-276) *)
Definition two_words (x y : N) : mem :=
  bytes_src (to_bytes (N.to_nat pW) x ++ to_bytes (N.to_nat pW) y).
Definition two_words_layout : layout := mkLayout (2 * pW) pW.

Definition overwrite_empty (k : kind) (vo : voffs) (dangle a : N) : M zs unit :=
  let cap_offset := vo_cap vo in
  let ptr_offset := vo_ptr vo in
  if (cap_offset =? 0) && (ptr_offset =? pW) then
    (ad <- addr_from_ref k a ;; overwrite k ad two_words_layout (two_words 0 dangle))
  else if (cap_offset =? pW) && (ptr_offset =? 0) then
    (ad <- addr_from_ref k a ;; overwrite k ad two_words_layout (two_words dangle 0))
  else if (cap_offset =? pW) && (ptr_offset =? pW * 2) then
    (ad <- addr_from_ref_offset k a pW ;; overwrite k ad two_words_layout (two_words 0 dangle))
  else if (cap_offset =? pW * 2) && (ptr_offset =? pW) then
    (ad <- addr_from_ref_offset k a pW ;; overwrite k ad two_words_layout (two_words dangle 0))
  else
    (ad <- addr_from_ref_offset k a cap_offset ;; overwrite k ad usize_layout (word_src 0) ;;;
     ad <- addr_from_ref_offset k a ptr_offset ;; overwrite k ad usize_layout (word_src dangle)).

(** ** Loops *)

(** for value in slice / for i in 0..N (ptrs.rs:69-71, multiples.rs:9-11):
    elements at [a], [a + sz], ... *)
Fixpoint for_elems (n : nat) (a sz : N) (f : N -> M zs unit) : M zs unit :=
  match n with
  | O => ret tt
  | S n' => f a ;;; for_elems n' (a + sz) sz f
  end.

(** multiples.rs:22-26 (tuples), derived structs (structs.rs:25-29) and enum
    variants (enums.rs:106-115): each field in order. *)
Fixpoint for_fields (fs : list (N * ty)) (a : N) (f : ty -> N -> M zs unit) : M zs unit :=
  match fs with
  | [] => ret tt
  | (off, t) :: fs' => f t (a + off) ;;; for_fields fs' a f
  end.

Section Impl.
Variable k : kind.
Variable E : tenv.
Variable m : mem.   (* the input's memory; borrowed immutably while serializing *)

(** ptrs.rs:12-29  Box<T>::serialize_data; [rec] is T::serialize_data *)
Definition ser_box (t : ty) (a : N) (rec : ty -> N -> M zs unit) : M zs unit :=
  if size_of E t =? 0 then ret tt
  else
    ptr_addr <- addr_from_ref k a ;;
    p <- load_word m a ;;
    push_and_process k (slice_at m (layout_of E t) p 1) ptr_addr (rec t p) ;;;
    ret tt.

(** ptrs.rs:37-73  Vec<T>::serialize_data *)
Definition ser_vec (vl : vlay) (t : ty) (a : N) (rec : ty -> N -> M zs unit) : M zs unit :=
  if size_of E t =? 0 then ret tt
  else
    len <- load_word m (a + len_off vl) ;;
    if len =? 0 then
      overwrite_with k (
        cap <- load_word m (a + cap_off vl) ;;
        if negb (cap =? 0) then
          (vo <- const_or (vec_offsets vl (align_of E t)) ;;
           overwrite_empty k vo (align_of E t) a)
        else ret tt)
    else
      overwrite_with k (
        cap <- load_word m (a + cap_off vl) ;;
        if negb (cap =? len) then
          (vo <- const_or (vec_offsets vl (align_of E t)) ;;
           cap_addr <- addr_from_ref_offset k a (vo_cap vo) ;;
           overwrite k cap_addr usize_layout (word_src len))
        else ret tt) ;;;
      vo <- const_or (vec_offsets vl (align_of E t)) ;;
      ptr_addr <- addr_from_ref_offset k a (vo_ptr vo) ;;
      p <- load_word m (a + ptr_off vl) ;;
      push_and_process_slice k (slice_at m (layout_of E t) p len) ptr_addr
        (for_elems (N.to_nat len) p (size_of E t) (rec t)) ;;;
      ret tt.

(** ptrs.rs:79-104  String::serialize_data *)
Definition ser_string (vl : vlay) (a : N) : M zs unit :=
  len <- load_word m (a + len_off vl) ;;
  if len =? 0 then
    overwrite_with k (
      cap <- load_word m (a + cap_off vl) ;;
      if negb (cap =? 0) then
        (vo <- const_or (vec_offsets vl 1) ;;
         overwrite_empty k vo 1 a)
      else ret tt)
  else
    overwrite_with k (
      cap <- load_word m (a + cap_off vl) ;;
      if negb (cap =? len) then
        (vo <- const_or (vec_offsets vl 1) ;;
         cap_addr <- addr_from_ref_offset k a (vo_cap vo) ;;
         overwrite k cap_addr usize_layout (word_src len))
      else ret tt) ;;;
    vo <- const_or (vec_offsets vl 1) ;;
    ptr_addr <- addr_from_ref_offset k a (vo_ptr vo) ;;
    p <- load_word m (a + ptr_off vl) ;;
    ser_push_slice k (slice_at m u8_layout p len) ptr_addr ;;;
    ret tt.

(** <T as Serialize>::serialize_data for every T of the universe.
    primitives.rs:9 (no-op), ptrs.rs, multiples.rs:8-12 (arrays), tuples and derived
    structs, other.rs:8-12 (Option) and derived enums: only the fields of the live
    variant are visited.  [fuel] bounds the nesting depth of the value. *)
Fixpoint ser_data (fuel : nat) (t : ty) (a : N) : M zs unit :=
  match fuel with
  | O => fun _ => OutOfFuel
  | S fuel' =>
      match resolve E t with
      | TPrim _ _ => ret tt
      | TBox t' => ser_box t' a (ser_data fuel')
      | TVec vl t' => ser_vec vl t' a (ser_data fuel')
      | TString vl => ser_string vl a
      | TArray t' n => for_elems (N.to_nat n) a (size_of E t') (ser_data fuel' t')
      | TStruct _ fs => for_fields fs a (ser_data fuel')
      | TEnum _ d vss =>
          match read_discr m a d with
          | Some v =>
              match nth_error vss v with
              | Some fs => for_fields fs a (ser_data fuel')
              | None => ub
              end
          | None => ub
          end
      | TNamed _ => panics PAssert     (* unknown type: does not compile *)
      end
  end.

(** serializer.rs:260-269 / pos_tracking.rs:23-35  serialize_value(&value),
    the value being the [t] at address [a]. *)
Definition serialize_value (fuel : nat) (t : ty) (a : N) : M zs N :=
  serialize_value_with k (slice_at m (layout_of E t) a 1) (ser_data fuel t a).

(** serializer.rs:217-221  serialize *)
Definition serialize (fuel : nat) (t : ty) (a : N) : M zs N :=
  pos <- serialize_value fuel t a ;;
  finalize k ;;;
  ret pos.

(** Several serialize_value calls (serializer.rs:223-258), then finalize. *)
Fixpoint serialize_values (fuel : nat) (vs : list (ty * N)) : M zs (list N) :=
  match vs with
  | [] => ret []
  | (t, a) :: vs' =>
      pos <- serialize_value fuel t a ;;
      ps <- serialize_values fuel vs' ;;
      ret (pos :: ps)
  end.
Definition serialize_all (fuel : nat) (vs : list (ty * N)) : M zs (list N) :=
  ps <- serialize_values fuel vs ;;
  finalize k ;;;
  ret ps.

End Impl.
End Serialize.
