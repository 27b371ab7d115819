(** * GenSerSpec: what a storage owes a serializer, beyond GenSpec.v. *)
From Verif Require Import Base Types Storage Serializer Serialize Spec GenStorage GenSpec GenSerializer.
Local Open Scope N_scope.

Section GenSerSpec.
Context {P : Params}.

(** RandomAccessStorage::write_slice (storage/mod.rs:490-500), for writes over what has been
    pushed already: at a position aligned for [T], with all the values below pos(), it
    stores them there and changes nothing else.  (The documentation asks more of an
    implementor: anywhere below capacity().) *)
Definition writes_in_place {St} (R : ra_impl St) (inv : St -> Prop) (contents : St -> mem) : Prop :=
  forall s q l n data,
    inv s -> good_layout l -> 0 < l_size l -> 0 < n -> (l_align l | q) ->
    q + l_size l * n <= i_pos (r_st R) s ->
    exists s', r_write_slice R q l n data s = Ok tt s' /\ inv s' /\
      i_pos (r_st R) s' = i_pos (r_st R) s /\
      same_below (i_pos (r_st R) s) (contents s') (blit (contents s) q (l_size l * n) data).

(** ContiguousStorage (storage/mod.rs:549-568): the bytes are one block of memory at as_ptr(),
    aligned to STORAGE_ALIGNMENT and inside the address space; it may move at any call. *)
Definition contiguous {St} (R : ra_impl St) (inv : St -> Prop) : Prop :=
  forall s, inv s -> 0 < i_capacity (r_st R) s ->
    r_as_ptr R s <> 0 /\ (SA | r_as_ptr R s) /\ r_as_ptr R s + i_capacity (r_st R) s <= umod.

(** The contents can be changed through that pointer (pos.rs:222-237): reading the word at
    [q], adding [shift] and writing it back does just that (where words are aligned to
    MAX_VALUE_ALIGNMENT at most, so that an aligned position is an aligned address). *)
Definition ptrs_through {St} (R : ra_impl St) (inv : St -> Prop) (contents : St -> mem) : Prop :=
  forall s q x shift,
    inv s -> pW <= MVA -> (pW | q) -> q + pW <= i_pos (r_st R) s -> read_word (contents s) q = Some x ->
    exists s', r_correct_ptr R shift q s = Ok tt s' /\ inv s' /\
      i_pos (r_st R) s' = i_pos (r_st R) s /\ r_as_ptr R s' = r_as_ptr R s /\
      same_below (i_pos (r_st R) s) (contents s')
        (blit (contents s) q pW (word_src (wrapping_add x shift))).

(** The storage asked of a serializer of kind [k]: pure_copy and pos_tracking need Storage,
    ptr_offset also RandomAccessStorage, complete also ContiguousStorage
    (ser_raw_derive_serializer/src/ser_types/*.rs). *)
Definition storage_for {St} (k : kind) (R : ra_impl St) (inv : St -> Prop) (contents : St -> mem) : Prop :=
  match k with
  | PureCopy | PosTracking => True
  | PtrOffset => writes_in_place R inv contents
  | Complete => writes_in_place R inv contents /\ contiguous R inv /\ ptrs_through R inv contents
  end.

(** The bytes below pos(), at address [base]. *)
Definition g_out_mem {St} (I : storage_impl St) (contents : St -> mem) (base : N) (s : St) : mem :=
  fun i => if (base <=? i) && (i <? base + i_pos I s) then contents s (i - base) else None.

(** A panic the storage's own reserve raises. *)
Definition from_reserve {St} (I : storage_impl St) (inv : St -> Prop) (p : panic) : Prop :=
  exists s n s', inv s /\ i_reserve I n s = Panic p s'.

(** More exactly: one its reserve raises for a request that starts at position [lo] or later
    and would end at [hi] at most. *)
Definition refused_within {St} (I : storage_impl St) (inv : St -> Prop) (lo hi : N) (p : panic) : Prop :=
  exists s n s', inv s /\ lo <= i_pos I s /\ i_pos I s + n <= hi /\ i_reserve I n s = Panic p s'.

End GenSerSpec.
