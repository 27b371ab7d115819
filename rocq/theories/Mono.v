(** * Mono: which instances of the crate's generic functions a program makes, and the constants the
    compiler evaluates in them.

    Rust instantiates a generic function for each type it is used at, and evaluates the constants
    mentioned in an instance when it is made, whether or not the code runs: if one panics the program
    is rejected.  This is how ser_raw refuses types it could not align. *)
From Verif Require Import Base Types Storage Serializer Serialize.
Local Open Scope N_scope.

(** Instances of generic functions; [k] is the serializer where there is one. *)
Inductive inst :=
| FSerialize (k : kind) (t : ty)          (* Serializer::serialize::<T> *)
| FSerializeValue (k : kind) (t : ty)     (* Serializer::serialize_value::<T> *)
| FPush (k : kind) (t : ty)               (* Serializer::push::<T> *)
| FPushSlice (k : kind) (t : ty)          (* Serializer::push_slice::<T> *)
| FPushProcess (k : kind) (t : ty)        (* Serializer::push_and_process::<T, _> *)
| FPushProcessSlice (k : kind) (t : ty)   (* Serializer::push_and_process_slice::<T, _> *)
| FPushRaw (k : kind) (t : ty)            (* Serializer::push_raw::<T> *)
| FPushRawSlice (k : kind) (t : ty)       (* Serializer::push_raw_slice::<T> *)
| FPushRawBytes (k : kind)                (* Serializer::push_raw_bytes *)
| FPushEmpty (k : kind) (t : ty)          (* Serializer::push_empty::<T> *)
| FPushEmptySlice (k : kind) (t : ty)     (* Serializer::push_empty_slice::<T> *)
| FOverwrite (k : kind) (t : ty)          (* Serializer::overwrite::<T> *)
| FData (k : kind) (t : ty)               (* <T as Serialize<_>>::serialize_data *)
| FNew                                    (* AlignedVec::new *)
| FWithCapacity                           (* AlignedVec::with_capacity *)
| FWithCapacityUnchecked                  (* AlignedVec::with_capacity_unchecked *)
| FStPush (t : ty)                        (* Storage::push::<T> *)
| FStPushSlice (t : ty)                   (* Storage::push_slice::<T> *)
| FStPushBytes                            (* Storage::push_bytes *)
| FStPushUnchecked (t : ty)               (* Storage::push_slice_unchecked::<T> *)
| FStPushEmpty (t : ty)                   (* Storage::push_empty::<T> *)
| FStPushEmptySlice (t : ty)              (* Storage::push_empty_slice::<T> *)
| FStWrite (t : ty)                       (* RandomAccessStorage::write::<T> *)
| FStWriteSlice (t : ty)                  (* RandomAccessStorage::write_slice::<T> *)
| FAlignFor (t : ty)                      (* Storage::align_for::<T> *)
| FAlignAfter (t : ty).                   (* Storage::align_after::<T> *)

Definition u8_ty : ty := TPrim u8_layout (fun _ => true).

Section Mono.
Context {P : Params}.
Variable E : tenv.

Definition usize_ty : ty := TPrim usize_layout (fun _ => true).

(** The generic functions the code of an instance mentions (in closures and dead branches too).
    Functions that are not generic in a value type (reserve, align, set_pos, ..) have no constants and
    are left out.  A named type is the struct or enum it names; for these [FData] is the code
    derived (structs.rs:25-29, enums.rs:106-115), all variants included. *)
Definition mentions (f : inst) : list inst :=
  match f with
  | FSerialize k t => [FSerializeValue k t]                    (* serializer.rs:217-221 *)
  | FSerializeValue k t => [FPushRaw k t; FData k t]           (* serializer.rs:260-269; pos_tracking.rs:23-35 *)
  | FPush k t => [FPushSlice k t]                              (* serializer.rs:282-284 *)
  | FPushSlice k t =>
      match k with
      | PureCopy => [FPushProcessSlice k t]                    (* serializer.rs:297-299 *)
      | _ => [FPushRawSlice k t]                               (* pos_tracking.rs:39-41, ptr_writing.rs:32-40 *)
      end
  | FPushProcess k t => [FPushProcessSlice k t]                (* serializer.rs:312-319 *)
  | FPushProcessSlice k t =>
      match k with
      | PureCopy => [FPushRawSlice k t]                        (* serializer.rs:333-342 *)
      | _ => [FStPushSlice t]                                  (* pos_tracking.rs:44-67, ptr_writing.rs:44-70 *)
      end
  | FPushRaw k t => [FPushRawSlice k t]                        (* serializer.rs:352-354 *)
  | FPushRawSlice k t => [FStPushSlice t]                      (* serializer.rs:365-367 *)
  | FPushRawBytes k => [FStPushBytes]                          (* serializer.rs:406-408 *)
  | FPushEmpty k t => [FStPushEmpty t]                         (* serializer.rs:418-420 *)
  | FPushEmptySlice k t => [FStPushEmptySlice t]               (* serializer.rs:434-436 *)
  | FOverwrite k t =>
      match k with
      | Complete => [FStWrite t]                               (* writable.rs:10-13 *)
      | _ => []                                                (* serializer.rs:455 *)
      end
  | FData k t =>
      match t with
      | TPrim _ _ => []                                        (* primitives.rs:5-12 *)
      | TBox u => [FPushProcess k u; FData k u]                (* ptrs.rs:12-28 *)
      | TVec _ u =>                                            (* ptrs.rs:37-73, :220-252 *)
          [FOverwrite k usize_ty; FOverwrite k (TArray usize_ty 2); FPushProcessSlice k u; FData k u]
      | TString _ =>                                           (* ptrs.rs:79-105, :255-276 *)
          [FOverwrite k usize_ty; FOverwrite k (TArray usize_ty 2); FPushSlice k u8_ty]
      | TArray u _ => [FData k u]                              (* multiples.rs:8-12 *)
      | TStruct _ fs => map (fun f => FData k (snd f)) fs      (* multiples.rs:22-26, structs.rs:25-29 *)
      | TEnum _ _ vss => map (fun f => FData k (snd f)) (concat vss)   (* enums.rs:106-115, other.rs:8-12 *)
      | TNamed id => match E id with Some d => [FData k d] | None => [] end
      end
  | FNew => []                                                 (* aligned_vec.rs:102-111 *)
  | FWithCapacity => [FNew; FWithCapacityUnchecked]            (* storage/mod.rs:196-215 *)
  | FWithCapacityUnchecked => []                               (* aligned_vec.rs:124-140 *)
  | FStPush t => [FStPushSlice t]                              (* storage/mod.rs:249-251 *)
  | FStPushSlice t => [FAlignFor t; FStPushUnchecked t; FAlignAfter t]   (* storage/mod.rs:261-291 *)
  | FStPushBytes => [FStPushSlice u8_ty]                       (* storage/mod.rs:297-299 *)
  | FStPushUnchecked t => [FStWriteSlice t]                    (* aligned_vec.rs:195-207 *)
  | FStPushEmpty t => [FStPushEmptySlice t]                    (* storage/mod.rs:337-339 *)
  | FStPushEmptySlice t => [FAlignFor t; FAlignAfter t]        (* storage/mod.rs:353-363 *)
  | FStWrite t => [FStWriteSlice t]                            (* storage/mod.rs:485-487 *)
  | FStWriteSlice _ | FAlignFor _ | FAlignAfter _ => []        (* aligned_vec.rs:383-399; storage/mod.rs:379-408 *)
  end.

(** The constants evaluated in an instance: [false] = compile error. *)
Definition consts_hold (f : inst) : bool :=
  match f with
  | FAlignFor t => align_of E t <=? MVA                        (* storage/mod.rs:382, :581-582 *)
  | FData _ (TBox u) => size_of E (TBox u) =? pW               (* ptrs.rs:15, :112-114 *)
  | FData _ (TVec vl u) =>                                     (* ptrs.rs:129-167 *)
      match vec_offsets vl (align_of E u) with Some _ => true | None => false end
  | FData _ (TString vl) =>                                    (* ptrs.rs:176-206 *)
      match vec_offsets vl 1 with Some _ => true | None => false end
  | FNew | FWithCapacity | FWithCapacityUnchecked =>           (* aligned_vec.rs:104, :126; storage/mod.rs:198 *)
      match assert_alignments_valid tt with Ok _ _ => true | _ => false end
  | _ => true
  end.

(** The instances made for a program that mentions [fs]. *)
Inductive made (fs : list inst) : inst -> Prop :=
| made_here f : In f fs -> made fs f
| made_by f g : made fs f -> In g (mentions f) -> made fs g.

(** The program is accepted. *)
Definition accepted (fs : list inst) : Prop := forall f, made fs f -> consts_hold f = true.

End Mono.
