(** * ProgSer: the serializers and the impls of Serialize as programs of Prog.v.

    The definitions are those of Serializer.v and Serialize.v with the memory accesses made
    explicit: the input is read by [ILoad], values are pushed by [ICopy] from where they are,
    pointers corrected by [IRead] and [IStore]. *)
From Verif Require Import Base Types Storage Serializer Serialize Prog.
Local Open Scope N_scope.

(** A serializer: the fields of its storage, position mapping, pointer record
    (serializers/*.rs: complete.rs:81-91, ptr_offset.rs:61-65, pure_copy.rs:67-71). *)
Record hz := mkHz { hz_h : hdr; hz_map : posmap; hz_ptrs : ptrs }.

(** A slice &[T]: layout of T, address, length. *)
Record hslice := mkHslice { hs_lay : layout; hs_addr : N; hs_len : N }.

Definition hlift {A} (m : HM hdr A) : HM hz A :=
  fun z => pthen (fun a h => Done (Ok a (mkHz h (hz_map z) (hz_ptrs z))))
                 (fun e h => Done (Panic e (mkHz h (hz_map z) (hz_ptrs z)))) (m (hz_h z)).

Section ProgSer.
Context {P : Params}.

(** serializer_traits/pos_tracking.rs:11-15, complete.rs:18-22 *)
Definition hget_map : HM hz posmap := pu (gets hz_map).
Definition hset_map (pm : posmap) : HM hz unit := pu (modify (fun z => mkHz (hz_h z) pm (hz_ptrs z))).
Definition hget_ptrs : HM hz ptrs := pu (gets hz_ptrs).
Definition hset_ptrs (p : ptrs) : HM hz unit := pu (modify (fun z => mkHz (hz_h z) (hz_map z) p)).

(** serializer.rs:365-367 push_raw_slice, :497-499 capacity *)
Definition h_push_raw_slice (s : hslice) : HM hz N :=
  hlift (h_push_slice (hs_lay s) (hs_len s) (SMem (hs_addr s))).
Definition hser_capacity : HM hz N := hlift hcap.
Definition gser_capacity : M hz N := gets (fun z => h_cap (hz_h z)).

(** serializer_traits/ptr_offset.rs:21-28  PtrOffset::do_overwrite_ptr *)
Definition h_po_overwrite_ptr (ptr_pos target_pos : N) : HM hz unit :=
  pu (dassert (c <- gser_capacity ;; d <- sub_u c pW ;; ret (ptr_pos <=? d))) ;;~
  pu (dassert (is_aligned_to ptr_pos pW)) ;;~
  pu (dassert (c <- gser_capacity ;; ret (target_pos <=? c))) ;;~
  hlift (h_write ptr_pos usize_layout (SLocal (word_src target_pos))).

(** serializer_traits/complete.rs:44-76  Complete::do_overwrite_ptr *)
Definition h_co_overwrite_ptr (ptr_pos target_pos : N) : HM hz unit :=
  pu (dassert (c <- gser_capacity ;; d <- sub_u c pW ;; ret (ptr_pos <=? d))) ;;~
  pu (dassert (is_aligned_to ptr_pos pW)) ;;~
  pu (dassert (c <- gser_capacity ;; ret (target_pos <=? c))) ;;~
  storage_addr <~ hlift hp ;;
  target_addr <~ pu (add_u storage_addr target_pos) ;;
  hlift (h_write ptr_pos usize_layout (SLocal (word_src target_addr))) ;;~
  pt <~ hget_ptrs ;;
  (let pt := if negb (storage_addr =? pg_addr (pt_current pt))
             then new_ptr_group pt storage_addr else pt in
   hset_ptrs (mkPtrs (group_push (pt_current pt) ptr_pos) (pt_past pt))).

(** ser_types/ptr_offset.rs:66-69, ser_types/complete.rs:80-83 *)
Definition h_overwrite_ptr (k : kind) (ptr_pos target_pos : N) : HM hz unit :=
  match k with
  | PtrOffset => h_po_overwrite_ptr ptr_pos target_pos
  | Complete => h_co_overwrite_ptr ptr_pos target_pos
  | _ => hub
  end.

(** serializer.rs:333-342  push_and_process_slice (default) *)
Definition h_dflt_push_and_process_slice (s : hslice) (a : addr) (process : HM hz unit) : HM hz N :=
  pos <~ h_push_raw_slice s ;;
  process ;;~
  hret pos.

(** serializer_traits/pos_tracking.rs:44-67 *)
Definition h_pt_push_and_process_slice (s : hslice) (a : addr) (process : HM hz unit) : HM hz N :=
  before <~ hget_map ;;
  pos <~ h_push_raw_slice s ;;
  hset_map (mkMap (hs_addr s) pos) ;;~
  process ;;~
  hset_map before ;;~
  hret pos.

(** serializer_traits/ptr_writing.rs:32-41 and :44-70 *)
Definition h_pw_push_slice (k : kind) (s : hslice) (a : addr) : HM hz N :=
  pos <~ h_push_raw_slice s ;;
  pm <~ hget_map ;;
  ptr_pos <~ pu (pos_for_addr pm a) ;;
  h_overwrite_ptr k ptr_pos pos ;;~
  hret pos.
Definition h_pw_push_and_process_slice (k : kind) (s : hslice) (a : addr) (process : HM hz unit) : HM hz N :=
  before <~ hget_map ;;
  pos <~ h_push_raw_slice s ;;
  ptr_pos <~ pu (pos_for_addr before a) ;;
  h_overwrite_ptr k ptr_pos pos ;;~
  hset_map (mkMap (hs_addr s) pos) ;;~
  process ;;~
  hset_map before ;;~
  hret pos.

(** ser_types/pure_copy.rs:8-12, pos_tracking.rs:31-39, ptr_offset.rs:30-39, complete.rs:31-40 *)
Definition h_push_and_process_slice (k : kind) (s : hslice) (a : addr) (process : HM hz unit) : HM hz N :=
  match k with
  | PureCopy => h_dflt_push_and_process_slice s a process
  | PosTracking => h_pt_push_and_process_slice s a process
  | PtrOffset | Complete => h_pw_push_and_process_slice k s a process
  end.

(** serializer.rs:297-299, ser_types/pos_tracking.rs:26-29, ptr_offset.rs:24-28, complete.rs:25-29 *)
Definition h_ser_push_slice (k : kind) (s : hslice) (a : addr) : HM hz N :=
  match k with
  | PureCopy => h_push_and_process_slice k s a (hret tt)
  | PosTracking => h_push_raw_slice s
  | PtrOffset | Complete => h_pw_push_slice k s a
  end.

(** serializer_traits/writable.rs:10-13; serializer.rs:455, :486; ser_types/complete.rs:42-52 *)
Definition h_do_overwrite (a : addr) (l : layout) (data : mem) : HM hz unit :=
  pm <~ hget_map ;;
  pos <~ pu (pos_for_addr pm a) ;;
  hlift (h_write pos l (SLocal data)).
Definition h_overwrite (k : kind) (a : addr) (l : layout) (data : mem) : HM hz unit :=
  match k with
  | Complete => h_do_overwrite a l data
  | _ => hret tt
  end.
Definition h_overwrite_with (k : kind) (wr : HM hz unit) : HM hz unit :=
  match k with
  | Complete => wr
  | _ => hret tt
  end.

(** serializer.rs:260-269 and serializer_traits/pos_tracking.rs:23-35  serialize_value *)
Definition h_serialize_value_with (k : kind) (root : hslice) (data : HM hz unit) : HM hz N :=
  match k with
  | PureCopy =>
      pos <~ h_push_raw_slice root ;;
      data ;;~
      hret pos
  | _ =>
      pos <~ h_push_raw_slice root ;;
      hset_map (mkMap (hs_addr root) pos) ;;~
      data ;;~
      hret pos
  end.

(** pos.rs:222-237  correct_ptrs: [*ptr] is read, then written *)
Definition h_correct_ptr (shift_by ptr_pos : N) : HM hdr unit :=
  fun h =>
    if (ptr_pos + pW <=? h_cap h) && ((h_ptr h + ptr_pos) mod pW =? 0) then
      IRead (h_ptr h + ptr_pos) pW (fun l =>
        match read_word (mem_of l) 0 with
        | Some x => IStore (h_ptr h + ptr_pos) pW (word_src (wrapping_add x shift_by)) (Done (Ok tt h))
        | None => Done UB
        end)
    else Done UB.
Fixpoint h_correct_all (shift_by : N) (l : list N) : HM hdr unit :=
  match l with
  | [] => hret tt
  | p :: l' => h_correct_ptr shift_by p ;;~ h_correct_all shift_by l'
  end.
Definition h_correct_ptrs (g : pgroup) (storage_ptr : N) : HM hdr unit :=
  h_correct_all (wrapping_sub storage_ptr (pg_addr g)) (pg_pos g).

(** serializer_traits/complete.rs:83-102  do_finalize *)
Fixpoint h_correct_past (gs : list pgroup) (storage_ptr : N) : HM hdr unit :=
  match gs with
  | [] => hret tt
  | g :: gs' =>
      (if negb (pg_addr g =? storage_ptr) then h_correct_ptrs g storage_ptr else hret tt) ;;~
      h_correct_past gs' storage_ptr
  end.
Definition h_co_finalize : HM hz unit :=
  storage_ptr <~ hlift hp ;;
  pt <~ hget_ptrs ;;
  (if negb (pg_addr (pt_current pt) =? storage_ptr) && negb (group_is_empty (pt_current pt))
   then hlift (h_correct_ptrs (pt_current pt) storage_ptr) else hret tt) ;;~
  hlift (h_correct_past (pt_past pt) storage_ptr).

(** serializer.rs:491-493, ser_types/complete.rs:54-58 *)
Definition h_finalize (k : kind) : HM hz unit :=
  match k with
  | Complete => h_co_finalize
  | _ => hret tt
  end.

(** ** serialize_impls/*.rs *)

(** Reading a usize / an integer of the input through a reference. *)
Definition h_load_word (a : N) : HM hz N :=
  fun z => ILoad a pW (fun l => match read_word (mem_of l) 0 with Some x => Done (Ok x z) | None => Done UB end).
Definition h_load_int (a sz : N) : HM hz N :=
  fun z => ILoad a sz (fun l => match read_int (mem_of l) 0 sz with Some x => Done (Ok x z) | None => Done UB end).

(** ptrs.rs:219-276  overwrite_capacity_and_ptr_for_empty_vec / _string *)
Definition h_overwrite_empty (k : kind) (vo : voffs) (dangle a : N) : HM hz unit :=
  let cap_offset := vo_cap vo in
  let ptr_offset := vo_ptr vo in
  if (cap_offset =? 0) && (ptr_offset =? pW) then
    (ad <~ pu (addr_from_ref k a) ;; h_overwrite k ad two_words_layout (two_words 0 dangle))
  else if (cap_offset =? pW) && (ptr_offset =? 0) then
    (ad <~ pu (addr_from_ref k a) ;; h_overwrite k ad two_words_layout (two_words dangle 0))
  else if (cap_offset =? pW) && (ptr_offset =? pW * 2) then
    (ad <~ pu (addr_from_ref_offset k a pW) ;; h_overwrite k ad two_words_layout (two_words 0 dangle))
  else if (cap_offset =? pW * 2) && (ptr_offset =? pW) then
    (ad <~ pu (addr_from_ref_offset k a pW) ;; h_overwrite k ad two_words_layout (two_words dangle 0))
  else
    (ad <~ pu (addr_from_ref_offset k a cap_offset) ;; h_overwrite k ad usize_layout (word_src 0) ;;~
     ad <~ pu (addr_from_ref_offset k a ptr_offset) ;; h_overwrite k ad usize_layout (word_src dangle)).

(** ptrs.rs:69-71, multiples.rs:9-11 *)
Fixpoint h_for_elems (n : nat) (a sz : N) (f : N -> HM hz unit) : HM hz unit :=
  match n with
  | O => hret tt
  | S n' => f a ;;~ h_for_elems n' (a + sz) sz f
  end.

(** multiples.rs:22-26, structs.rs:25-29, enums.rs:106-115 *)
Fixpoint h_for_fields (fs : list (N * ty)) (a : N) (f : ty -> N -> HM hz unit) : HM hz unit :=
  match fs with
  | [] => hret tt
  | (off, t) :: fs' => f t (a + off) ;;~ h_for_fields fs' a f
  end.

Section Impl.
Variable k : kind.
Variable E : tenv.

(** ptrs.rs:12-29  Box<T> *)
Definition h_ser_box (t : ty) (a : N) (rec : ty -> N -> HM hz unit) : HM hz unit :=
  if size_of E t =? 0 then hret tt
  else
    ptr_addr <~ pu (addr_from_ref k a) ;;
    p <~ h_load_word a ;;
    h_push_and_process_slice k (mkHslice (layout_of E t) p 1) ptr_addr (rec t p) ;;~
    hret tt.

(** ptrs.rs:37-73  Vec<T> *)
Definition h_ser_vec (vl : vlay) (t : ty) (a : N) (rec : ty -> N -> HM hz unit) : HM hz unit :=
  if size_of E t =? 0 then hret tt
  else
    len <~ h_load_word (a + len_off vl) ;;
    if len =? 0 then
      h_overwrite_with k (
        cap <~ h_load_word (a + cap_off vl) ;;
        if negb (cap =? 0) then
          (vo <~ pu (const_or (vec_offsets vl (align_of E t))) ;;
           h_overwrite_empty k vo (align_of E t) a)
        else hret tt)
    else
      h_overwrite_with k (
        cap <~ h_load_word (a + cap_off vl) ;;
        if negb (cap =? len) then
          (vo <~ pu (const_or (vec_offsets vl (align_of E t))) ;;
           cap_addr <~ pu (addr_from_ref_offset k a (vo_cap vo)) ;;
           h_overwrite k cap_addr usize_layout (word_src len))
        else hret tt) ;;~
      vo <~ pu (const_or (vec_offsets vl (align_of E t))) ;;
      ptr_addr <~ pu (addr_from_ref_offset k a (vo_ptr vo)) ;;
      p <~ h_load_word (a + ptr_off vl) ;;
      h_push_and_process_slice k (mkHslice (layout_of E t) p len) ptr_addr
        (h_for_elems (N.to_nat len) p (size_of E t) (rec t)) ;;~
      hret tt.

(** ptrs.rs:79-104  String *)
Definition h_ser_string (vl : vlay) (a : N) : HM hz unit :=
  len <~ h_load_word (a + len_off vl) ;;
  if len =? 0 then
    h_overwrite_with k (
      cap <~ h_load_word (a + cap_off vl) ;;
      if negb (cap =? 0) then
        (vo <~ pu (const_or (vec_offsets vl 1)) ;;
         h_overwrite_empty k vo 1 a)
      else hret tt)
  else
    h_overwrite_with k (
      cap <~ h_load_word (a + cap_off vl) ;;
      if negb (cap =? len) then
        (vo <~ pu (const_or (vec_offsets vl 1)) ;;
         cap_addr <~ pu (addr_from_ref_offset k a (vo_cap vo)) ;;
         h_overwrite k cap_addr usize_layout (word_src len))
      else hret tt) ;;~
    vo <~ pu (const_or (vec_offsets vl 1)) ;;
    ptr_addr <~ pu (addr_from_ref_offset k a (vo_ptr vo)) ;;
    p <~ h_load_word (a + ptr_off vl) ;;
    h_ser_push_slice k (mkHslice u8_layout p len) ptr_addr ;;~
    hret tt.

(** Rust: which variant the enum at [a] is (as read_discr, reading the tag or niche there). *)
Definition h_variant (a : N) (d : discr) : HM hz nat :=
  let or_ub o := match o with Some v => hret v | None => hub end in
  match d with
  | DSingle v => hret v
  | DTag off sz vals => n <~ h_load_int (a + off) sz ;; or_ub (index_of n vals)
  | DNiche off sz df ns =>
      n <~ h_load_int (a + off) sz ;; hret (match assoc n ns with Some v => v | None => df end)
  end.

(** serialize_data of every type: primitives.rs:9, ptrs.rs, multiples.rs:8-62, other.rs:8-12,
    derived structs and enums; [fuel] bounds the nesting depth of the value. *)
Fixpoint h_ser_data (fuel : nat) (t : ty) (a : N) : HM hz unit :=
  match fuel with
  | O => fun _ => Done OutOfFuel
  | S fuel' =>
      match resolve E t with
      | TPrim _ _ => hret tt
      | TBox t' => h_ser_box t' a (h_ser_data fuel')
      | TVec vl t' => h_ser_vec vl t' a (h_ser_data fuel')
      | TString vl => h_ser_string vl a
      | TArray t' n => h_for_elems (N.to_nat n) a (size_of E t') (h_ser_data fuel' t')
      | TStruct _ fs => h_for_fields fs a (h_ser_data fuel')
      | TEnum _ d vss =>
          v <~ h_variant a d ;;
          match nth_error vss v with
          | Some fs => h_for_fields fs a (h_ser_data fuel')
          | None => hub
          end
      | TNamed _ => pu (panics PAssert)
      end
  end.

(** serializer.rs:260-269 / pos_tracking.rs:23-35  serialize_value(&value) *)
Definition h_serialize_value (fuel : nat) (t : ty) (a : N) : HM hz N :=
  h_serialize_value_with k (mkHslice (layout_of E t) a 1) (h_ser_data fuel t a).

(** Several serialize_value calls (serializer.rs:223-258), then finalize. *)
Fixpoint h_serialize_values (fuel : nat) (vs : list (ty * N)) : HM hz (list N) :=
  match vs with
  | [] => hret []
  | (t, a) :: vs' =>
      pos <~ h_serialize_value fuel t a ;;
      ps <~ h_serialize_values fuel vs' ;;
      hret (pos :: ps)
  end.
Definition h_serialize_all (fuel : nat) (vs : list (ty * N)) : HM hz (list N) :=
  ps <~ h_serialize_values fuel vs ;;
  h_finalize k ;;~
  hret ps.

End Impl.

(** ** A client *)

(** A client makes a storage (AlignedVec::with_capacity), calls methods of it, catching panics,
    then may make a serializer from it (from_storage) and serialize values, of types described in
    [E], with it, and at last may drop the storage.  A panic in the serializer drops it and with
    it the storage. *)
Record client := mkClient {
  cl_cap : N;
  cl_ops : list hop;
  cl_ser : option (kind * list (ty * N));
  cl_drop : bool
}.

Fixpoint h_run_ops (os : list hop) : HM hdr unit :=
  match os with
  | [] => hret tt
  | o :: os' => catch (h_run_op o) ;;~ h_run_ops os'
  end.

(** serializers/*.rs from_storage, from a storage just used (complete.rs:133-145) *)
Definition h_from_storage : HM hz unit := hset_map map_dummy ;;~ hset_ptrs ptrs_new.

(** The result: the positions of the values serialized; None: the serializer panicked. *)
Definition h_client (E : tenv) (fuel : nat) (cl : client) : HM hz (option (list N)) :=
  hlift (h_with_capacity (cl_cap cl)) ;;~
  hlift (h_run_ops (cl_ops cl)) ;;~
  r <~ match cl_ser cl with
       | None => hret (Some [])
       | Some (k, vs) => h_from_storage ;;~ catch (h_serialize_all k E fuel vs)
       end ;;
  (if cl_drop cl || (match r with None => true | Some _ => false end) then hlift h_drop else hret tt) ;;~
  hret r.

Definition hz_new : hz := mkHz hdr_new map_dummy ptrs_new.
End ProgSer.
