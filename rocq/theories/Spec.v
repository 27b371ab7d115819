(** * Spec: the independent specification.

    What a user means by "the smallest multiple", "a storage in order", "the
    memory at this address, seen as a T, is the value v", "the layout rule",
    "the reader that walks the output in order" and "an allocator client that
    keeps to the contract".  No function of Storage.v, Serializer.v or
    Serialize.v that models code of the library is used here; from Base.v and
    Types.v only the vocabulary (bytes, integers read from memory, layouts,
    types, values) is. *)
From Verif Require Import Base Types Storage.
Local Open Scope N_scope.

(** ** Arithmetic *)
Definition pow2 (a : N) : Prop := exists k, a = 2 ^ k.

(** [r] is the smallest multiple of [a] that is at least [p]. *)
Definition least_multiple (p a r : N) : Prop :=
  (a | r) /\ p <= r /\ forall r', (a | r') -> p <= r' -> r <= r'.

(** The function computing it. *)
Definition round_up (p a : N) : N := (p + a - 1) / a * a.

(** [r] is the smallest power of two that is at least [n]. *)
Definition least_pow2 (n r : N) : Prop :=
  pow2 r /\ n <= r /\ forall r', pow2 r' -> n <= r' -> r <= r'.

Section Spec.
Context {P : Params}.

(** ** Machine and const parameters *)

(** usize is 4 or 8 bytes. *)
Definition machine_ok : Prop := pW = 4 \/ pW = 8.

(** std::alloc::Layout: [size] rounded up to [align] is at most isize::MAX. *)
Definition legal_layout (size align : N) : Prop :=
  pow2 align /\ round_up size align <= imax.

(** What storage/mod.rs:13-133 documents about the four const parameters. *)
Definition consts_ok : Prop :=
  pow2 SA /\ pow2 MVA /\ pow2 VA /\ VA <= MVA /\ MVA <= SA /\
  0 < MAXC /\ (MVA | MAXC) /\ legal_layout MAXC SA.

Definition cfg_ok : Prop := machine_ok /\ consts_ok.

(** The allocator's contract: an answer is null, or a block of [size] bytes at a
    non-null address aligned to STORAGE_ALIGNMENT whose end is a usize too (std::ptr: for an allocation,
    "base + size does not overflow"). *)
Definition alloc_ok : Prop :=
  forall n size, orc n size = 0 \/ ((SA | orc n size) /\ orc n size + size < umod).

(** The allocator refuses some request of a size the storage may ask for; it never does. *)
Definition alloc_failed : Prop := exists n size, 0 < size /\ size <= MAXC /\ orc n size = 0.
Definition alloc_succeeds : Prop := forall n size, 0 < size -> size <= MAXC -> orc n size <> 0.

(** Layouts of Rust types the storage accepts (storage/mod.rs:379-395 rejects at
    compile time a type whose alignment exceeds MAX_VALUE_ALIGNMENT). *)
Definition good_layout (l : layout) : Prop :=
  pow2 (l_align l) /\ (l_align l | l_size l) /\ l_size l <= imax /\ l_align l <= MVA.

(** ** Storages *)

(** The invariants of a storage (property C05). *)
Definition storage_ok (w : sw) : Prop :=
  let st := sw_s w in
  (MVA | s_cap st) /\ s_cap st <= MAXC /\
  s_pos st <= s_cap st /\ (VA | s_pos st) /\
  (s_cap st = 0 -> s_ptr st = 1) /\
  (0 < s_cap st -> s_ptr st <> 0 /\ (SA | s_ptr st) /\ s_ptr st + s_cap st < umod).

(** The bytes of the output: the cells below pos(), at address [base]. *)
Definition out_mem (base : N) (w : sw) : mem :=
  fun i => if (base <=? i) && (i <? base + s_pos (sw_s w))
           then s_buf (sw_s w) (i - base) else None.

(** Calls a Rust client can make: the layouts are those of types, a slice has at
    most isize::MAX bytes, other numbers are usize values. *)
Definition op_valid (o : sop) : Prop :=
  match o with
  | OPush l _ | OPushEmpty l | OAlignFor l => good_layout l
  | OPushSlice l n _ => good_layout l /\ l_size l * n <= imax
  | OPushBytes n _ => n <= imax
  | OPushEmptySlice l n => good_layout l /\ n < umod
  | OReserve n => n < umod
  | OAlignAfter _ | OAlignAfterAny | OClear | OShrink => True
  end.

(** A push of an empty slice of a type that is not zero-sized and needs
    alignment, before the storage has allocated anything. *)
Definition empty_slice_push (w : sw) (o : sop) : Prop :=
  match o with
  | OPushSlice l n _ => n = 0 /\ 0 < l_size l /\ 1 < l_align l /\ s_cap (sw_s w) = 0
  | _ => False
  end.

(** ** The layout rule *)

(** Where a slice pushed at position [p] starts and where the next push may start. *)
Definition push_start (p : N) (l : layout) : N := round_up p (N.max (l_align l) VA).
Definition push_end (p : N) (l : layout) (n : N) : N :=
  round_up (push_start p l + l_size l * n) VA.

(** The position each storage call returns, and the position it leaves, as a
    function of the position before and the type and length pushed only. *)
Definition op_pos (p : N) (o : sop) : option N :=
  match o with
  | OPush l _ | OPushSlice l _ _ => Some (if l_size l =? 0 then 0 else push_start p l)
  | OPushBytes _ _ => Some (push_start p u8_layout)
  | OPushEmpty l | OPushEmptySlice l _ => Some (push_start p l)
  | _ => None
  end.
Definition op_next (p : N) (o : sop) : N :=
  match o with
  | OPush l _ => if l_size l =? 0 then p else push_end p l 1
  | OPushSlice l n _ => if l_size l =? 0 then p else push_end p l n
  | OPushBytes n _ => push_end p u8_layout n
  | OPushEmpty l => push_end p l 1
  | OPushEmptySlice l n => push_end p l n
  | OAlignFor l => push_start p l
  | OClear => 0
  | OReserve _ | OAlignAfter _ | OAlignAfterAny | OShrink => p
  end.
Fixpoint positions (p : N) (os : list sop) : list (option N) :=
  match os with
  | [] => []
  | o :: os' => op_pos p o :: positions (op_next p o) os'
  end.

(** An operation with the bytes pushed forgotten. *)
Definition shape (o : sop) : sop :=
  match o with
  | OPush l _ => OPush l no_mem
  | OPushSlice l n _ => OPushSlice l n no_mem
  | OPushBytes n _ => OPushBytes n no_mem
  | _ => o
  end.

(** push_empty_slice::<T>(n) asks for an amount of bytes that is a usize. *)
Definition no_overflow (o : sop) : Prop :=
  match o with
  | OPushEmptySlice l n => l_size l * n < umod
  | _ => True
  end.

(** The storage's own calls pushing slices of these layouts and lengths, whatever their
    contents; two storages that differ in the contents of the buffer only. *)
Definition push_ops (ps : list (layout * N)) : list sop :=
  map (fun x => OPushSlice (fst x) (snd x) no_mem) ps.
Definition alike (w w' : sw) : Prop :=
  s_ptr (sw_s w) = s_ptr (sw_s w') /\ s_cap (sw_s w) = s_cap (sw_s w') /\
  s_pos (sw_s w) = s_pos (sw_s w') /\
  sw_calls w = sw_calls w' /\ sw_trace w = sw_trace w'.

(** The bytes reallocations copy, in a sequence of allocator calls: the smaller of
    the old and the new size of each block. *)
Fixpoint bytes_moved (es : list aevent) : N :=
  match es with
  | [] => 0
  | ERealloc _ old _ _ new :: es' => N.min old new + bytes_moved es'
  | _ :: es' => bytes_moved es'
  end.

(** The end of the space an operation at position [p] asks for; the largest one in a
    sequence of operations. *)
Definition op_need (p : N) (o : sop) : N :=
  match o with
  | OPush l _ => if l_size l =? 0 then 0 else push_start p l + l_size l
  | OPushSlice l n _ => if l_size l =? 0 then 0 else push_start p l + l_size l * n
  | OPushBytes n _ => push_start p u8_layout + n
  | OPushEmpty l => push_start p l + l_size l
  | OPushEmptySlice l n => push_start p l + l_size l * n
  | OReserve n => p + n
  | _ => 0
  end.
Fixpoint peak (p : N) (os : list sop) : N :=
  match os with
  | [] => 0
  | o :: os' => N.max (op_need p o) (peak (op_next p o) os')
  end.

Fixpoint end_pos (p : N) (ps : list (layout * N)) : N :=
  match ps with
  | [] => p
  | (l, n) :: ps' => end_pos (push_end p l n) ps'
  end.

(** push_slice (push, push_bytes) of [n] values of layout [l] with bytes [data]
    returned [p] (property C06). *)
Definition pushed (w : sw) (l : layout) (n : N) (data : mem) (p : N) (w' : sw) : Prop :=
  if l_size l =? 0 then p = 0 /\ w' = w
  else
    (l_align l | p) /\
    least_multiple (s_pos (sw_s w)) (N.max (l_align l) VA) p /\
    least_multiple (p + l_size l * n) VA (s_pos (sw_s w')) /\
    (forall i, i < s_pos (sw_s w) -> s_buf (sw_s w') i = s_buf (sw_s w) i) /\
    (forall i, i < l_size l * n -> s_buf (sw_s w') (p + i) = data i) /\
    storage_ok w'.

(** The calls that decide where pushes go (reserve and shrink_to_fit do not). *)
Definition placing (os : list sop) : list sop :=
  filter (fun o => match o with OReserve _ | OShrink => false | _ => true end) os.
Fixpoint returned (l : list (option N)) : list N :=
  match l with
  | [] => []
  | Some x :: l' => x :: returned l'
  | None :: l' => returned l'
  end.

(** ** Values in memory *)

(** A non-null pointer aligned for [n] values of layout [l], inside the address space. *)
Definition valid_ref (l : layout) (n p : N) : Prop :=
  p <> 0 /\ (l_align l | p) /\ p + l_size l * n <= umod.

(** What std guarantees about the three words of a Vec: [c] capacity, [p]
    pointer, [n] length. *)
Definition vec_ok (l : layout) (c p n : N) : Prop :=
  valid_ref l n p /\ c <= imax /\ n <= (if l_size l =? 0 then umod - 1 else c) /\
  l_size l * c <= imax.

(** Further conditions a theorem may ask for on every Box, Vec and String:
    [h q l c p n]: the pointer word at address [q] holds [p] and points to [n]
    values of layout [l], with capacity [c] (1 and 1 for a Box). *)
Definition header := N -> layout -> N -> N -> N -> Prop.

Definition any_header : header := fun _ _ _ _ _ => True.
(** A Vec with nothing allocated has the canonical dangling pointer. *)
Definition canonical : header :=
  fun q l c p n => 0 < l_size l -> c = 0 -> p = l_align l.
(** Shrunk to fit: capacity = length, and dangling if empty. *)
Definition tight : header :=
  fun q l c p n => 0 < l_size l -> c = n /\ (n = 0 -> p = l_align l).
(** Every pointer to something that takes space points past itself. *)
Definition forward : header :=
  fun q l c p n => 0 < l_size l -> 0 < n -> q + pW <= p.

Section Repr.
Variable E : tenv.
Variable H : header.
Variable m : mem.

(** [repr t a v]: the memory at address [a], seen as a [t], is a valid
    representation of the value [v]. *)
Inductive repr : ty -> N -> val -> Prop :=
| R_prim l ok a n :
    read_int m a (l_size l) = Some n -> ok n = true ->
    repr (TPrim l ok) a (VPrim n)
| R_box t a p v :
    read_word m a = Some p ->
    valid_ref (layout_of E t) 1 p ->
    H a (layout_of E t) 1 p 1 ->
    repr t p v ->
    repr (TBox t) a (VBox v)
| R_vec vl t a c p vs :
    read_word m (a + cap_off vl) = Some c ->
    read_word m (a + ptr_off vl) = Some p ->
    read_word m (a + len_off vl) = Some (N.of_nat (length vs)) ->
    vec_ok (layout_of E t) c p (N.of_nat (length vs)) ->
    H (a + ptr_off vl) (layout_of E t) c p (N.of_nat (length vs)) ->
    repr_elems t p vs ->
    repr (TVec vl t) a (VVec vs)
| R_string vl a c p bs :
    read_word m (a + cap_off vl) = Some c ->
    read_word m (a + ptr_off vl) = Some p ->
    read_word m (a + len_off vl) = Some (N.of_nat (length bs)) ->
    vec_ok u8_layout c p (N.of_nat (length bs)) ->
    H (a + ptr_off vl) u8_layout c p (N.of_nat (length bs)) ->
    read_bytes m p (length bs) = Some bs ->
    repr (TString vl) a (VString bs)
| R_array t n a vs :
    n = N.of_nat (length vs) ->
    repr_elems t a vs ->
    repr (TArray t n) a (VArray vs)
| R_struct l fs a vs :
    repr_fields fs a vs ->
    repr (TStruct l fs) a (VStruct vs)
| R_enum l d vss a k fs vs :
    read_discr m a d = Some k ->
    nth_error vss k = Some fs ->
    repr_fields fs a vs ->
    repr (TEnum l d vss) a (VEnum k vs)
| R_named id d a v :
    E id = Some d ->
    repr d a v ->
    repr (TNamed id) a v
(** Consecutive elements, [size_of t] bytes apart. *)
with repr_elems : ty -> N -> list val -> Prop :=
| RE_nil t a : repr_elems t a []
| RE_cons t a v vs :
    repr t a v ->
    repr_elems t (a + size_of E t) vs ->
    repr_elems t a (v :: vs)
(** Fields at their offsets from [a]. *)
with repr_fields : list (N * ty) -> N -> list val -> Prop :=
| RF_nil a : repr_fields [] a []
| RF_cons off t fs a v vs :
    repr t (a + off) v ->
    repr_fields fs a vs ->
    repr_fields ((off, t) :: fs) a (v :: vs).

End Repr.

(** ** Which types a compiler may produce *)

(** [niche_valid t off sz Q]: whenever a [t] is stored at [a], the integer of
    [sz] bytes at [a + off] satisfies [Q] (so other integers are niches). *)
Inductive niche_valid (E : tenv) : ty -> N -> N -> (N -> Prop) -> Prop :=
| NV_prim l ok (Q : N -> Prop) :
    (forall n, ok n = true -> Q n) ->
    niche_valid E (TPrim l ok) 0 (l_size l) Q
| NV_box t (Q : N -> Prop) :
    (forall n, n <> 0 -> Q n) ->
    niche_valid E (TBox t) 0 pW Q
| NV_vec_ptr vl t (Q : N -> Prop) :
    (forall n, n <> 0 -> Q n) ->
    niche_valid E (TVec vl t) (ptr_off vl) pW Q
| NV_vec_cap vl t (Q : N -> Prop) :
    (forall n, n <= imax -> Q n) ->
    niche_valid E (TVec vl t) (cap_off vl) pW Q
| NV_string_ptr vl (Q : N -> Prop) :
    (forall n, n <> 0 -> Q n) ->
    niche_valid E (TString vl) (ptr_off vl) pW Q
| NV_string_cap vl (Q : N -> Prop) :
    (forall n, n <= imax -> Q n) ->
    niche_valid E (TString vl) (cap_off vl) pW Q
| NV_array t n off sz Q :
    0 < n ->
    niche_valid E t off sz Q ->
    niche_valid E (TArray t n) off sz Q
| NV_struct l fs o t off sz Q :
    In (o, t) fs ->
    niche_valid E t off sz Q ->
    niche_valid E (TStruct l fs) (o + off) sz Q
| NV_tag l off sz vals vss (Q : N -> Prop) :
    (forall n, In n vals -> Q n) ->
    niche_valid E (TEnum l (DTag off sz vals) vss) off sz Q
| NV_single l k vss fs o t off sz Q :
    nth_error vss k = Some fs ->
    In (o, t) fs ->
    niche_valid E t off sz Q ->
    niche_valid E (TEnum l (DSingle k) vss) (o + off) sz Q
| NV_niche l off sz df ns vss fs o t off' (Q : N -> Prop) :
    nth_error vss df = Some fs ->
    In (o, t) fs ->
    off = o + off' ->
    niche_valid E t off' sz Q ->
    (forall n k, In (n, k) ns -> Q n) ->
    niche_valid E (TEnum l (DNiche off sz df ns) vss) off sz Q
| NV_named id d off sz Q :
    E id = Some d ->
    niche_valid E d off sz Q ->
    niche_valid E (TNamed id) off sz Q.

Definition disjoint (o1 s1 o2 s2 : N) : Prop := o1 + s1 <= o2 \/ o2 + s2 <= o1.

(** Fields: inside the type, aligned, not overlapping. *)
Inductive fields_ok (E : tenv) (l : layout) : list (N * ty) -> Prop :=
| FO_nil : fields_ok E l []
| FO_cons off t fs :
    off + size_of E t <= l_size l ->
    (align_of E t | off) ->
    align_of E t <= l_align l ->
    (forall o u, In (o, u) fs -> disjoint off (size_of E t) o (size_of E u)) ->
    fields_ok E l fs ->
    fields_ok E l ((off, t) :: fs).

(** The bytes [off, off+sz) are no part of any of the fields. *)
Definition apart (E : tenv) (off sz : N) (fs : list (N * ty)) : Prop :=
  forall o t, In (o, t) fs -> disjoint off sz o (size_of E t).

Inductive discr_ok (E : tenv) (l : layout) (vss : list (list (N * ty))) : discr -> Prop :=
| DO_single k : discr_ok E l vss (DSingle k)
| DO_tag off sz vals :
    off + sz <= l_size l ->
    (forall k fs, nth_error vss k = Some fs -> apart E off sz fs) ->
    discr_ok E l vss (DTag off sz vals)
| DO_niche off sz df ns fs o t off' :
    off + sz <= l_size l ->
    (forall n k, In (n, k) ns -> k <> df) ->
    (forall k gs, nth_error vss k = Some gs -> k <> df -> apart E off sz gs) ->
    nth_error vss df = Some fs ->
    In (o, t) fs ->
    off = o + off' ->
    niche_valid E t off' sz (fun n => forall k, ~ In (n, k) ns) ->
    discr_ok E l vss (DNiche off sz df ns).

(** Supported types. *)
Inductive wf_ty (E : tenv) : ty -> Prop :=
| W_prim l ok : good_layout l -> wf_ty E (TPrim l ok)
| W_box t : wf_ty E t -> pW <= MVA -> wf_ty E (TBox t)
| W_vec vl t : wf_ty E t -> pW <= MVA -> wf_ty E (TVec vl t)
| W_string vl : pW <= MVA -> wf_ty E (TString vl)
| W_array t n : wf_ty E t -> size_of E t * n <= imax -> wf_ty E (TArray t n)
| W_struct l fs :
    good_layout l -> fields_ok E l fs ->
    (forall o t, In (o, t) fs -> wf_ty E t) ->
    wf_ty E (TStruct l fs)
| W_enum l d vss :
    good_layout l -> discr_ok E l vss d ->
    (forall k fs, nth_error vss k = Some fs -> fields_ok E l fs) ->
    (forall k fs o t, nth_error vss k = Some fs -> In (o, t) fs -> wf_ty E t) ->
    wf_ty E (TEnum l d vss)
| W_named id d : E id = Some d -> wf_ty E (TNamed id).

(** Named types are structs and enums, and supported ones. *)
Definition wf_env (E : tenv) : Prop :=
  forall id d, E id = Some d ->
    wf_ty E d /\
    match d with TStruct _ _ | TEnum _ _ _ => True | _ => False end.

(** ** Nesting depth of a value; the allocations a value owns, in the order they
    are written (each before the allocations it points to) *)
Fixpoint vdepth (v : val) : nat :=
  match v with
  | VPrim _ | VString _ => O
  | VBox v => S (vdepth v)
  | VVec vs | VArray vs | VStruct vs | VEnum _ vs => S (list_max (map vdepth vs))
  end.

Fixpoint owned (E : tenv) (t : ty) (v : val) {struct v} : list (layout * N) :=
  let fields := fix go (vs : list val) (fs : list (N * ty)) :=
    match vs, fs with
    | v :: vs', (_, t) :: fs' => owned E t v ++ go vs' fs'
    | _, _ => []
    end in
  match resolve E t, v with
  | TBox t', VBox v' =>
      if size_of E t' =? 0 then [] else (layout_of E t', 1) :: owned E t' v'
  | TVec _ t', VVec vs =>
      if (size_of E t' =? 0) || (N.of_nat (length vs) =? 0) then []
      else (layout_of E t', N.of_nat (length vs)) :: flat_map (owned E t') vs
  | TString _, VString bs =>
      if N.of_nat (length bs) =? 0 then [] else [(u8_layout, N.of_nat (length bs))]
  | TArray t' _, VArray vs => flat_map (owned E t') vs
  | TStruct _ fs, VStruct vs => fields vs fs
  | TEnum _ _ vss, VEnum k vs =>
      match nth_error vss k with Some fs => fields vs fs | None => [] end
  | _, _ => []
  end.

(** The value itself, then what it owns.  Nothing is written for zero-sized values. *)
Definition allocations (E : tenv) (t : ty) (v : val) : list (layout * N) :=
  (if size_of E t =? 0 then [] else [(layout_of E t, 1)]) ++ owned E t v.

(** Their bytes, without padding. *)
Fixpoint data_size (ps : list (layout * N)) : N :=
  match ps with [] => 0 | (l, n) :: ps' => l_size l * n + data_size ps' end.

(** The position serialize_value returns, from position [p]; then several values
    one after the other. *)
Definition root_pos (E : tenv) (p : N) (t : ty) : N :=
  if size_of E t =? 0 then 0 else push_start p (layout_of E t).
Fixpoint root_positions (E : tenv) (p : N) (l : list (ty * val)) : list N :=
  match l with
  | [] => []
  | (t, v) :: l' => root_pos E p t :: root_positions E (end_pos p (allocations E t v)) l'
  end.
Definition all_allocations (E : tenv) (l : list (ty * val)) : list (layout * N) :=
  flat_map (fun tv => allocations E (fst tv) (snd tv)) l.

(** ** A reader that walks the output in order (for PureCopy output)

    [m]: the output's bytes.  [p]: position of the value.  [cur]: where the next
    allocation not read yet may start.  Returns the value and the new [cur].
    Only types, lengths and discriminants are used, no pointers. *)
Fixpoint dec_elems (dec : N -> N -> option (val * N)) (sz : N) (n : nat) (p cur : N)
  : option (list val * N) :=
  match n with
  | O => Some ([], cur)
  | S n' =>
      match dec p cur with
      | Some (v, cur1) =>
          match dec_elems dec sz n' (p + sz) cur1 with
          | Some (vs, cur2) => Some (v :: vs, cur2)
          | None => None
          end
      | None => None
      end
  end.
Fixpoint dec_fields (dec : ty -> N -> N -> option (val * N)) (fs : list (N * ty)) (p cur : N)
  : option (list val * N) :=
  match fs with
  | [] => Some ([], cur)
  | (off, t) :: fs' =>
      match dec t (p + off) cur with
      | Some (v, cur1) =>
          match dec_fields dec fs' p cur1 with
          | Some (vs, cur2) => Some (v :: vs, cur2)
          | None => None
          end
      | None => None
      end
  end.

Definition omap {A B} (f : A -> B) (o : option (A * N)) : option (B * N) :=
  match o with Some (a, c) => Some (f a, c) | None => None end.

Fixpoint decode (E : tenv) (m : mem) (fuel : nat) (t : ty) (p cur : N) : option (val * N) :=
  match fuel with
  | O => None
  | S fuel' =>
      let dec := decode E m fuel' in
      match resolve E t with
      | TPrim l ok =>
          match read_int m p (l_size l) with
          | Some n => if ok n then Some (VPrim n, cur) else None
          | None => None
          end
      | TBox t' =>
          if size_of E t' =? 0
          then omap VBox (dec t' 0 cur)
          else omap VBox (dec t' (push_start cur (layout_of E t')) (push_end cur (layout_of E t') 1))
      | TVec vl t' =>
          match read_word m (p + len_off vl) with
          | Some n =>
              if (size_of E t' =? 0) || (n =? 0)
              then omap VVec (dec_elems (dec t') 0 (N.to_nat n) 0 cur)
              else omap VVec (dec_elems (dec t') (size_of E t') (N.to_nat n)
                                (push_start cur (layout_of E t')) (push_end cur (layout_of E t') n))
          | None => None
          end
      | TString vl =>
          match read_word m (p + len_off vl) with
          | Some n =>
              if n =? 0 then Some (VString [], cur)
              else match read_bytes m (push_start cur u8_layout) (N.to_nat n) with
                   | Some bs => Some (VString bs, push_end cur u8_layout n)
                   | None => None
                   end
          | None => None
          end
      | TArray t' n => omap VArray (dec_elems (dec t') (size_of E t') (N.to_nat n) p cur)
      | TStruct _ fs => omap VStruct (dec_fields dec fs p cur)
      | TEnum _ d vss =>
          match read_discr m p d with
          | Some k =>
              match nth_error vss k with
              | Some fs => omap (VEnum k) (dec_fields dec fs p cur)
              | None => None
              end
          | None => None
          end
      | TNamed _ => None
      end
  end.

(** Reading a whole output from the position returned by serialize. *)
Definition decode_root (E : tenv) (m : mem) (fuel : nat) (t : ty) (pos : N) : option val :=
  match decode E m fuel t pos (round_up (pos + size_of E t) VA) with
  | Some (v, _) => Some v
  | None => None
  end.

(** A valid [&T] to serialize: the memory [m] of the program at address [a] holds the
    value [v] of the supported type [t]. *)
Definition valid_input (E : tenv) (H : header) (m : mem) (t : ty) (a : N) (v : val) : Prop :=
  wf_ty E t /\ a + size_of E t <= umod /\ repr E H m t a v.

(** ** The allocator protocol *)

(** Live block (address, size), if any, before; allocator calls; live block after. *)
Inductive protocol : option (N * N) -> list aevent -> option (N * N) -> Prop :=
| PR_nil b : protocol b [] b
| PR_alloc a size evs b :
    0 < size -> legal_layout size SA -> a <> 0 -> (SA | a) ->
    protocol (Some (a, size)) evs b ->
    protocol None (EAlloc a size SA :: evs) b
| PR_realloc a size a' size' evs b :
    0 < size' -> legal_layout size' SA -> a' <> 0 -> (SA | a') ->
    protocol (Some (a', size')) evs b ->
    protocol (Some (a, size)) (ERealloc a size SA a' size' :: evs) b
| PR_dealloc a size evs b :
    protocol None evs b ->
    protocol (Some (a, size)) (EDealloc a size SA :: evs) b.

(** The block a storage owns. *)
Definition block (w : sw) : option (N * N) :=
  if s_cap (sw_s w) =? 0 then None else Some (s_ptr (sw_s w), s_cap (sw_s w)).

End Spec.
