(** * Client: hand-written Serialize / SerializeWith implementations.

    ser_raw/src/serialize.rs:20-142: a user implements [serialize_data] (or
    [serialize_data_with]) by calling methods of the serializer.  One execution of such
    an implementation on one value is a tree of calls; the model runs any such tree. *)
From Verif Require Import Base Types Storage Serializer Serialize.
Local Open Scope N_scope.

(** One call made by the implementation.  [off] is an offset from the start of the value
    (or slice) that is being processed.
    [SPush off l tp n body]: serializer.push_and_process_slice(slice, addr, |s| body) where
      slice is the [n] values of layout [l] at address [tp] and addr the address of the
      pointer, from Addr::from_ref_offset(self, off) (serializer.rs:333-342, :312-319).
    [SPushPlain]: serializer.push_slice(slice, addr) (serializer.rs:297-299, :282-284).
    [SRaw]: serializer.push_raw_slice(slice) (serializer.rs:365-367; push_raw, push_raw_bytes).
    [SOver off l data]: serializer.overwrite_with(|s| s.overwrite(addr, &x)), the bytes of
      x being [data] (serializer.rs:455, :486).
    [SField off t v]: self.field.serialize_data(serializer) for a field of a supported type
      ([v], its value, is not used by the run).
    [SStore o]: a call on serializer.storage_mut() (serializer.rs:511), or of a push_raw /
      push_empty method (serializer.rs:352-436).
    [SPanic]: the implementation itself panics. *)
Inductive step :=
| SPush (off : N) (l : layout) (tp n : N) (body : list step)
| SPushPlain (off : N) (l : layout) (tp n : N)
| SRaw (l : layout) (tp n : N)
| SOver (off : N) (l : layout) (data : mem)
| SField (off : N) (t : ty) (v : val)
| SStore (o : sop)
| SPanic.

Section Client.
Context {P : Params}.
Variable k : kind.
Variable E : tenv.
Variable m : mem.      (* the input's memory *)
Variable fuel : nat.

(** A storage call made by the implementation.  If it panics, so does the implementation
    (SIMPLIFICATION: such a panic is not distinguished from one of its own; an implementation
    that catches it is covered by C45). *)
Definition store_call (o : sop) : M zs unit := fun z =>
  match run_op o (z_sw z) with
  | Ok _ w' => Ok tt (mkZ w' (z_map z) (z_ptrs z))
  | Panic _ w' => Panic PUser (mkZ w' (z_map z) (z_ptrs z))
  | Abort => Abort
  | UB => UB
  | OutOfFuel => OutOfFuel
  end.

(** One call, the value being processed lying at address [a]. *)
Fixpoint run_step (a : N) (s : step) : M zs unit :=
  match s with
  | SPush off l tp n body =>
      ad <- addr_from_ref_offset k a off ;;
      push_and_process_slice k (slice_at m l tp n) ad
        ((fix go (ss : list step) : M zs unit :=
            match ss with
            | [] => ret tt
            | s :: ss' => run_step tp s ;;; go ss'
            end) body) ;;;
      ret tt
  | SPushPlain off l tp n =>
      ad <- addr_from_ref_offset k a off ;;
      ser_push_slice k (slice_at m l tp n) ad ;;;
      ret tt
  | SRaw l tp n => push_raw_slice (slice_at m l tp n) ;;; ret tt
  | SOver off l data =>
      overwrite_with k (ad <- addr_from_ref_offset k a off ;; overwrite k ad l data)
  | SField off t v => ser_data k E m fuel t (a + off)
  | SStore o => store_call o
  | SPanic => panics PUser
  end.

(** The calls of a body, one after the other. *)
Fixpoint run_steps (a : N) (ss : list step) : M zs unit :=
  match ss with
  | [] => ret tt
  | s :: ss' => run_step a s ;;; run_steps a ss'
  end.

(** serializer.rs:217-221 serialize, for the value of layout [l] at [a] whose
    serialize_data makes the calls [ss]. *)
Definition client_serialize (l : layout) (a : N) (ss : list step) : M zs N :=
  pos <- serialize_value_with k (slice_at m l a 1) (run_steps a ss) ;;
  finalize k ;;;
  ret pos.

(** std::panic::catch_unwind around a call: a panic is reported as [None] and the
    serializer is in the state the panic left it in. *)
Definition catch {A} (f : M zs A) : M zs (option A) := fun z =>
  match f z with
  | Ok x z' => Ok (Some x) z'
  | Panic _ z' => Ok None z'
  | Abort => Abort
  | UB => UB
  | OutOfFuel => OutOfFuel
  end.

(** A client that serializes several values (layout, address, calls of its serialize_data)
    with serializer.serialize_value (serializer.rs:260-269), each under catch_unwind, whatever
    becomes of the others, having asked for serializer.pos() (serializer.rs:503-505) before. *)
Fixpoint attempt_all (rs : list (layout * N * list step)) : M zs (list (N * option N)) :=
  match rs with
  | [] => ret []
  | (l, a, ss) :: rs' =>
      b <- ser_pos ;;
      r <- catch (serialize_value_with k (slice_at m l a 1) (run_steps a ss)) ;;
      outs <- attempt_all rs' ;;
      ret ((b, r) :: outs)
  end.

(** ... and then finalizes (serializer.rs:491, ptr_offset.rs, complete.rs finalize). *)
Definition session (rs : list (layout * N * list step)) : M zs (list (N * option N)) :=
  outs <- attempt_all rs ;;
  finalize k ;;;
  ret outs.

End Client.
