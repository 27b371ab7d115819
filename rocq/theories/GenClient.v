(** * GenClient: hand-written Serialize implementations over a serializer with any storage
    (Client.v, whose storage is AlignedVec, with the methods of GenSerializer.v). *)
From Verif Require Import Base Types Storage Serializer Serialize GenStorage GenSerializer Client.
Local Open Scope N_scope.

Section GenClient.
Context {P : Params}.
Context {St : Type}.
Variable R : ra_impl St.
Variable k : kind.
Variable E : tenv.
Variable m : mem.      (* the input's memory *)
Variable fuel : nat.

(** A storage call made by the implementation (serializer.rs:511 storage_mut, and the push_raw /
    push_empty methods, serializer.rs:352-436): any safe method of Storage (GenStorage.v).
    SIMPLIFICATION: as in Client.v, a panic of such a call counts as one of the implementation's own. *)
Definition g_store_call (o : sop) : M (gz St) unit := fun z =>
  match g_run_op (r_st R) o (gz_st z) with
  | Ok _ w' => Ok tt (mkGZ w' (gz_map z) (gz_ptrs z))
  | Panic _ w' => Panic PUser (mkGZ w' (gz_map z) (gz_ptrs z))
  | Abort => Abort
  | UB => UB
  | OutOfFuel => OutOfFuel
  end.

(** One call of serialize_data on the serializer (serializer.rs:297-299 push_slice, :333-342
    push_and_process_slice, :365-367 push_raw_slice, :455 overwrite, :486 overwrite_with), the value being
    processed lying at address [a]. *)
Fixpoint g_run_step (a : N) (s : step) : M (gz St) unit :=
  match s with
  | SPush off l tp n body =>
      ad <- addr_from_ref_offset k a off ;;
      g_push_and_process_slice R k (slice_at m l tp n) ad
        ((fix go (ss : list step) : M (gz St) unit :=
            match ss with
            | [] => ret tt
            | s :: ss' => g_run_step tp s ;;; go ss'
            end) body) ;;;
      ret tt
  | SPushPlain off l tp n =>
      ad <- addr_from_ref_offset k a off ;;
      g_ser_push_slice R k (slice_at m l tp n) ad ;;;
      ret tt
  | SRaw l tp n => g_push_raw_slice R (slice_at m l tp n) ;;; ret tt
  | SOver off l data =>
      g_overwrite_with k (ad <- addr_from_ref_offset k a off ;; g_overwrite R k ad l data)
  | SField off t v => g_ser_data R k E m fuel t (a + off)
  | SStore o => g_store_call o
  | SPanic => panics PUser
  end.

(** The calls of a body, one after the other. *)
Fixpoint g_run_steps (a : N) (ss : list step) : M (gz St) unit :=
  match ss with
  | [] => ret tt
  | s :: ss' => g_run_step a s ;;; g_run_steps a ss'
  end.

(** serializer.rs:260-269 serialize_value, several times on the same serializer, then
    finalize (serializer.rs:491): values (layout, address) with the calls of their
    serialize_data. *)
Fixpoint g_client_values (rs : list (layout * N * list step)) : M (gz St) (list N) :=
  match rs with
  | [] => ret []
  | (l, a, ss) :: rs' =>
      pos <- g_serialize_value_with R k (slice_at m l a 1) (g_run_steps a ss) ;;
      ps <- g_client_values rs' ;;
      ret (pos :: ps)
  end.
Definition g_client_all (rs : list (layout * N * list step)) : M (gz St) (list N) :=
  ps <- g_client_values rs ;;
  g_finalize R k ;;;
  ret ps.

(** serializer.rs:217-221 serialize *)
Definition g_client_serialize (l : layout) (a : N) (ss : list step) : M (gz St) N :=
  pos <- g_serialize_value_with R k (slice_at m l a 1) (g_run_steps a ss) ;;
  g_finalize R k ;;;
  ret pos.

(** std::panic::catch_unwind around a call: a panic is reported as [None] and the
    serializer is in the state the panic left it in. *)
Definition g_catch {A} (f : M (gz St) A) : M (gz St) (option A) := fun z =>
  match f z with
  | Ok x z' => Ok (Some x) z'
  | Panic _ z' => Ok None z'
  | Abort => Abort
  | UB => UB
  | OutOfFuel => OutOfFuel
  end.

(** A client that serializes several values with serializer.serialize_value
    (serializer.rs:260-269), each under catch_unwind, whatever becomes of the others, having
    asked for serializer.pos() (serializer.rs:503-505) before, and then finalizes
    (serializer.rs:491). *)
Fixpoint g_attempt_all (rs : list (layout * N * list step)) : M (gz St) (list (N * option N)) :=
  match rs with
  | [] => ret []
  | (l, a, ss) :: rs' =>
      b <- gets (fun z => i_pos (r_st R) (gz_st z)) ;;
      r <- g_catch (g_serialize_value_with R k (slice_at m l a 1) (g_run_steps a ss)) ;;
      outs <- g_attempt_all rs' ;;
      ret ((b, r) :: outs)
  end.
Definition g_session (rs : list (layout * N * list step)) : M (gz St) (list (N * option N)) :=
  outs <- g_attempt_all rs ;;
  g_finalize R k ;;;
  ret outs.
End GenClient.
