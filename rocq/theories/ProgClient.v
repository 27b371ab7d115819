(** * ProgClient: hand-written Serialize implementations as programs of Prog.v.

    The same as Client.v with the memory accesses made explicit: what is pushed is copied from
    where it is, by [ICopy]; what storage calls push is data of the implementation's own (local
    variables), stored by [IStore]. *)
From Verif Require Import Base Types Storage Serializer Serialize Client Prog ProgSer.
Local Open Scope N_scope.

Section ProgClient.
Context {P : Params}.

(** A call on serializer.storage_mut() (serializer.rs:511; storage/mod.rs:249-470), the data
    pushed being in local variables of the implementation. *)
Definition h_run_sop (o : sop) : HM hdr (option N) :=
  let some_pos m := (p <~ m ;; hret (Some p)) in
  let no_pos m := (m ;;~ hret None) in
  match o with
  | OPush l d => some_pos (h_push l (SLocal d))
  | OPushSlice l n d => some_pos (h_push_slice l n (SLocal d))
  | OPushBytes n d => some_pos (h_push_bytes n (SLocal d))
  | OPushEmpty l => some_pos (h_push_empty l)
  | OPushEmptySlice l n => some_pos (h_push_empty_slice l n)
  | OReserve n => no_pos (h_reserve n)
  | OAlignFor l => no_pos (h_align_for l)
  | OAlignAfter l => no_pos (h_align_after l)
  | OAlignAfterAny => no_pos h_align_after_any
  | OClear => no_pos h_clear
  | OShrink => no_pos h_shrink_to_fit
  end.

(** As Client.store_call: a panic of the call is a panic of the implementation. *)
Definition h_store_call (o : sop) : HM hz unit :=
  fun z => pthen (fun _ z' => Done (Ok tt z')) (fun _ z' => Done (Panic PUser z')) (hlift (h_run_sop o) z).

Variable k : kind.
Variable E : tenv.
Variable fuel : nat.

(** One call made by an implementation (the calls: Client.v; serializer.rs:282-299, :312-342,
    :365-367, :455, :486, :511), the value processed lying at [a]. *)
Fixpoint h_run_step (a : N) (s : step) : HM hz unit :=
  match s with
  | SPush off l tp n body =>
      ad <~ pu (addr_from_ref_offset k a off) ;;
      h_push_and_process_slice k (mkHslice l tp n) ad
        ((fix go (ss : list step) : HM hz unit :=
            match ss with
            | [] => hret tt
            | s :: ss' => h_run_step tp s ;;~ go ss'
            end) body) ;;~
      hret tt
  | SPushPlain off l tp n =>
      ad <~ pu (addr_from_ref_offset k a off) ;;
      h_ser_push_slice k (mkHslice l tp n) ad ;;~
      hret tt
  | SRaw l tp n => h_push_raw_slice (mkHslice l tp n) ;;~ hret tt
  | SOver off l data =>
      h_overwrite_with k (ad <~ pu (addr_from_ref_offset k a off) ;; h_overwrite k ad l data)
  | SField off t v => h_ser_data k E fuel t (a + off)
  | SStore o => h_store_call o
  | SPanic => pu (panics PUser)
  end.
Fixpoint h_run_steps (a : N) (ss : list step) : HM hz unit :=
  match ss with
  | [] => hret tt
  | s :: ss' => h_run_step a s ;;~ h_run_steps a ss'
  end.

(** serializer.rs:503-505  pos() *)
Definition h_ser_pos : HM hz N := pu (gets (fun z => h_pos (hz_h z))).

(** serializer.rs:260-269 serialize_value of several values, each under catch_unwind, then
    finalize (serializer.rs:491). *)
Fixpoint h_attempt_all (rs : list (layout * N * list step)) : HM hz (list (N * option N)) :=
  match rs with
  | [] => hret []
  | (l, a, ss) :: rs' =>
      b <~ h_ser_pos ;;
      r <~ Prog.catch (h_serialize_value_with k (mkHslice l a 1) (h_run_steps a ss)) ;;
      outs <~ h_attempt_all rs' ;;
      hret ((b, r) :: outs)
  end.
Definition h_session (rs : list (layout * N * list step)) : HM hz (list (N * option N)) :=
  outs <~ h_attempt_all rs ;;
  h_finalize k ;;~
  hret outs.
End ProgClient.

(** What a client does with its storage, one after the other: calls of the storage, each under
    catch_unwind; or a serializer is made from it (from_storage: serializers/pure_copy.rs:114,
    ptr_offset.rs:110, complete.rs:138), values (layout, address, calls of the
    implementation) are serialized, each under catch_unwind, and finalize gives the storage back
    (serializer.rs:491-493, :519). *)
Inductive phase :=
| PhOps (os : list hop)
| PhSer (k : kind) (rs : list (layout * N * list step)).

(** The client makes the storage (AlignedVec::with_capacity), and at last may drop it. *)
Record iclient := mkIclient { ic_cap : N; ic_phases : list phase; ic_drop : bool }.

Section Phases.
Context {P : Params}.

(** The result: what each session gave. *)
Fixpoint h_run_phases (E : tenv) (fuel : nat) (phs : list phase) : HM hz (list (list (N * option N))) :=
  match phs with
  | [] => hret []
  | PhOps os :: phs' => hlift (h_run_ops os) ;;~ h_run_phases E fuel phs'
  | PhSer k rs :: phs' =>
      h_from_storage ;;~
      outs <~ h_session k E fuel rs ;;
      rest <~ h_run_phases E fuel phs' ;;
      hret (outs :: rest)
  end.
Definition h_iclient (E : tenv) (fuel : nat) (cl : iclient) : HM hz (list (list (N * option N))) :=
  hlift (h_with_capacity (ic_cap cl)) ;;~
  r <~ h_run_phases E fuel (ic_phases cl) ;;
  (if ic_drop cl then hlift h_drop else hret tt) ;;~
  hret r.

(** The same in the model of Storage.v, Serializer.v, Client.v (storage/mod.rs:196-215;
    serializer.rs:217-269, :491, :519). *)
Fixpoint run_phases (m : mem) (E : tenv) (fuel : nat) (phs : list phase) : M zs (list (list (N * option N))) :=
  match phs with
  | [] => ret []
  | PhOps os :: phs' => lift (run_ops (map (op_of m) os)) ;;; run_phases m E fuel phs'
  | PhSer k rs :: phs' =>
      (set_map map_dummy ;;; set_ptrs ptrs_new) ;;;
      outs <- session k E m fuel rs ;;
      rest <- run_phases m E fuel phs' ;;
      ret (outs :: rest)
  end.
Definition run_iclient (m : mem) (E : tenv) (fuel : nat) (cl : iclient) : M zs (list (list (N * option N))) :=
  lift (with_capacity (ic_cap cl)) ;;;
  r <- run_phases m E fuel (ic_phases cl) ;;
  (if ic_drop cl then lift drop_store else ret tt) ;;;
  ret r.
End Phases.
