(** * ProgDeleg: programs whose hand-written implementations hand parts of their value on to other implementations (Deleg.v),
    as programs of Prog.v.

    The same as Deleg.v with the memory accesses made explicit; a hand-written implementation first reads
    whatever it wants (ProgMixed.reader), then makes its calls, some of which run other implementations. *)
From Coq Require Import Arith.
From Verif Require Import Base Types Storage Serializer Serialize Client Derive DeriveSpec Mixed PropMixedSession Prog ProgSer ProgClient ProgMixed Deleg.
Local Open Scope N_scope.

Section ProgDeleg.
Context {P : Params} {L : Lexer}.
Variable mp : mprogram.
Variable k : kind.
Notation E := (mp_env mp).

(** serialize.rs:97-102, :137-142 (Deleg.dx_step) *)
Fixpoint h_dx_step (rec : ty -> N -> HM hz unit) (a : N) (s : step) : HM hz unit :=
  match s with
  | SPush off l tp n body =>
      ad <~ pu (addr_from_ref_offset k a off) ;;
      h_push_and_process_slice k (mkHslice l tp n) ad
        ((fix go (ss : list step) : HM hz unit :=
            match ss with
            | [] => hret tt
            | s :: ss' => h_dx_step rec tp s ;;~ go ss'
            end) body) ;;~
      hret tt
  | SField off t _ => rec t (a + off)
  | _ => h_run_step k E 0 a s
  end.
Fixpoint h_dx_steps (rec : ty -> N -> HM hz unit) (a : N) (ss : list step) : HM hz unit :=
  match ss with
  | [] => hret tt
  | s :: ss' => h_dx_step rec a s ;;~ h_dx_steps rec a ss'
  end.
(** A hand-written implementation, for the value at [a] (serialize.rs:97-102, :137-142). *)
Definition h_dx_impl (rec : ty -> N -> HM hz unit) (r : reader (list step)) (a : N) : HM hz unit :=
  ss <~ h_reader r ;; h_dx_steps rec a ss.

(** structs.rs:56-73, enums.rs:106-115 (Deleg.dx_callee, dx_exec, dx_derived) *)
Definition h_dx_callee (rec : ty -> N -> HM hz unit) (c : callee) (t : ty) (a : N) : HM hz unit :=
  match c with
  | CSerialize => rec t a
  | CWith w => h_dx_impl rec (mp_with mp w t a) a
  end.
Fixpoint h_dx_exec (rec : ty -> N -> HM hz unit) (fs : list (N * ty)) (a : N) (cs : list call) : HM hz unit :=
  match cs with
  | [] => hret tt
  | (c, n) :: cs' =>
      match nth_error fs n with
      | Some (off, t) => h_dx_callee rec c t (a + off) ;;~ h_dx_exec rec fs a cs'
      | None => pu (panics PAssert)
      end
  end.
Definition h_dx_derived (rec : ty -> N -> HM hz unit) (i : input) (v : option nat) (fs : list (N * ty)) (a : N) : HM hz unit :=
  match generated i v with
  | Some cs => h_dx_exec rec fs a cs
  | None => pu (panics PAssert)
  end.

(** <T as Serialize>::serialize_data (primitives.rs:9, ptrs.rs:12-104, multiples.rs:8-26, other.rs:8-12, and the types of the
    program), as Deleg.dx_data. *)
Fixpoint h_dx_data (fuel : nat) (t : ty) (a : N) : HM hz unit :=
  match fuel with
  | O => fun _ => Done OutOfFuel
  | S fuel' =>
      match t with
      | TPrim _ _ => hret tt
      | TBox t' => h_ser_box k E t' a (h_dx_data fuel')
      | TVec vl t' => h_ser_vec k E vl t' a (h_dx_data fuel')
      | TString vl => h_ser_string k vl a
      | TArray t' n => h_for_elems (N.to_nat n) a (size_of E t') (h_dx_data fuel' t')
      | TStruct _ fs => h_for_fields fs a (h_dx_data fuel')
      | TEnum _ d vss =>
          v <~ h_variant a d ;;
          match nth_error vss v with
          | Some fs => h_for_fields fs a (h_dx_data fuel')
          | None => hub
          end
      | TNamed id =>
          match mp_hand mp id, mp_derived mp id, E id with
          | Some h, _, _ => h_dx_impl (h_dx_data fuel') (h a) a
          | None, Some i, Some (TStruct _ fs) => h_dx_derived (h_dx_data fuel') i None fs a
          | None, Some i, Some (TEnum _ d vss) =>
              v <~ h_variant a d ;;
              match nth_error vss v with
              | Some fs => h_dx_derived (h_dx_data fuel') i (Some v) fs a
              | None => hub
              end
          | _, _, _ => pu (panics PAssert)
          end
      end
  end.

(** serializer.rs:260-269 serialize_value of several values, each under catch_unwind, then finalize
    (serializer.rs:491), as Deleg.dx_session. *)
Variable f : nat.
Fixpoint h_dx_attempt_all (xs : list (ty * N)) : HM hz (list (N * option N)) :=
  match xs with
  | [] => hret []
  | (t, a) :: xs' =>
      b <~ h_ser_pos ;;
      r <~ Prog.catch (h_serialize_value_with k (mkHslice (layout_of E t) a 1) (h_dx_data f t a)) ;;
      outs <~ h_dx_attempt_all xs' ;;
      hret ((b, r) :: outs)
  end.
Definition h_dx_session (xs : list (ty * N)) : HM hz (list (N * option N)) :=
  outs <~ h_dx_attempt_all xs ;;
  h_finalize k ;;~
  hret outs.
End ProgDeleg.

(** What a client does with its storage (ProgMixed.mphase, mclient), the implementations handing values on. *)
Section Phases.
Context {P : Params} {L : Lexer}.

(** serializer.rs:217-269, :491, :519; storage/mod.rs:196-215. The result: what each session gave. *)
Fixpoint h_run_dphases (mp : mprogram) (f : nat) (phs : list mphase) : HM hz (list (list (N * option N))) :=
  match phs with
  | [] => hret []
  | MOps os :: phs' => hlift (h_run_ops os) ;;~ h_run_dphases mp f phs'
  | MSer k xs :: phs' =>
      h_from_storage ;;~
      outs <~ h_dx_session mp k f xs ;;
      rest <~ h_run_dphases mp f phs' ;;
      hret (outs :: rest)
  end.
(** storage/mod.rs:196-215; the storage dropped, if it is, by <AlignedVec as Drop>::drop (aligned_vec.rs). *)
Definition h_dclient (mp : mprogram) (f : nat) (cl : mclient) : HM hz (list (list (N * option N))) :=
  hlift (h_with_capacity (mc_cap cl)) ;;~
  r <~ h_run_dphases mp f (mc_phases cl) ;;
  (if mc_drop cl then hlift h_drop else hret tt) ;;~
  hret r.

(** The same in the model of Storage.v, Serializer.v, Deleg.v. *)
Fixpoint run_dphases (m : mem) (mp : mprogram) (f : nat) (phs : list mphase) : M zs (list (list (N * option N))) :=
  match phs with
  | [] => ret []
  | MOps os :: phs' => lift (run_ops (map (op_of m) os)) ;;; run_dphases m mp f phs'
  | MSer k xs :: phs' =>
      (set_map map_dummy ;;; set_ptrs ptrs_new) ;;;
      outs <- dx_session (at_memory mp) k m f xs ;;
      rest <- run_dphases m mp f phs' ;;
      ret (outs :: rest)
  end.
Definition run_dclient (m : mem) (mp : mprogram) (f : nat) (cl : mclient) : M zs (list (list (N * option N))) :=
  lift (with_capacity (mc_cap cl)) ;;;
  r <- run_dphases m mp f (mc_phases cl) ;;
  (if mc_drop cl then lift drop_store else ret tt) ;;;
  ret r.
End Phases.
