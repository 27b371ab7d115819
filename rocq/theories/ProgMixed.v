(** * ProgMixed: programs that mix derived, built-in and hand-written implementations (Mixed.v), as
    programs of Prog.v.

    The same as Mixed.v with the memory accesses made explicit.  A hand-written implementation reads
    of the value, and of what it points to, whatever it wants, one read depending on the
    others, and then makes its calls. *)
From Coq Require Import Arith.
From Verif Require Import Base Types Storage Serializer Serialize Client Derive DeriveSpec Mixed PropMixedSession Prog ProgSer ProgClient.
Local Open Scope N_scope.

(** Code that reads memory through references: [RLoad a n k] reads [n] bytes at [a] and goes on with [k]. *)
Inductive reader (A : Type) : Type :=
| RDone (x : A)
| RLoad (addr n : N) (k : list cell -> reader A).
Arguments RDone {A}.
Arguments RLoad {A}.
(** ... when nobody changes the memory. *)
Fixpoint read_all {A} (m : mem) (r : reader A) : A :=
  match r with
  | RDone x => x
  | RLoad a n k => read_all m (k (cells m a n))
  end.
(** ... as instructions. *)
Fixpoint h_reader {A} (r : reader A) (s : hz) : prog hz A :=
  match r with
  | RDone x => Done (Ok x s)
  | RLoad a n k => ILoad a n (fun c => h_reader (k c) s)
  end.

(** A program: as Mixed.program, the hand-written implementations (serialize.rs:97-102, :137-142) given by what they read
    and the calls they then make. *)
Record mprogram := mkMprogram {
  mp_env : tenv;
  mp_derived : nat -> option input;
  mp_hand : nat -> option (N -> reader (list step));
  mp_with : path -> ty -> N -> reader (list step)
}.
(** The program of Mixed.v it is. *)
Definition at_memory (mp : mprogram) : program := {|
  pr_env := mp_env mp;
  pr_derived := mp_derived mp;
  pr_hand := fun id => option_map (fun h m a => read_all m (h a)) (mp_hand mp id);
  pr_with := fun w t m a => read_all m (mp_with mp w t a) |}.

Section ProgMixed.
Context {P : Params} {L : Lexer}.
Variable mp : mprogram.
Variable k : kind.
Variable sf : nat.
Notation E := (mp_env mp).

(** A hand-written implementation, for the value at [a]. *)
Definition h_impl (r : reader (list step)) (a : N) : HM hz unit :=
  ss <~ h_reader r ;; h_run_steps k E sf a ss.

(** structs.rs:56-73, enums.rs:106-115 (Mixed.callee_run, Mixed.exec, Mixed.exec_derived) *)
Definition h_callee_run (rec : ty -> N -> HM hz unit) (c : callee) (t : ty) (a : N) : HM hz unit :=
  match c with
  | CSerialize => rec t a
  | CWith w => h_impl (mp_with mp w t a) a
  end.
Fixpoint h_exec (rec : ty -> N -> HM hz unit) (fs : list (N * ty)) (a : N) (cs : list call) : HM hz unit :=
  match cs with
  | [] => hret tt
  | (c, n) :: cs' =>
      match nth_error fs n with
      | Some (off, t) => h_callee_run rec c t (a + off) ;;~ h_exec rec fs a cs'
      | None => pu (panics PAssert)
      end
  end.
Definition h_exec_derived (rec : ty -> N -> HM hz unit) (i : input) (v : option nat) (fs : list (N * ty)) (a : N) : HM hz unit :=
  match generated i v with
  | Some cs => h_exec rec fs a cs
  | None => pu (panics PAssert)
  end.

(** <T as Serialize>::serialize_data (primitives.rs:9, ptrs.rs:12-104, multiples.rs:8-26, other.rs:8-12, and the types of the
    program), as Mixed.mx_data. *)
Fixpoint h_mx_data (fuel : nat) (t : ty) (a : N) : HM hz unit :=
  match fuel with
  | O => fun _ => Done OutOfFuel
  | S fuel' =>
      match t with
      | TPrim _ _ => hret tt
      | TBox t' => h_ser_box k E t' a (h_mx_data fuel')
      | TVec vl t' => h_ser_vec k E vl t' a (h_mx_data fuel')
      | TString vl => h_ser_string k vl a
      | TArray t' n => h_for_elems (N.to_nat n) a (size_of E t') (h_mx_data fuel' t')
      | TStruct _ fs => h_for_fields fs a (h_mx_data fuel')
      | TEnum _ d vss =>
          v <~ h_variant a d ;;
          match nth_error vss v with
          | Some fs => h_for_fields fs a (h_mx_data fuel')
          | None => hub
          end
      | TNamed id =>
          match mp_hand mp id, mp_derived mp id, E id with
          | Some h, _, _ => h_impl (h a) a
          | None, Some i, Some (TStruct _ fs) => h_exec_derived (h_mx_data fuel') i None fs a
          | None, Some i, Some (TEnum _ d vss) =>
              v <~ h_variant a d ;;
              match nth_error vss v with
              | Some fs => h_exec_derived (h_mx_data fuel') i (Some v) fs a
              | None => hub
              end
          | _, _, _ => pu (panics PAssert)
          end
      end
  end.

(** serializer.rs:260-269 serialize_value of several values, each under catch_unwind, then finalize
    (serializer.rs:491), as PropMixedSession.mx_session. *)
Variable f : nat.
Fixpoint h_mx_attempt_all (xs : list (ty * N)) : HM hz (list (N * option N)) :=
  match xs with
  | [] => hret []
  | (t, a) :: xs' =>
      b <~ h_ser_pos ;;
      r <~ Prog.catch (h_serialize_value_with k (mkHslice (layout_of E t) a 1) (h_mx_data f t a)) ;;
      outs <~ h_mx_attempt_all xs' ;;
      hret ((b, r) :: outs)
  end.
Definition h_mx_session (xs : list (ty * N)) : HM hz (list (N * option N)) :=
  outs <~ h_mx_attempt_all xs ;;
  h_finalize k ;;~
  hret outs.
End ProgMixed.

(** What a client does with its storage, one after the other (as ProgClient.phase): calls of the storage, each under
    catch_unwind; or sessions (from_storage: serializers/pure_copy.rs:114, ptr_offset.rs:110, complete.rs:138; into_storage:
    serializer.rs:519) in which values of types of the program are serialized. *)
Inductive mphase :=
| MOps (os : list hop)
| MSer (k : kind) (xs : list (ty * N)).
Record mclient := mkMclient { mc_cap : N; mc_phases : list mphase; mc_drop : bool }.

Section Phases.
Context {P : Params} {L : Lexer}.

(** serializer.rs:217-269, :491, :519; storage/mod.rs:196-215. The result: what each session gave. *)
Fixpoint h_run_mphases (mp : mprogram) (sf f : nat) (phs : list mphase) : HM hz (list (list (N * option N))) :=
  match phs with
  | [] => hret []
  | MOps os :: phs' => hlift (h_run_ops os) ;;~ h_run_mphases mp sf f phs'
  | MSer k xs :: phs' =>
      h_from_storage ;;~
      outs <~ h_mx_session mp k sf f xs ;;
      rest <~ h_run_mphases mp sf f phs' ;;
      hret (outs :: rest)
  end.
Definition h_mclient (mp : mprogram) (sf f : nat) (cl : mclient) : HM hz (list (list (N * option N))) :=
  hlift (h_with_capacity (mc_cap cl)) ;;~
  r <~ h_run_mphases mp sf f (mc_phases cl) ;;
  (if mc_drop cl then hlift h_drop else hret tt) ;;~
  hret r.

(** The same in the model of Storage.v, Serializer.v, Mixed.v. *)
Fixpoint run_mphases (m : mem) (mp : mprogram) (sf f : nat) (phs : list mphase) : M zs (list (list (N * option N))) :=
  match phs with
  | [] => ret []
  | MOps os :: phs' => lift (run_ops (map (op_of m) os)) ;;; run_mphases m mp sf f phs'
  | MSer k xs :: phs' =>
      (set_map map_dummy ;;; set_ptrs ptrs_new) ;;;
      outs <- mx_session (at_memory mp) k m sf f xs ;;
      rest <- run_mphases m mp sf f phs' ;;
      ret (outs :: rest)
  end.
Definition run_mclient (m : mem) (mp : mprogram) (sf f : nat) (cl : mclient) : M zs (list (list (N * option N))) :=
  lift (with_capacity (mc_cap cl)) ;;;
  r <- run_mphases m mp sf f (mc_phases cl) ;;
  (if mc_drop cl then lift drop_store else ret tt) ;;;
  ret r.
End Phases.
