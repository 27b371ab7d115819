(** * React: hand-written implementations that use what the serializer returns: the positions (C101). *)
From Verif Require Import Base Types Storage Serializer Serialize Client Spec ClientSpec GenStorage GenSerializer GenClient.
Local Open Scope N_scope.

(** An implementation of serialize_data (serialize.rs:97-102) that goes on according to the positions it is given:
    [RAsk next]: serializer.pos() (serializer.rs:503-505) returns a position, and then [next] of it;
    [RCall s next]: a call, as in Client.v; the position push_slice (serializer.rs:297-299), push_raw_slice (:365-367) or
      push_and_process_slice (:333-342) returns goes to [next] (0 if the call returns none);
    [RPush off l tp n body next]: push_and_process_slice with a closure that does so too.
    SIMPLIFICATION: what the closure is given is not handed on to [next], which can ask for the position itself; the position a method
    of Storage returns (storage/mod.rs) is not handed on. *)
Inductive reacts :=
| RDone
| RAsk (next : N -> reacts)
| RCall (s : step) (next : N -> reacts)
| RPush (off : N) (l : layout) (tp n : N) (body : reacts) (next : N -> reacts).

Section React.
Context {P : Params}.
Context {St : Type}.
Variable R : ra_impl St.
Variable k : kind.
Variable E : tenv.
Variable m : mem.
Variable fuel : nat.

(** A call and the position it returns (serializer.rs:297-299, :333-342, :365-367); [g_run_step] (GenClient.v) with it. *)
Definition r_call (a : N) (s : step) : M (gz St) N :=
  match s with
  | SPush off l tp n body =>
      ad <- addr_from_ref_offset k a off ;;
      g_push_and_process_slice R k (slice_at m l tp n) ad (g_run_steps R k E m fuel tp body)
  | SPushPlain off l tp n =>
      ad <- addr_from_ref_offset k a off ;;
      g_ser_push_slice R k (slice_at m l tp n) ad
  | SRaw l tp n => g_push_raw_slice R (slice_at m l tp n)
  | _ => g_run_step R k E m fuel a s ;;; ret 0
  end.
(** serialize.rs:97-102: the body of such an implementation, the value being processed lying at [a]. *)
Fixpoint r_run (a : N) (p : reacts) : M (gz St) unit :=
  match p with
  | RDone => ret tt
  | RAsk next => b <- gets (fun z => i_pos (r_st R) (gz_st z)) ;; r_run a (next b)
  | RCall s next => x <- r_call a s ;; r_run a (next x)
  | RPush off l tp n body next =>
      ad <- addr_from_ref_offset k a off ;;
      x <- g_push_and_process_slice R k (slice_at m l tp n) ad (r_run tp body) ;;
      r_run a (next x)
  end.

(** serializer.rs:260-269 serialize_value, several times on the same serializer, then finalize (serializer.rs:491); as [g_client_all]. *)
Fixpoint r_values (xs : list (layout * N * reacts)) : M (gz St) (list N) :=
  match xs with
  | [] => ret []
  | (l, a, p) :: xs' =>
      pos <- g_serialize_value_with R k (slice_at m l a 1) (r_run a p) ;;
      ps <- r_values xs' ;;
      ret (pos :: ps)
  end.
Definition r_all (xs : list (layout * N * reacts)) : M (gz St) (list N) :=
  ps <- r_values xs ;;
  g_finalize R k ;;;
  ret ps.

(** Many values, each under catch_unwind, then finalize; as [g_session] (serializer.rs:260-269, :491, :503-505). *)
Fixpoint r_attempt_all (xs : list (layout * N * reacts)) : M (gz St) (list (N * option N)) :=
  match xs with
  | [] => ret []
  | (l, a, p) :: xs' =>
      b <- gets (fun z => i_pos (r_st R) (gz_st z)) ;;
      r <- g_catch (g_serialize_value_with R k (slice_at m l a 1) (r_run a p)) ;;
      outs <- r_attempt_all xs' ;;
      ret ((b, r) :: outs)
  end.
Definition r_session (xs : list (layout * N * reacts)) : M (gz St) (list (N * option N)) :=
  outs <- r_attempt_all xs ;;
  g_finalize R k ;;;
  ret outs.
End React.

(** ** Specification *)
Section Spec.
Context {P : Params}.
Variable E : tenv.
(** The position a call returns, [cur] being the position before it: where the slice goes. *)
Definition answer (cur : N) (s : step) : N :=
  match s with
  | SPush _ l _ _ _ | SPushPlain _ l _ _ | SRaw l _ _ => slice_pos cur l
  | _ => 0
  end.
(** The calls such an implementation makes if it starts at position [cur], the positions being the right ones. *)
Fixpoint calls_from (cur : N) (p : reacts) : list step :=
  match p with
  | RDone => []
  | RAsk next => calls_from cur (next cur)
  | RCall s next => s :: calls_from (step_end E cur s) (next (answer cur s))
  | RPush off l tp n body next =>
      let s := SPush off l tp n (calls_from (slice_end cur l n) body) in
      s :: calls_from (step_end E cur s) (next (slice_pos cur l))
  end.
(** Of several values, one after the other from position [cur] on. *)
Fixpoint roots_from (cur : N) (xs : list (layout * N * reacts)) : list (layout * N * list step) :=
  match xs with
  | [] => []
  | (l, a, p) :: xs' =>
      let ss := calls_from (push_end cur l 1) p in
      (l, a, ss) :: roots_from (steps_end E (push_end cur l 1) ss) xs'
  end.
(** Of several values, each having started at the position the session reports with it. *)
Definition root_at (x : layout * N * reacts) (b : N) : layout * N * list step :=
  let '(l, a, p) := x in (l, a, calls_from (push_end b l 1) p).
Definition roots_at (xs : list (layout * N * reacts)) (outs : list (N * option N)) : list (layout * N * list step) :=
  map (fun xo => root_at (fst xo) (fst (snd xo))) (combine xs outs).
End Spec.
