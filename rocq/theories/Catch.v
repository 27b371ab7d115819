(** * Catch: hand-written implementations that catch panics themselves.

    Nothing keeps serialize_data (ser_raw/src/serialize.rs:20-142) from calling std::panic::catch_unwind
    (with AssertUnwindSafe) around calls on the serializer and going on after a panic.  Over any storage (GenClient.v). *)
From Verif Require Import Base Types Storage Serializer Serialize Spec Client ClientSpec GenStorage GenSpec GenSerializer GenSerSpec GenClient GenClientSpec.
Local Open Scope N_scope.

(** A call, or calls inside a catch_unwind.
    [CCall s]: a call (Client.v step).
    [CPush off l tp n body]: serializer.push_and_process_slice (serializer.rs:333-342) with a closure that may catch panics.
    [CTry restore body]: let before = *serializer.pos_mapping(); _ = catch_unwind(|| body); and then, if [restore],
      serializer.set_pos_mapping(before) (serializer_traits/pos_tracking.rs:13-16), which an implementation for
      serializers that are PosTracking can call. *)
Inductive cstep :=
| CCall (s : step)
| CPush (off : N) (l : layout) (tp n : N) (body : list cstep)
| CTry (restore : bool) (body : list cstep).

(** ** Running *)
Section Run.
Context {P : Params}.
Context {St : Type}.
Variable R : ra_impl St.
Variable k : kind.
Variable E : tenv.
Variable m : mem.
Variable fuel : nat.

Fixpoint c_run_step (a : N) (c : cstep) : M (gz St) unit :=
  match c with
  | CCall s => g_run_step R k E m fuel a s
  | CPush off l tp n body =>
      ad <- addr_from_ref_offset k a off ;;
      g_push_and_process_slice R k (slice_at m l tp n) ad
        ((fix go (cs : list cstep) : M (gz St) unit :=
            match cs with
            | [] => ret tt
            | c :: cs' => c_run_step tp c ;;; go cs'
            end) body) ;;;
      ret tt
  | CTry restore body =>
      before <- gets gz_map ;;
      g_catch ((fix go (cs : list cstep) : M (gz St) unit :=
            match cs with
            | [] => ret tt
            | c :: cs' => c_run_step a c ;;; go cs'
            end) body) ;;;
      if restore then g_set_map before else ret tt
  end.
Fixpoint c_run_steps (a : N) (cs : list cstep) : M (gz St) unit :=
  match cs with
  | [] => ret tt
  | c :: cs' => c_run_step a c ;;; c_run_steps a cs'
  end.

(** serializer.rs:260-269 serialize_value, several times, each under catch_unwind, then finalize (serializer.rs:491):
    g_attempt_all and g_session (GenClient.v) with such implementations. *)
Fixpoint c_attempt_all (rs : list (layout * N * list cstep)) : M (gz St) (list (N * option N)) :=
  match rs with
  | [] => ret []
  | (l, a, cs) :: rs' =>
      b <- gets (fun z => i_pos (r_st R) (gz_st z)) ;;
      r <- g_catch (g_serialize_value_with R k (slice_at m l a 1) (c_run_steps a cs)) ;;
      outs <- c_attempt_all rs' ;;
      ret ((b, r) :: outs)
  end.
(** serializer.rs:491 finalize *)
Definition c_session (rs : list (layout * N * list cstep)) : M (gz St) (list (N * option N)) :=
  outs <- c_attempt_all rs ;;
  g_finalize R k ;;;
  ret outs.
End Run.

(** ** Specification: the rules *)
Section Rules.
Context {P : Params}.
Variable empties : bool.
Variable k : kind.
Variable E : tenv.
Variable m : mem.
Variable fuel : nat.

(** Byte [i] of the value being processed is one that a call changes. *)
Fixpoint c_touched (c : cstep) (i : N) : Prop :=
  match c with
  | CCall s => touched E s i
  | CPush off _ _ _ _ => off <= i /\ i < off + pW
  | CTry _ body => (fix any (cs : list cstep) : Prop := match cs with [] => False | c :: cs' => c_touched c i \/ any cs' end) body
  end.
(** A call that needs to know where in the output the value being processed is: all but pushes without a pointer, storage
    calls and panics. *)
Fixpoint placed (c : cstep) : bool :=
  match c with
  | CCall (SRaw _ _ _ | SStore _ | SPanic) => false
  | CCall _ | CPush _ _ _ _ _ => true
  | CTry _ body => existsb placed body
  end.
(** A call in which a panic may occur while another slice is being processed, so that the serializer takes that slice for the one
    being processed if the panic is caught and nothing is done about it. *)
Fixpoint dives (c : cstep) : bool :=
  match c with
  | CCall (SPush _ _ _ _ _ | SField _ _ _) | CPush _ _ _ _ _ => true
  | CCall _ => false
  | CTry restore body => if restore then false else existsb dives body
  end.
Definition unsettles (c : cstep) : bool :=
  match c with CTry false body => existsb dives body | _ => false end.

(** May a panic of the implementation's own, or of a storage call it makes, come out of the call? *)
Fixpoint c_may_panic (c : cstep) : bool :=
  match c with
  | CCall s => may_panic s
  | CPush _ _ _ _ body => existsb c_may_panic body
  | CTry _ _ => false
  end.

(** The calls out of which a panic comes: all but those in a catch_unwind.  A push with a closure first makes room for what it
    pushes, as one without. *)
Fixpoint exposed (c : cstep) : list step :=
  match c with
  | CCall s => [s]
  | CPush off l tp n body => SPushPlain off l tp n :: flat_map exposed body
  | CTry _ _ => []
  end.
(** serialize_value pushes the value, then its implementation runs. *)
Definition root_exposed (r : layout * N * list cstep) : list step :=
  let '(l, a, cs) := r in SRaw l a 1 :: flat_map exposed cs.

(** The rules of [step_ok] (ClientSpec.v) and [proper] (GenClientSpec.v) for the calls; and with a serializer that writes pointers,
    after a catch_unwind around such a call, and until the closure ends, no call that needs to know the place, unless the
    mapping is restored. *)
Inductive cstep_ok : N -> N -> N -> cstep -> Prop :=
| CO_call size al a s :
    step_ok E m fuel size al a s -> proper empties s -> cstep_ok size al a (CCall s)
| CO_push size al a off l tp n body :
    off + pW <= size -> (pW | off) -> (pW | al) -> slice_ok l tp n -> plain_slice l n = true ->
    csteps_ok (l_size l * n) (l_align l) tp body ->
    cstep_ok size al a (CPush off l tp n body)
| CO_try size al a restore body :
    csteps_ok size al a body -> cstep_ok size al a (CTry restore body)
with csteps_ok : N -> N -> N -> list cstep -> Prop :=
| COS_nil size al a : csteps_ok size al a []
| COS_cons size al a c cs :
    cstep_ok size al a c ->
    (forall c' i, In c' cs -> c_touched c i -> ~ c_touched c' i) ->
    (tracking k = true -> unsettles c = true -> existsb placed cs = false) ->
    csteps_ok size al a cs ->
    csteps_ok size al a (c :: cs).

Definition c_root_in (r : layout * N * list cstep) : Prop :=
  let '(l, a, cs) := r in
  good_layout l /\ 0 < l_size l /\ a + l_size l <= umod /\ csteps_ok (l_size l) (l_align l) a cs.

(** ** Specification: the output *)
(** [refused b e]: the storage may refuse to make room for something that is to start at position [b] or later and to end at
    [e] at most.  [hit calls lo hi]: for one of these calls, made at a position between [lo] and [hi], it may. *)
Variable refused : N -> N -> Prop.
Definition hit (calls : list step) (lo hi : N) : Prop :=
  exists s b, In s calls /\ lo <= b /\ b <= hi /\ refused b (step_end E b s).
(** [c_image p a cur c e]: the calls of [c] that returned have their images ([image] of ClientSpec.v), the value being processed lying at
    [a] in the input and at position [p] of the output; [cur], [e]: the positions before and after.  A catch_unwind
    catches a panic only if there is one in what it is around, or the storage refuses to make room for one of the calls in it;
    then nothing is said but that the output goes on at a later position. *)
Variable Mo : mem.
Variable B : N.
Inductive c_image : N -> N -> N -> cstep -> N -> Prop :=
| CI_call p a cur s : image k E m Mo B p a cur s -> c_image p a cur (CCall s) (step_end E cur s)
| CI_push p a cur off l tp n body e :
    points k m Mo B p a off l n (slice_pos cur l) ->
    c_region (slice_pos cur l) tp (l_size l * n) (slice_end cur l n) body e ->
    c_image p a cur (CPush off l tp n body) e
| CI_try p a cur restore body e : c_images p a cur body e -> c_image p a cur (CTry restore body) e
| CI_caught p a cur restore body e :
    existsb c_may_panic body = true \/ hit (flat_map exposed body) cur e ->
    cur <= e -> (VA | e) -> c_image p a cur (CTry restore body) e
with c_images : N -> N -> N -> list cstep -> N -> Prop :=
| CIS_nil p a cur : c_images p a cur [] cur
| CIS_cons p a cur c cs e e' : c_image p a cur c e -> c_images p a e cs e' -> c_images p a cur (c :: cs) e'
with c_region : N -> N -> N -> N -> list cstep -> N -> Prop :=
| CI_region p a size cur cs e :
    (forall i, i < size -> (forall c, In c cs -> ~ c_touched c i) -> Mo (B + (p + i)) = m (a + i)) ->
    c_images p a cur cs e ->
    c_region p a size cur cs e.

(** Several values, each under catch_unwind ([g_attempts] of GenClientSpec.v): a value whose call returned has its image. *)
Inductive c_attempts : N -> list (layout * N * list cstep) -> list (N * option N) -> N -> Prop :=
| CA_nil b : c_attempts b [] [] b
| CA_some b l a cs rs outs b' e :
    c_region (push_start b l) a (l_size l) (push_end b l 1) cs b' -> b < b' ->
    c_attempts b' rs outs e ->
    c_attempts b ((l, a, cs) :: rs) ((b, Some (push_start b l)) :: outs) e
| CA_none b l a cs rs outs e b' :
    existsb c_may_panic cs = true \/ hit (root_exposed (l, a, cs)) b b' ->
    b <= b' -> (VA | b') -> c_attempts b' rs outs e ->
    c_attempts b ((l, a, cs) :: rs) ((b, None) :: outs) e.
End Rules.
