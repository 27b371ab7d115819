(** * ClientSpec: what a hand-written Serialize implementation may do, and what its
    output must be.  Uses the vocabulary of Base, Types, Spec and the type [step] of
    Client only. *)
From Verif Require Import Base Types Storage Serializer Spec Client.
Local Open Scope N_scope.

Section ClientSpec.
Context {P : Params}.
Variable k : kind.
Variable E : tenv.
Variable m : mem.
Variable fuel : nat.

(** The bytes of the enclosing value a call changes: offset and size. *)
Definition touch (s : step) : option (N * N) :=
  match s with
  | SPush off _ _ _ _ | SPushPlain off _ _ _ => Some (off, pW)
  | SOver off l _ => Some (off, l_size l)
  | SField off t _ => Some (off, size_of E t)
  | SRaw _ _ _ | SStore _ | SPanic => None
  end.
Definition touched (s : step) (i : N) : Prop :=
  match touch s with Some (off, n) => off <= i /\ i < off + n | None => False end.

(** Any slice.  It may be empty, or of a zero-sized type. *)
Definition slice_ok (l : layout) (tp n : N) : Prop :=
  good_layout l /\ l_size l * n <= imax /\ tp + l_size l * n <= umod.

(** Where the copy of a slice of [n] values of layout [l] goes when pushed at position [cur], the
    position after it, and the space taken: for a zero-sized type none, and the position given is 0. *)
Definition slice_pos (cur : N) (l : layout) : N := if l_size l =? 0 then 0 else push_start cur l.
Definition slice_end (cur : N) (l : layout) (n : N) : N := if l_size l =? 0 then cur else push_end cur l n.
Definition slice_list (l : layout) (n : N) : list (layout * N) := if l_size l =? 0 then [] else [(l, n)].

(** [step_ok size al a s]: a proper call, in the processing of [size] bytes at address
    [a] aligned to [al]: pointers pushed for, places overwritten and fields lie inside
    those bytes and are aligned, and no two calls are for overlapping places.  Storage calls are any but clear
    (C45, C53).  The pushes may be of empty slices: the unsound case of C13 does not arise, since the
    value being serialized is in the storage already. *)
Inductive step_ok : N -> N -> N -> step -> Prop :=
| OK_push size al a off l tp n body :
    off + pW <= size -> (pW | off) -> (pW | al) -> slice_ok l tp n ->
    steps_ok (l_size l * n) (l_align l) tp body ->
    step_ok size al a (SPush off l tp n body)
| OK_plain size al a off l tp n :
    off + pW <= size -> (pW | off) -> (pW | al) -> slice_ok l tp n ->
    step_ok size al a (SPushPlain off l tp n)
| OK_raw size al a l tp n :
    slice_ok l tp n -> step_ok size al a (SRaw l tp n)
| OK_over size al a off l data :
    good_layout l -> 0 < l_size l ->
    off + l_size l <= size -> (l_align l | off) -> (l_align l | al) ->
    step_ok size al a (SOver off l data)
| OK_field size al a off t v :
    wf_ty E t -> repr E any_header m t (a + off) v -> (vdepth v < fuel)%nat ->
    off + size_of E t <= size -> (align_of E t | off) -> (align_of E t | al) ->
    step_ok size al a (SField off t v)
| OK_store size al a o :
    op_valid o -> no_overflow o -> o <> OClear ->
    step_ok size al a (SStore o)
| OK_panic size al a : step_ok size al a SPanic
with steps_ok : N -> N -> N -> list step -> Prop :=
| OKS_nil size al a : steps_ok size al a []
| OKS_cons size al a s ss :
    step_ok size al a s ->
    (forall s' i, In s' ss -> touched s i -> ~ touched s' i) ->
    steps_ok size al a ss ->
    steps_ok size al a (s :: ss).

(** A value (layout, address) with a proper implementation. *)
Definition root_in (r : layout * N * list step) : Prop :=
  let '(l, a, ss) := r in
  good_layout l /\ 0 < l_size l /\ a + l_size l <= umod /\ steps_ok (l_size l) (l_align l) a ss.

(** The position after a call, or after several, [cur] being that before. *)
Fixpoint step_end (cur : N) (s : step) : N :=
  match s with
  | SPush _ l _ n body => fold_left (fun c s => step_end c s) body (slice_end cur l n)
  | SPushPlain _ l _ n | SRaw l _ n => slice_end cur l n
  | SOver _ _ _ | SPanic => cur
  | SField _ t v => end_pos cur (owned E t v)
  | SStore o => op_next cur o
  end.
Definition steps_end (cur : N) (ss : list step) : N := fold_left step_end ss cur.

(** May the implementation panic by itself (does it, or does it make storage calls)? *)
Fixpoint may_panic (s : step) : bool :=
  match s with
  | SPush _ _ _ _ body => existsb may_panic body
  | SStore _ | SPanic => true
  | _ => false
  end.

(** The slices an implementation that makes no storage calls pushes, in order. *)
Fixpoint step_slices (s : step) : list (layout * N) :=
  match s with
  | SPush _ l _ n body => slice_list l n ++ flat_map step_slices body
  | SPushPlain _ l _ n | SRaw l _ n => slice_list l n
  | SField _ t v => owned E t v
  | SOver _ _ _ | SPanic | SStore _ => []
  end.

(** The data a storage call is given to push. *)
Definition op_data (o : sop) : option (layout * N * mem) :=
  match o with
  | OPush l d => Some (l, 1, d)
  | OPushSlice l n d => Some (l, n, d)
  | OPushBytes n d => Some (u8_layout, n, d)
  | _ => None
  end.

(** ** What the output must be

    [Mo]: the output's memory, the output starting at address [B].  The [size] bytes being
    processed, at [a] in the input, have their copy at position [p]; the next
    allocation may start at position [cur]. *)
Variable Mo : mem.
Variable B : N.

Definition same_bytes (p a off n : N) : Prop :=
  forall i, off <= i -> i < off + n -> Mo (B + (p + i)) = m (a + i).

(** The pointer word at [off] points to the copy, at position [q], of [n] values.  It may be
    dereferenced (for zero-sized values unless the output starts at address 0). *)
Definition points (p a off : N) (l : layout) (n q : N) : Prop :=
  if tracking k then read_word Mo (B + (p + off)) = Some (B + q) /\ ((l_size l = 0 -> B <> 0) -> valid_ref l n (B + q))
  else same_bytes p a off pW.

Inductive image : N -> N -> N -> step -> Prop :=
| I_push p a cur off l tp n body :
    points p a off l n (slice_pos cur l) ->
    region (slice_pos cur l) tp (l_size l * n) (slice_end cur l n) body ->
    image p a cur (SPush off l tp n body)
| I_plain p a cur off l tp n :
    points p a off l n (slice_pos cur l) ->
    same_bytes (slice_pos cur l) tp 0 (l_size l * n) ->
    image p a cur (SPushPlain off l tp n)
| I_raw p a cur l tp n :
    same_bytes (slice_pos cur l) tp 0 (l_size l * n) ->
    image p a cur (SRaw l tp n)
| I_over p a cur off l data :
    (k = Complete -> forall i, i < l_size l -> Mo (B + (p + off + i)) = data i) ->
    (k <> Complete -> same_bytes p a off (l_size l)) ->
    image p a cur (SOver off l data)
| I_field p a cur off t v :
    (tracking k = true -> repr E any_header Mo t (B + (p + off)) v) ->
    (tracking k = false -> same_bytes p a off (size_of E t)) ->
    (forall f, (vdepth v < f)%nat ->
       decode E (mem_from Mo B) f t (p + off) cur = Some (v, end_pos cur (owned E t v))) ->
    image p a cur (SField off t v)
| I_store p a cur o :
    (forall l n data, op_data o = Some (l, n, data) ->
       forall i, i < l_size l * n -> Mo (B + (push_start cur l + i)) = data i) ->
    image p a cur (SStore o)
with images : N -> N -> N -> list step -> Prop :=
| IS_nil p a cur : images p a cur []
| IS_cons p a cur s ss :
    image p a cur s ->
    images p a (step_end cur s) ss ->
    images p a cur (s :: ss)
(** All bytes no call is for are as in the input; the calls had their effect. *)
with region : N -> N -> N -> N -> list step -> Prop :=
| I_region p a size cur ss :
    (forall i, i < size -> (forall s, In s ss -> ~ touched s i) -> Mo (B + (p + i)) = m (a + i)) ->
    images p a cur ss ->
    region p a size cur ss.

(** Several values serialized one after the other, the panics being caught.  [b], [e]: the
    position before and after.  A value has its image, at the next position for its layout, or
    there was a panic: then its implementation panics or the output would not fit, and the
    output goes on at some later position. *)
Inductive attempts : N -> list (layout * N * list step) -> list (N * option N) -> N -> Prop :=
| A_nil b : attempts b [] [] b
| A_some b l a ss rs outs e :
    region (push_start b l) a (l_size l) (push_end b l 1) ss ->
    steps_end (push_end b l 1) ss <= MAXC ->
    attempts (steps_end (push_end b l 1) ss) rs outs e ->
    attempts b ((l, a, ss) :: rs) ((b, Some (push_start b l)) :: outs) e
| A_none b l a ss rs outs e b' :
    (existsb may_panic ss = true \/ MAXC < steps_end (push_end b l 1) ss) ->
    b <= b' -> attempts b' rs outs e ->
    attempts b ((l, a, ss) :: rs) ((b, None) :: outs) e.

End ClientSpec.
