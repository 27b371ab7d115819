(** * Machine: many programs, one memory, one allocator.

    Any number of tasks run programs of Prog.v, in any interleaving, on one memory: threads, each
    with a storage or serializer of its own.  The rest of the process (the environment) may at any
    moment write memory that no task owns or reads, allocate and free, start a task, and take over
    the block of a finished one.  Borrow rules appear as follows: while a task runs, nobody else
    writes what it reads (its input is borrowed), and nobody else touches its block (it owns it).

    Only the word size matters here ([pW], through [layout_legal] and [umod]); alignments and
    addresses come with the instructions. *)
From Verif Require Import Base Types Storage Spec Prog Alone Confined.
From Coq Require Import Arith ZifyBool ZifyNat ZifyN.
Local Open Scope N_scope.

(** A live block: address, bytes, alignment it was asked with, the task that owns it. *)
Record blk := mkBlk { b_addr : N; b_size : N; b_al : N; b_own : option nat }.
Definition blk_eq_dec (x y : blk) : {x = y} + {x <> y}.
Proof. decide equality; try apply N.eq_dec. decide equality. apply Nat.eq_dec. Defined.
Definition in_range (x a n : N) : Prop := a <= x /\ x < a + n.
Definition in_blk (x : N) (b : blk) : Prop := in_range x (b_addr b) (b_size b).

(** A running task: what it was started to do, the memory it was started in, the ranges it may
    read (its input), the alignment it asks the allocator for, the instructions to come. *)
Record task (J S A : Type) := mkTask { tk_job : J; tk_mem : mem; tk_reads : list (N * N); tk_al : N; tk_prog : prog S A }.
Arguments mkTask {J S A}.
Arguments tk_job {J S A}.
Arguments tk_mem {J S A}.
Arguments tk_reads {J S A}.
Arguments tk_al {J S A}.
Arguments tk_prog {J S A}.
Definition with_prog {J S A} (t : task J S A) (p : prog S A) : task J S A :=
  mkTask (tk_job t) (tk_mem t) (tk_reads t) (tk_al t) p.

Record gstate (J S A : Type) := mkG { g_mem : mem; g_live : list blk; g_tasks : nat -> option (task J S A) }.
Arguments mkG {J S A}.
Arguments g_mem {J S A}.
Arguments g_live {J S A}.
Arguments g_tasks {J S A}.

Definition set_task {J S A} (ts : nat -> option (task J S A)) (i : nat) (t : option (task J S A)) : nat -> option (task J S A) :=
  fun j => if Nat.eqb j i then t else ts j.

Section Machine.
Context {P : Params} {J S A : Type}.
Notation gstate := (gstate J S A).
Notation task := (task J S A).

(** Address [x] is in a block some task owns; is read by some task. *)
Definition owned_by_task (st : gstate) (x : N) : Prop := exists b i, In b (g_live st) /\ b_own b = Some i /\ in_blk x b.
Definition read_by_task (st : gstate) (x : N) : Prop :=
  exists i t r, g_tasks st i = Some t /\ In r (tk_reads t) /\ in_range x (fst r) (snd r).

(** The allocator may answer [a] for [size] bytes aligned to [al] when the blocks [live] are
    in use: null, or bytes aligned and inside the address space, of which nobody uses any. *)
Definition answer (st : gstate) (live : list blk) (size al a : N) : Prop :=
  a = 0 \/ ((al | a) /\ a + size < umod /\
    forall x, in_range x a size -> ~ (exists b, In b live /\ in_blk x b) /\ ~ read_by_task st x).

(** Task [i] has a block with the bytes [a, a + n). *)
Definition owns (live : list blk) (i : nat) (a n : N) : Prop :=
  n = 0 \/ exists b, In b live /\ b_own b = Some i /\ b_addr b <= a /\ a + n <= b_addr b + b_size b.

(** One instruction of task [i], which may read [bs]: memory, live blocks and instructions after. *)
Inductive tstep (st : gstate) (i : nat) (bs : list (N * N)) : prog S A -> mem -> list blk -> prog S A -> Prop :=
| TRefused size al k :
    0 < size -> layout_legal size al = true ->
    tstep st i bs (IAlloc size al k) (g_mem st) (g_live st) (k 0)
| TAlloc size al k a m' :
    0 < size -> layout_legal size al = true -> a <> 0 -> answer st (g_live st) size al a ->
    (forall x, in_range x a size -> m' x = None) ->
    (forall x, ~ in_range x a size -> m' x = g_mem st x) ->
    tstep st i bs (IAlloc size al k) m' (mkBlk a size al (Some i) :: g_live st) (k a)
| TReRefused addr old al new k :
    In (mkBlk addr old al (Some i)) (g_live st) -> 0 < new -> layout_legal new al = true ->
    tstep st i bs (IRealloc addr old al new k) (g_mem st) (g_live st) (k 0)
| TRealloc addr old al new k a m' :
    In (mkBlk addr old al (Some i)) (g_live st) -> 0 < new -> layout_legal new al = true ->
    a <> 0 -> answer st (remove blk_eq_dec (mkBlk addr old al (Some i)) (g_live st)) new al a ->
    (forall x, in_range x a new -> m' x = if x - a <? old then g_mem st (addr + (x - a)) else None) ->
    (forall x, ~ in_range x a new -> ~ in_range x addr old -> m' x = g_mem st x) ->
    tstep st i bs (IRealloc addr old al new k) m'
      (mkBlk a new al (Some i) :: remove blk_eq_dec (mkBlk addr old al (Some i)) (g_live st)) (k a)
| TDealloc addr size al k m' :
    In (mkBlk addr size al (Some i)) (g_live st) ->
    (forall x, ~ in_range x addr size -> m' x = g_mem st x) ->
    tstep st i bs (IDealloc addr size al k) m' (remove blk_eq_dec (mkBlk addr size al (Some i)) (g_live st)) k
| TCopy src dst n k m' :
    within bs src n -> owns (g_live st) i dst n ->
    (forall x, m' x = if (dst <=? x) && (x <? dst + n) then g_mem st (src + (x - dst)) else g_mem st x) ->
    tstep st i bs (ICopy src dst n k) m' (g_live st) k
| TStore dst n data k m' :
    owns (g_live st) i dst n ->
    (forall x, m' x = if (dst <=? x) && (x <? dst + n) then data (x - dst) else g_mem st x) ->
    tstep st i bs (IStore dst n data k) m' (g_live st) k
| TLoad a n k :
    within bs a n ->
    tstep st i bs (ILoad a n k) (g_mem st) (g_live st) (k (cells (g_mem st) a n))
| TRead a n k :
    owns (g_live st) i a n ->
    tstep st i bs (IRead a n k) (g_mem st) (g_live st) (k (cells (g_mem st) a n)).

(** The environment takes over the blocks of task [i]. *)
Definition hand_over (i : nat) (b : blk) : blk :=
  match b_own b with
  | Some j => if Nat.eqb j i then mkBlk (b_addr b) (b_size b) (b_al b) None else b
  | None => b
  end.

(** A step of the machine.  [admissible t]: the task may be started when the memory is [tk_mem t]. *)
Inductive mstep (admissible : task -> Prop) (st : gstate) : gstate -> Prop :=
| MTask i t m' live' p' :
    g_tasks st i = Some t -> tstep st i (tk_reads t) (tk_prog t) m' live' p' ->
    mstep admissible st (mkG m' live' (set_task (g_tasks st) i (Some (with_prog t p'))))
| MWrite m' :
    (forall x, owned_by_task st x \/ read_by_task st x -> m' x = g_mem st x) ->
    mstep admissible st (mkG m' (g_live st) (g_tasks st))
| MAlloc a size al :
    a <> 0 -> answer st (g_live st) size al a ->
    mstep admissible st (mkG (g_mem st) (mkBlk a size al None :: g_live st) (g_tasks st))
| MFree b :   (* even if a task reads it: what is read stays in use for [answer] *)
    In b (g_live st) -> b_own b = None ->
    mstep admissible st (mkG (g_mem st) (remove blk_eq_dec b (g_live st)) (g_tasks st))
| MSpawn i t :
    g_tasks st i = None -> (forall b, In b (g_live st) -> b_own b <> Some i) ->
    (forall r x, In r (tk_reads t) -> in_range x (fst r) (snd r) -> ~ owned_by_task st x) ->
    tk_mem t = g_mem st -> admissible t ->
    mstep admissible st (mkG (g_mem st) (g_live st) (set_task (g_tasks st) i (Some t)))
| MFinish i t :
    g_tasks st i = Some t -> (exists a s, tk_prog t = Done (Ok a s)) \/ (exists e s, tk_prog t = Done (Panic e s)) ->
    mstep admissible st (mkG (g_mem st) (map (hand_over i) (g_live st)) (set_task (g_tasks st) i None)).

(** No task runs at the start; whatever is allocated belongs to the environment. *)
Definition start_state (st : gstate) : Prop :=
  (forall i, g_tasks st i = None) /\ (forall b, In b (g_live st) -> b_own b = None).

Inductive reachable (admissible : task -> Prop) : gstate -> Prop :=
| R_start st : start_state st -> reachable admissible st
| R_step st st' : reachable admissible st -> mstep admissible st st' -> reachable admissible st'.

(** ** What must not happen *)

(** The next instruction is not undefined behaviour: a call of the allocator keeps to its contract
    (std::alloc: no size 0, a legal layout, a live block with this size and alignment), an
    access is to memory the task owns or was lent, copy_nonoverlapping has no overlap. *)
Definition defined (st : gstate) (i : nat) (t : task) : Prop :=
  match tk_prog t with
  | Done o => o <> UB
  | IAlloc size al _ => 0 < size /\ layout_legal size al = true
  | IRealloc addr old al new _ =>
      In (mkBlk addr old al (Some i)) (g_live st) /\ 0 < new /\ layout_legal new al = true
  | IDealloc addr size al _ => In (mkBlk addr size al (Some i)) (g_live st)
  | ICopy src dst n _ =>
      within (tk_reads t) src n /\ owns (g_live st) i dst n /\
      (forall x, in_range x src n -> in_range x dst n -> False)
  | IStore dst n _ _ => owns (g_live st) i dst n
  | ILoad a n _ => within (tk_reads t) a n
  | IRead a n _ => owns (g_live st) i a n
  end.

(** The bytes the next instruction accesses, and whether it writes (or frees) them. *)
Definition accesses (p : prog S A) (x : N) (writes : bool) : Prop :=
  match p with
  | Done _ | IAlloc _ _ _ => False
  | IRealloc addr old _ _ _ => in_range x addr old /\ writes = true
  | IDealloc addr size _ _ => in_range x addr size /\ writes = true
  | ICopy src dst n _ => (in_range x src n /\ writes = false) \/ (in_range x dst n /\ writes = true)
  | IStore dst n _ _ => in_range x dst n /\ writes = true
  | ILoad a n _ | IRead a n _ => in_range x a n /\ writes = false
  end.

(** Two tasks about to access the same byte, one of them writing. *)
Definition data_race (st : gstate) : Prop :=
  exists i j t t' x w, i <> j /\ g_tasks st i = Some t /\ g_tasks st j = Some t' /\
    accesses (tk_prog t) x true /\ accesses (tk_prog t') x w.

End Machine.
