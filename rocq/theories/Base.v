(** * Base: outcomes, build parameters, machine arithmetic, bytes.

    Everything the Rust code takes from the language / std rather than from
    the repository is modelled here.  Citations are to /repo unless they say
    "Rust" or "std". *)
From Coq Require Export List NArith Bool Lia.
Export ListNotations.
Local Open Scope N_scope.

(** ** Outcomes of running a piece of code on a state [S] *)

(** Reasons for an unwinding panic. *)
Inductive panic :=
| PCapacity      (* "Cannot grow AlignedVec further"            aligned_vec.rs:281,286 *)
| PWithCapacity  (* "capacity cannot exceed MAX_CAPACITY"       storage/mod.rs:206-209 *)
| PDebugAssert   (* any debug_assert!                                                 *)
| PArith         (* arithmetic overflow check of a debug build                        *)
| PAssert        (* any other assert!/panic!                                          *)
| PUser.         (* a panic raised by client code, or by a storage call it makes itself *)

(** [Ok]: normal return.  [Panic]: unwinding, the state at that moment is kept
    (the caller may catch_unwind).  [Abort]: alloc::handle_alloc_error.
    [UB]: undefined behaviour (out of bounds, misaligned, uninitialised read,
    violated allocator contract).  [OutOfFuel]: artefact of the model. *)
Inductive outcome (S A : Type) :=
| Ok (a : A) (s : S)
| Panic (p : panic) (s : S)
| Abort
| UB
| OutOfFuel.
Arguments Ok {S A} _ _.
Arguments Panic {S A} _ _.
Arguments Abort {S A}.
Arguments UB {S A}.
Arguments OutOfFuel {S A}.

(** Code with access to a mutable state [S] returning [A]
    (a Rust method on [&mut self]). *)
Definition M (S A : Type) := S -> outcome S A.

Definition ret {S A} (a : A) : M S A := fun s => Ok a s.
Definition bind {S A B} (m : M S A) (f : A -> M S B) : M S B :=
  fun s => match m s with
           | Ok a s' => f a s'
           | Panic p s' => Panic p s'
           | Abort => Abort
           | UB => UB
           | OutOfFuel => OutOfFuel
           end.
Notation "x <- m ;; k" := (bind m (fun x => k))
  (at level 61, m at next level, right associativity).
Notation "m ;;; k" := (bind m (fun _ => k))
  (at level 61, right associativity).

Definition panics {S A} (p : panic) : M S A := fun s => Panic p s.
Definition ub {S A} : M S A := fun _ => UB.
Definition gets {S A} (f : S -> A) : M S A := fun s => Ok (f s) s.
Definition modify {S} (f : S -> S) : M S unit := fun s => Ok tt (f s).

(** ** Parameters of a run *)

(** [pW]: size_of::<usize>() = align_of::<usize>() in bytes.
    [pBE]: target is big endian.  [dbg]: debug build (debug_assertions and
    overflow-checks on).  [SA MVA VA MAXC]: the const parameters
    STORAGE_ALIGNMENT, MAX_VALUE_ALIGNMENT, VALUE_ALIGNMENT, MAX_CAPACITY
    (storage/mod.rs:115-133).  [orc]: the allocator; [orc n size] is the address
    answered to the [n]-th alloc/realloc call of the run, asking for [size]
    bytes; 0 is failure.  An adversarial allocator is any such function. *)
Class Params := {
  pW : N;
  pBE : bool;
  dbg : bool;
  SA : N;
  MVA : N;
  VA : N;
  MAXC : N;
  orc : nat -> N -> N
}.

Section Machine.
Context {P : Params}.

(** Number of usize values; isize::MAX. *)
Definition umod : N := 2 ^ (8 * pW).
Definition imax : N := 2 ^ (8 * pW - 1) - 1.

(** ** usize arithmetic (Rust: panics in debug builds, wraps in release) *)
Definition add_u {S} (a b : N) : M S N :=
  if a + b <? umod then ret (a + b)
  else if dbg then panics PArith else ret ((a + b) mod umod).
Definition sub_u {S} (a b : N) : M S N :=
  if b <=? a then ret (a - b)
  else if dbg then panics PArith else ret (a + umod - b).
Definition mul_u {S} (a b : N) : M S N :=
  if a * b <? umod then ret (a * b)
  else if dbg then panics PArith else ret ((a * b) mod umod).

(** std: usize::wrapping_add, usize::wrapping_sub. *)
Definition wrapping_add (a b : N) : N := (a + b) mod umod.
Definition wrapping_sub (a b : N) : N := (a + umod - b) mod umod.

(** std: usize::is_power_of_two. *)
Definition is_pow2 (n : N) : bool := (0 <? n) && (n =? 2 ^ N.log2 n).

(** std: usize::next_power_of_two (overflow: panic in debug, 0 in release). *)
Definition npot (n : N) : N := 2 ^ N.log2_up n.
Definition next_power_of_two {S} (n : N) : M S N :=
  if npot n <? umod then ret (npot n)
  else if dbg then panics PArith else ret 0.

(** Rust: debug_assert!(cond): the condition is evaluated in debug builds only. *)
Definition dassert {S} (c : M S bool) : M S unit :=
  if dbg then (b <- c ;; if b then ret tt else panics PDebugAssert) else ret tt.

(** Rust: assert!(cond). *)
Definition assert_or {S} (p : panic) (c : bool) : M S unit :=
  if c then ret tt else panics p.

(** std: the rule of std::alloc::Layout::from_size_align: align is a power of
    two and size rounded up to align does not exceed isize::MAX. *)
Definition layout_legal (size align : N) : bool :=
  is_pow2 align && (size <=? imax - (align - 1)).

(** ** Bytes and memory *)

(** A memory cell: [None] is uninitialised (or not accessible). *)
Definition cell := option N.
Definition mem := N -> cell.

Definition no_mem : mem := fun _ => None.

(** [blit b pos n src]: memory [b] with [n] cells from [src] copied at [pos]. *)
Definition blit (b : mem) (pos n : N) (src : mem) : mem :=
  fun i => if (pos <=? i) && (i <? pos + n) then src (i - pos) else b i.

(** Cells [0..] of a list of bytes. *)
Definition bytes_src (l : list N) : mem := fun i => nth_error l (N.to_nat i).

(** The cells of memory [m] starting at address [a]. *)
Definition mem_from (m : mem) (a : N) : mem := fun i => m (a + i).

Fixpoint le_bytes (n : nat) (x : N) : list N :=
  match n with
  | O => []
  | S n' => x mod 256 :: le_bytes n' (x / 256)
  end.
Fixpoint le_num (l : list N) : N :=
  match l with
  | [] => 0
  | b :: l' => b + 256 * le_num l'
  end.

(** An integer as [n] bytes in the target's byte order, and back. *)
Definition to_bytes (n : nat) (x : N) : list N :=
  if pBE then rev (le_bytes n x) else le_bytes n x.
Definition of_bytes (l : list N) : N :=
  le_num (if pBE then rev l else l).

Fixpoint read_bytes (m : mem) (a : N) (n : nat) : option (list N) :=
  match n with
  | O => Some []
  | S n' =>
      match m a with
      | None => None
      | Some b =>
          match read_bytes m (a + 1) n' with
          | None => None
          | Some bs => Some (b :: bs)
          end
      end
  end.

(** Read an unsigned integer of [sz] bytes / a usize. *)
Definition read_int (m : mem) (a : N) (sz : N) : option N :=
  option_map of_bytes (read_bytes m a (N.to_nat sz)).
Definition read_word (m : mem) (a : N) : option N := read_int m a pW.

(** The bytes of a usize value. *)
Definition word_src (x : N) : mem := bytes_src (to_bytes (N.to_nat pW) x).

End Machine.
