# A formal model of `ser_raw` in Rocq (Coq 8.16.1)

Nothing here runs the Rust code. The model is a hand transcription of the source in `/repo` at the pinned
commit; every model definition carries a comment with the file and lines it transcribes and says where it
simplifies. The theorems are about the model. `properties.jsonl` has the English properties, `MANIFEST.json`
the theorem names and statuses, `seeded/LOG.jsonl` the wrong programs the theorems were tried on.

## Trusted base

* **Coq's kernel** (coqc 8.16.1), including its `vm_compute` reduction machine, which the concrete witnesses
  use. No `native_compute`, no plugins, no switched-off checks.
* **Axioms: none.** `theories/Assumptions.v` runs `Print Assumptions` on every theorem named in
  `MANIFEST.json`; each prints "Closed under the global context". (The libraries loaded declare
  `Coq.ssr.ssrunder.Under_rel.*` in a sealed module; no theorem here depends on them.)
* **The transcription**: that the definitions of the model files below say what the Rust source says, and that
  `Base.v` says what Rust and std say (integer overflow, `debug_assert!`, the allocator contract, `Layout`).
* **The specification files**: `Spec.v`, `ClientSpec.v`, `DeriveSpec.v`, `Encode.v`, and the statements in
  `Prop*.v`, `BigInt.v`. These are what a reader has to compare with the English.

## Files (`rocq/theories`)

Model (transcribes the code):

| file | models |
|---|---|
| `Base.v` | what the code takes from Rust/std: outcomes `Ok / Panic / Abort / UB / OutOfFuel`, build and machine parameters, usize arithmetic, bytes |
| `Types.v` | the Rust types that can be serialized, with the layout any compiler may give them; values |
| `Storage.v` | `util.rs`, `storage/mod.rs`, `storage/aligned_vec.rs` |
| `Serializer.v` | `pos.rs`, `serializer.rs`, `serializer_traits/*`, and the impls that `derive(Serializer)` generates (`ser_raw_derive_serializer/src/ser_types/*`) for the structs of `serializers/*` |
| `Serialize.v` | `serialize_impls/{primitives,ptrs,multiples,other}.rs`, `serialize.rs` |
| `BigInt.v` | `serialize_impls/bigint.rs` (and C33) |
| `Client.v` | hand-written `Serialize`/`SerializeWith` implementations as trees of serializer calls; sessions with `catch_unwind` |
| `React.v` | hand-written implementations that branch on the positions the serializer returns |
| `Defaults.v` | the default const parameters of `AlignedVec` |
| `Reuse.v` | client programs that use one storage directly and through serializers |
| `Unsafe.v` | calls of the unsafe storage methods (the methods are in `Storage.v`), their documented contracts and effects |
| `Derive.v` | `ser_raw_derive/src/*` and the attribute handling of `ser_raw_derive_serializer/src/*`, as functions from declarations to generated code, with a semantics for that code |
| `Prog.v`, `ProgSer.v` | the same storage, serializers and `serialize_impls` as programs of memory instructions on one memory (C69, C70) |
| `Machine.v` | threads running such programs, the allocator and the rest of the process; what is undefined and what a data race is |
| `Generics.v` | the generics, bounds and where clauses of the generated impl headers, and which types an impl covers |

Specification (independent of the model's helper functions):

| file | says |
|---|---|
| `Spec.v` | rounding, a storage in order, "the memory at address a, seen as a T, is the value v" (`repr`), the layout rule (`push_start`, `push_end`, `end_pos`), the reader that walks an output in order (`decode_root`), the allocator client protocol |
| `ClientSpec.v` | what a hand-written implementation may do and what its output must be |
| `DeriveSpec.v` | legal declarations, annotated fields, "each field once, in order" |
| `GenStorage.v`, `GenSpec.v` | the trait `Storage` for any implementor; the contract its documentation states |
| `GenSerializer.v`, `GenSerSpec.v` | the serializers and `serialize_impls` over any storage; what a kind asks of its storage |
| `Source.v` | type declarations without layouts, and the layout the Rust reference gives them |
| `Encode.v` | a reference encoder: every output byte as a function of the input memory |

Proofs: `ArithFacts`, `MemFacts`, `TypeFacts` (mathematics); `StorageFacts`, `StorageHist`, `StorageProps`
(storage); `SerFacts`, `SerMain`, `SerValue`, `UserPanic`, `SerRoot`, `Moves`, `SerProps`, `Corner`, `Misuse`, `Repush`,
`Frame`, `Cost` (serializers); `ClientFacts`, `EncodeFacts`, `Idem`, `DeriveFacts`.

Property theorems, each with a concrete case beside it: `PropStorage` (C01-C17, C37), `PropSerialize` (C18-C32,
C38-C41, C43, C45) with cases in `Demo`/`WitnessSerialize`, `PropDerive` (C34-C36, C42, C44, C46) with
`WitnessDerive`, `BigInt` (C33), `PropClient` (C47), `PropExact` (C48-C51), `PropMoves` (C52, C53), `PropEncode` (C54,
C55), `PropIdem` (C56), `PropResume` (C57), `PropCost` and `PropUse` (C58, C59),
`PropDefaults` (C60), `PropReuse` (C61), `PropUnsafe` (C62, C63), `PropGenerics` (C64), `PropGen` (C65; proofs in
`GenFacts`), `PropGenSer` (C66; proofs in `GenSerFacts`, `GenSerMain`, `GenSerValue`, `GenSerRoot`, `GenSerAV`), `PropGaps` (C67), `PropTree` (C68),
`PropMachine` (C69, C70; proofs in `Alone`, `AloneSer`, `Confined`, `MachineFacts`, `Jobs`; concrete executions by `MachineRun`), `PropValues` (C71, C72; `Build` makes inputs), `PropSerWith` (C73), `PropDepth` (C74; `Depth`), `PropRelay` (C75), `PropRecord` (C76; `Record`), `PropClients` (C77; `ProgClient`, `ClientJobs`), `PropLoad` (C78; `Load`), `PropMixed` (C79; `Mixed`, `MixedFacts`), `PropMixedValue` (C80; `MixedValid`), `PropSource` (C81; `Source`), `PropRecordMem` (C82), `PropMixedSession` (C83), `PropBigNum` (C84), `PropMixedThreads` (C85; `ProgMixed`, `MixedJobs`), `PropMono` (C86; `Mono`), `PropMixedDecode` (C87; `MixedDecode`), `PropZst` (C88; `ZstPush`), `PropGenClient` (C89; `GenClient`, `GenClientSpec`, `GenClientFacts`), `PropGenMixed` (C90; `GenMixed`, `GenMixedFacts`), `PropRelocate` (C91; `Relocate`), `PropDeleg` (C92; `Deleg`, `DelegFacts`, `DelegValid`), `PropDelegDecode` (C93; `DelegDecode`), `PropDelegThreads` (C94; `ProgDeleg`, `DelegJobs`), `PropGenSession` (C95; `GenSession`), `PropBytes` (C96; `Bytes`), `PropGenRecord` (C97; `GenRecord`), `PropCatch` (C98; `Catch`, `CatchFacts`), `PropNest` (C99; `Nest`, `NestFacts`), `PropGenerations` (C100), `PropReact` (C101; `React`, `ReactFacts`, `ReactSame`). `Conformance` runs the project's own tests and documentation examples through the model. `Assumptions` prints what they rest on.

## How the code is modelled

* **Program parameters** (`Params`): word size 4 or 8, debug or release build (`dbg`), the const parameters
  STORAGE_ALIGNMENT, VALUE_ALIGNMENT, MAX_VALUE_ALIGNMENT, MAX_CAPACITY, the field order of the compiler's `Vec`, the
  allocator. Theorems quantify over all of them, under `cfg_ok` (what the const assertions guarantee, proved in
  C17) and `alloc_ok`.
* **Numbers.** usize is `N` with explicit modulus `2^(8W)`. `+ - *` panic on overflow in a debug build and wrap in a
  release build; `wrapping_*`, `checked_add`, `next_power_of_two` as in std. `debug_assert!` runs iff `dbg`.
* **Memory.** Byte level, a cell is `option N` (None = uninitialised or not mapped). The output buffer is a function
  from index to cell with base address, capacity and position. Every raw access of the model checks bounds and alignment
  and that there is a buffer; otherwise the outcome is `UB`. So "no undefined behaviour" is a theorem.
* **Allocator.** An arbitrary oracle (call number -> size -> address, 0 = failure = `Abort`, i.e.
  `handle_alloc_error`). `alloc_ok`: non-null answers are multiples of the alignment and the block lies inside the
  address space, its end not being the last address + 1 (std: base + size of an allocation does not overflow). `realloc` keeps the common prefix. All calls are recorded in a trace. Disjointness from
  the input is not needed because input and output are separate memories (see below). In the machine of C69/C70 there
  is one memory; the allocator answers any address nobody uses, or null.
* **Input.** An arbitrary byte memory; `repr E H m t a v`: address `a` of `m`, read as a `t`, holds the value `v`.
  `serialize_data` in the model reads that memory (pointers, lengths, capacities, discriminants), with fuel that
  bounds only nesting; running out is a separate outcome which the theorems exclude for fuel > depth.
* **Types.** primitives (any size/alignment, with a validity predicate), `Box<T>`, `Vec<T>`, `String`, arrays, tuples and
  structs (any field offsets), enums and `Option` (tagged or niche encoded), named types (recursion through an
  environment). Sizes, offsets and encodings are data constrained only by `wf_ty`.
* **Serializers.** the four kinds pure_copy / pos_tracking / ptr_offset / complete, method by method, with the
  overriding that the derive macro produces.
* **Panics keep the state**, so behaviour after `catch_unwind` is covered (C05, C15, C45, C57).
* **Clients.** `Client.step` trees stand for one execution of an arbitrary hand-written implementation.

## Simplifications

* The `Vec<usize>` and `Vec<PtrGroup>` in which pointer positions are recorded (`pos.rs`, `ptr_writing.rs`,
  `complete.rs`) are Coq lists; their own allocation is not in the trace (C82 bounds it and shows it cannot overflow; if the allocator refuses it the process aborts).
* Input and output are separate memories: an input that lies inside the output buffer itself is excluded, as
  Rust's borrow rules do. C69 and C70 are about one shared memory, and show that the separate memories lose nothing.
* Threads (C70): one instruction is atomic (a whole `copy_nonoverlapping`, a word); the absence of data races
  justifies it. A thread's fields (ptr, cap, pos, map, recorded pointers) are private to it. All threads have one word
  size and build profile. What a thread does is a `client`: make a storage, call its safe methods, serialize, drop.
* The unsafe storage methods have bounds and alignment as `UB` checks; C62 and C63 say when these fire. A reference
  returned by `read` is modelled by the cells it refers to. Other `unsafe fn`s are called only as the code calls them.
* A type's `Drop` and the drop of the input play no role. `AlignedVec`'s own `Drop` is modelled (C12).

## Not modelled

Rust's type checker and trait resolution (beyond which instantiations a derived impl covers, C64); token handling and spans of the proc macros (they are functions on ASTs here);
`Send`/`Sync` as traits (their content is C70); provenance and aliasing rules (stacked borrows; in particular the pointers of a Complete output are written as `usize` integers, so reading them as references relies on exposed provenance, which no theorem here speaks about); optimisation and speed; the OS and the real
allocator; the size of a stack frame (C74 counts nested calls); the test that reads the Minecraft data file (the others are run through the model in `Conformance.v`); `Cargo` features other than that `bigint` is on.

## Findings: where the code does not do what the property says

Each is a machine-checked counterexample, and the exact extent is proved.

| property | finding | exact form |
|---|---|---|
| C13 | `push_slice(&[] as &[T])` with align_of T > 1 on a storage without a buffer calls `copy_nonoverlapping` with a misaligned (dangling, address 1) destination: undefined behaviour from a safe method | C13_only_UB, C48 |
| C14 | `push_empty` panics in debug builds if the size is no multiple of VALUE_ALIGNMENT; `push_empty_slice` wraps its size in release builds | C49 |
| C36 | `#[ser_with]` is ignored on enum variant fields, and on struct fields if the proxy path has generic arguments | C73 |
| C39 | safe `push(value, addr)` with an arbitrary address writes out of bounds in release builds | C50 |
| C40 | pushing twice for one pointer with a buffer move in between gives a wrong pointer (Complete) | C52 |
| C41 | serializing a zero-sized type of alignment > 1 into a storage without buffer gives a position at which it may not be dereferenced | C51 |
| C44 | `derive(Serialize)` panics on a raw identifier as field name of an enum variant | C44_exact |
| C45 | `storage_mut().clear()` + `shrink_to_fit()` before finalize of a Complete serializer: writes outside the buffer | C53 |
| C57 | catching a panic inside an implementation and going on with the same value writes outside the storage in release builds | C57_inside_counterexample |
| C98 | the same over any storage, and the exact condition: a catch_unwind inside an implementation is sound if the mapping is restored or no further call needs the place; otherwise also silently wrong output in debug builds | C98_session, C98_mapping_lost |
| C60 | `AlignedVec<32>` (or more) does not compile with the default MAX_CAPACITY | C60_given |
| C62 | the documented contracts of `write_slice`, `push_slice_unchecked`, `read` do not exclude misaligned accesses: empty slices on a storage without buffer; types with alignment above STORAGE_ALIGNMENT | C62_contracts, C62_when_aligned |
| C64 | a type parameter called `__S` clashes with the one the macro adds; no `T: Serialize` bound is added, so a field of a bare parameter type does not compile without `#[ser_with]` | C64_clash, C64_serialize |
| C65 | `push_empty` and `push_empty_slice` call `set_pos` outside its documented contract when the space is no multiple of VALUE_ALIGNMENT; a `reserve` that "alters pos" (a comment allows it) may only move it by multiples of MAX_VALUE_ALIGNMENT | push_empty_breaks_set_pos_contract, moving_reserve_misaligns |
| C66 | with a `reserve` that moves the position, pure_copy output cannot be read back | moving_reserve_loses_value |
| C67 | space skipped for alignment is never written: outputs are not reproducible byte for byte, and after `clear()` show bytes of earlier outputs | C67_reproducible_iff, C67_not_reproducible |

The assertion in `bigint.rs` that the sign is not inside the data Vec can never fail (C33 holds without it).

## Method for wrong programs

`seeded/LOG.jsonl`: each line is one edit of a model definition as a realistic bug would make it, the claim
it breaks and the theorems that no longer prove. Each mutant was built to the end, with the proofs that broke
replaced by `Admitted`, so that everything that depends on a broken proof is known; a theorem counts as failed if its own
proof breaks or it depends on one that does.

## Property by property

| id | property | what is modelled | how it is proved | theorems | status |
|---|---|---|---|---|---|
| C01 | align_up_to rounds up exactly | `util.rs align_up_to` on usize with overflow | arithmetic over all `N`; result characterised as the least multiple (`least_multiple`) | `C01_align_up_to` | proved |
| C02 | is_aligned_to decides divisibility | `util.rs is_aligned_to` (bit mask) | bit lemma `land x (2^k-1) = x mod 2^k`, for every power of two | `C02_is_aligned_to` | proved |
| C03 | aligned_max_capacity is the largest legal capacity | `util.rs aligned_max_capacity` | arithmetic; soundness and maximality | `C03_aligned_max_capacity` | proved |
| C04 | aligned_max_u32_capacity is a legal capacity whose positions fit in u32 | `util.rs aligned_max_u32_capacity` | arithmetic; soundness and maximality | `C04_aligned_max_u32_capacity` | proved |
| C05 | Storage invariants hold after every history | every safe `Storage` method of `AlignedVec` | invariant `storage_ok` by induction over any history of calls, caught panics included | `C05_invariants` | proved |
| C06 | push / push_slice store the data where they say | `push`, `push_slice`, `push_bytes` | symbolic execution of reserve/grow/write for every state; exact final bytes | `C06_push`, `C06_push_returns` | proved |
| C07 | Push positions are deterministic | two runs on different machines / allocators / growth | positions computed by a pure function of shapes; induction over histories | `C07_positions` | proved |
| C08 | reserve grows exactly when and as documented | `reserve`, `grow_for_reserve`, `next_power_of_two` | case analysis, exact new capacity | `C08_reserve` | proved |
| C09 | with_capacity rounds up and bounds | `with_capacity` and `new` | case analysis | `C09_with_capacity` | proved |
| C10 | shrink_to_fit keeps the data and gives the minimum capacity | `shrink_to_fit`, `realloc`/`dealloc` | case analysis, bytes kept | `C10_shrink_to_fit` | proved |
| C11 | clear resets without freeing | `clear` | direct, plus replay of positions after clear | `C11_clear`, `C11_clear_positions` | proved |
| C12 | Allocator protocol and no leaks | trace of allocator calls incl. `Drop` | trace automaton `protocol`, induction over histories | `C12_protocol` | proved |
| C13 | Safe Storage calls never cause out-of-bounds or misaligned access | every access of `write_slice`/`read` checks bounds, alignment, initialisation | invariant; the only exception characterised (C13_only_UB) and exhibited | `C13_no_UB_partial`, `C13_only_UB`, `C13_counterexample` | partial |
| C14 | push_empty reserves aligned space | `push_empty`, `push_empty_slice` incl. its debug assertion | case analysis; counterexamples in both builds | `C14_push_empty_partial`, `C14_counterexample_debug`, `C14_counterexample_release` | partial |
| C15 | Capacity failures are clean | capacity panics of push / reserve / with_capacity | state after the panic computed exactly | `C15_clean_failure`, `C09_with_capacity` | proved |
| C16 | Random-access write then read | unsafe `write`, `read` | frame lemmas on byte memory | `C16_write`, `C16_read`, `C16_write_then_read` | proved |
| C17 | Const-parameter validation is sufficient | const assertions of `AlignedVec` | arithmetic: the assertions imply `cfg_ok` and legal `Layout`s | `C17_validation`, `C17_every_capacity_legal` | proved |
| C18 | PureCopy output can be decoded in order | PureCopySerializer on every supported type | mutual induction over `repr`; the reader `decode_root` is a separate function of the output bytes only | `C18_pure_copy` | proved |
| C19 | PtrOffset output is navigable by offsets | PtrOffsetSerializer | same induction; output satisfies `repr` at base 0 | `C19_ptr_offset` | proved |
| C20 | PtrOffset offsets are never zero | offsets written by PtrOffset | same induction with a header predicate demanding forward pointers | `C20_offsets_forward` | proved |
| C21 | Complete output is a valid copy of the input | CompleteSerializer incl. pointer correction in `finalize` | same induction; output satisfies `repr` at the buffer's address | `C21_complete`, `C21_complete_forward` | proved |
| C22 | Pointer correction is right for every move history | `PtrGroup`s, `overwrite_ptr`, `correct_ptrs`, any interleaved storage calls | invariant relating recorded groups to past base addresses (`words_ok`, `kind_ok`) | `C22_correction` | proved |
| C23 | Complete output is shrunk to fit | capacities and pointers of Vec/String headers (Complete) | header predicate in the induction | `C23_shrunk` | proved |
| C24 | Complete output is self-contained | every pointer in a Complete output | header predicate `inside` in the induction | `C24_self_contained` | proved |
| C25 | Several values in one output all stay valid | several `serialize_value` before one `finalize` | sequence rule for `rdone` | `C25_several_values` | proved |
| C26 | Serializing into existing storage preserves its contents | serializing into a storage that holds data | frame part of `rdone` | `C26_existing_kept` | proved |
| C27 | All serializers produce the same layout | the four kinds on the same value | positions equal a pure function of type and value | `C27_same_layout` | proved |
| C28 | Serialization succeeds exactly when the output fits | outcome of `serialize` | equivalence with `end_pos <= MAXC` | `C28_succeeds_iff_fits` | proved |
| C29 | Serializing supported types never panics otherwise or causes UB | all outcomes of `serialize`, allocator calls | by the same induction; trace protocol | `C29_nothing_else`, `C29_allocator` | proved |
| C30 | Position tracking is restored around nested processing | `PosMapping` saved/restored by push_and_process | state lemma for any callback that restores it | `C30_mapping` | proved |
| C31 | Vec/String field offsets are detected for every layout | `VecOffsets`-style detection from a dummy Vec | case analysis over all 6 word orders | `C31_vec_offsets` | proved |
| C32 | Emptied Vec/String overwrite touches exactly capacity and pointer | `overwrite_empty` bytes | exact final bytes for every word order | `C32_empty_overwrite` | proved |
| C33 | BigInt data offset detection | `bigint.rs` for both field orders and any sign encoding | arithmetic + the C21 induction on a struct type | `C33`, `C33_serialize`, `C33_supported` | proved |
| C34 | derive(Serialize) visits each field of the live variant once, in order | `derive(Serialize)` as a function from AST to generated code, and the run of that code | induction over fields/variants | `C34_struct`, `C34_enum`, `C34_runs` | proved |
| C35 | derived enum match is exhaustive and has no dead wildcard | generated enum match | induction over variants | `C35` | proved |
| C36 | ser_with is honoured | `ser_with` on struct fields; enums | case analysis; counterexamples | `C36_partial`, `C36_rejects`, `C36_enum_ignores`, `C36_counterexample_enum`, `C36_counterexample_generic` | partial |
| C37 | Amortised growth | capacities along a history | potential argument: every growth at least doubles | `C37_growth`, `C37_growth_step` | proved |
| C38 | A pre-sized buffer never moves | pre-sized buffers | `quiet` component of the induction | `C38_presized` | proved |
| C39 | Safe pointer-address arguments cannot corrupt memory | push with any `Addr` | debug: assertion; release: in-range case; counterexample | `C39_addresses_partial`, `C39_counterexample` | partial |
| C40 | Re-pushing for the same pointer keeps the pointer right | two pushes for one pointer | lemma on pointer groups; counterexample when the buffer moves | `C40_repush_partial`, `C40_counterexample` | partial |
| C41 | Returned position is usable for any T | alignment of base + position | arithmetic; counterexample for ZSTs | `C41_position_usable_partial`, `C41_counterexample` | partial |
| C42 | derive(Serializer) accepts exactly one tagged field | `derive(Serializer)` attribute parsing and dispatch table | induction over fields | `C42`, `C42_dispatch` | proved |
| C43 | Output size is bounded | `end_pos` | induction, explicit bound | `C43_size_bound` | proved |
| C44 | derive(Serialize) handles every legal field name | identifier handling in enum patterns | lexing lemmas; counterexample raw identifiers | `C44_partial`, `C44_exact`, `C44_counterexample` | partial |
| C45 | Storage access during serialization is harmless | storage calls between pushes | invariant over histories; counterexample with clear | `C45_access_partial`, `C45_counterexample` | partial |
| C46 | ser_bound is applied or rejected, never dropped | `ser_bound` attribute | induction over attributes | `C46`, `C64_serialize` | proved |
| C47 | Hand-written Serialize implementations are safe and faithful | any tree of serializer calls a client can make | induction over the call tree (`done`/`ready` rules) | `C47_custom_impl` | proved |
| C48 | Exactly which storage calls are unsound | all storage calls | equivalence UB <-> the empty push | `C48_UB_exactly` | proved |
| C49 | push_empty_slice: the outcome in every case | `push_empty_slice` | all cases, exact result | `C49_push_empty_exactly` | proved |
| C50 | Pushing for an arbitrary address: exactly which word is written | push at any address, release build | all cases, exact word written | `C50_any_address_exactly`, `C50_any_address_debug` | proved |
| C51 | When the position returned by serialize may be dereferenced | position returned | equivalence | `C51_position_usable_exactly` | proved |
| C52 | A pointer word written several times: its exact final value | any number of writes to one pointer word | invariant over histories with a correction log | `C52_repush_exactly`, `C52_twice` | proved |
| C53 | finalize after clear during serialization: exactly when it is unsound | finalize after clear | equivalence UB <-> a recorded pointer outside the buffer | `C53_finalize_exactly` | proved |
| C54 | Output is byte-for-byte that of a reference encoder | all kinds | refinement: final bytes = `Encode.encode_all` (separate reference encoder) | `C54_bytes` | proved |
| C55 | Output depends only on input, serializer, machine and value alignment | two runs on different machines | corollary of refinement, positions, encoder monotone | `C55_depends_only` | proved |
| C56 | A Complete output serializes like the original | a Complete output as input | encoder commutes with relocation | `C56_copy_of_copy`, `C56_idempotent`, `C56_valid_again` | proved |
| C57 | A caught panic leaves the serializer usable | serialize_value under catch_unwind, client panics anywhere | panic part of `done`: invariant kept with the pointers recorded so far | `C57_resume`, `C57_inside_counterexample` | proved |
| C58 | Copying done by growth is linear | growth policy and the bytes each reallocation copies | potential argument over histories (copied + ... <= 2 * capacity), exact capacity per call; serialization via C59 | `C58_copying`, `C58_capacity`, `C58_linear`, `C58_serialize` | proved |
| C59 | Serializing uses the storage exactly as one push_slice per allocation | storage state abstracted to a frame (pointer, capacity, position, allocator trace) by `Frame.v` | `quiet` part of the main induction: the run commutes with a pure replay of pushes | `C59_storage_use`, `C59_all_kinds`, `C59_client` | proved |
| C60 | Default const parameters | the default const parameters (`Defaults.v`) | arithmetic over both pointer widths, via the characterisation of ASSERT_ALIGNMENTS_VALID | `C60_defaults`, `C60_given`, `C60_all`, `C60_too_many` | proved |
| C61 | Outputs stay valid while the storage is used on | a client program interleaving storage calls and serializers (`Reuse.v`) | induction over the program; decoding is monotone in memory and positions below `pos` are never written | `C61_stays_readable`, `C61_complete_in_place`, `C61_moved_counterexample` | proved |
| C62 | The documented contracts of the unsafe storage methods | the unsafe methods with explicit UB checks, contracts as predicates (`Unsafe.v`) | each method computed exactly under its contract; induction over mixed histories | `C62_contracts`, `C62_when_aligned`, `C62_histories`, `C62_new` | proved |
| C63 | Debug assertions catch every contract violation | the same, debug and release builds | case analysis on which clause of the contract fails first | `C63_debug_catches`, `C63_debug_catches_new`, `C63_release_unchecked` | proved |
| C64 | Derived impls cover exactly the declared type | generic parameters, bounds, where clauses and impl headers; which instantiations an impl covers (`Generics.v`) | environments that agree on the names a bound mentions; covering characterised in both directions | `C64_serialize`, `C64_clash`, `C64_total`, `C64_serializer` | proved |
| C65 | The alignment logic of Storage works for every implementor | the trait Storage with its required methods as a record over any state type, its contract as a record of clauses read off the documentation (`GenStorage.v`, `GenSpec.v`) | each provided method computed from the contract; induction over histories; AlignedVec and fixed buffers shown to keep it; counterexample implementors outside it | `any_storage_push_slice`, `any_storage_history`, `any_storage_keeps_values`, `any_storage_positions`, `any_two_storages_agree`, `any_storage_with_capacity`, `aligned_vec_keeps_contract`, `fixed_storages_keep_contract`, `moving_reserve_misaligns`, `push_empty_breaks_set_pos_contract`, `gen_ops_witness` | proved |
| C66 | The serializers are right over any storage | the serializers and serialize_impls again, with the storage's methods taken from a record over any state type (`GenSerializer.v`); what a kind needs of its storage (`GenSerSpec.v`) | the main induction redone against the contract instead of AlignedVec's definitions; over AlignedVec the two models are proved equal by a simulation (`GenSerAV.v`) | `any_storage_serialize_all`, `any_storage_serialize`, `any_storage_complete_tight`, `any_two_storages_serialize_alike`, `aligned_vec_serializers`, `any_storage_serialize_witness`, `moving_reserve_loses_value` | proved |
| C67 | Every byte of the output is determined; the space between values is not written | nothing new; the predicate describing a piece of a serialization (`SerFacts.done`) also says which bytes it leaves alone | the same induction: from pos() on only the blocks change, pointers lie in blocks; then C54 for the blocks | `C67_gaps`, `C67_every_byte`, `C67_client_gaps`, `C67_reproducible_iff`, `C67_not_reproducible` | proved |
| C68 | Values in the output share no memory | a function following the pointers found in memory and listing the blocks a value owns (`PropTree.places`) | induction on the input value: each pointer word of the output is the block's position (C54), so the blocks are those of the layout rule, which are disjoint; frame lemma for values in memory | `C68_separate`, `C68_owned_only`, `C68_change_one` | proved |
| C69 | A serializer touches nothing but its input and its own buffer | the storage and the serializers once more, as programs of memory and allocator instructions (`Prog.v`, `ProgSer.v`) | a predicate on programs: every access is to the ranges lent or the block (`Confined.v`); a simulation shows that run alone they are the model of Storage.v and Serialize.v (`Alone.v`, `AloneSer.v`, `Jobs.v`) | `C69_touches`, `C69_lent` | proved |
| C70 | Serializers in several threads | a machine with one memory, live blocks and any number of such programs, and steps of the environment (`Machine.v`); clients (`Jobs.v`) | invariant: each thread is in the middle of a run alone, its block mirrors that run's buffer, blocks and inputs are disjoint (`MachineFacts.v`); then the theorems about the model alone; termination because programs are well-founded | `C70_no_UB`, `C70_no_race`, `C70_separate`, `C70_inputs_unchanged`, `C70_as_alone`, `C70_output`, `C70_not_stuck`, `C70_terminates` | proved |
| C71 | Every value of a supported type can be serialized | the values of a type (has_ty, Build.v) and a program (put/build) that stores any of them in a fresh memory with everything it owns | mutual induction on typing: what put stores is a representation (put_repr), of the size of the layout rule (put_end_pos); conversely induction on the representation (repr_has_ty); combined with C28 | `C71_every_value`, `C71_only`, `C71_serialize`, `C71_witness` | proved |
| C72 | An output determines its values | two arbitrary successful runs of serialize_all | both outputs are decoded by the ordered reader (C25, now for every serializer), which is a function of the bytes (decode_ext) | `C72_output_determines_values`, `C72_witness` | proved |
| C73 | What #[ser_with] does, exactly | the macro model of C34/C36 (Derive.v); a field with its unreadable attributes struck out (seen) | get_with does not see unreadable attributes (with_metas_seen), so the facts of C36 about readable ones apply to what is left; induction on the fields | `C73_struct`, `C73_struct_as_annotated`, `C73_enum`, `C73_witness` | proved |
| C74 | How much stack serializing takes | the fuel of ser_data is an allowance of nested serialize_data calls; calls E t v counts them on the value (Depth.v) | mutual induction on the representation: enough (results are equal for any larger allowance) and needed (no success with less); by induction on the bound for types; a recursive type and lists of every length in PropDepth.v | `C74_exact`, `C74_type_bound`, `C74_recursive`, `C74_no_bound`, `C74_witness` | proved |
| C75 | One thread's serialized bytes are the next thread's input | the machine of C70: MFinish hands a finished thread's block to the program (no owner), MSpawn starts a thread with borrowed bytes no thread owns | the finished thread's outcome equals its run alone (C70_as_alone); its block holds valid values (found_valid, C46) whose places lie inside the output (C68_separate) and so inside its block; C69_lent gives the loan; separation of blocks (C70_separate) gives MSpawn's conditions. End to end: C70_output twice | `C75_relay`, `C75_end_to_end`, `C75_witness` | proved |
| C76 | What CompleteSerializer remembers while serializing | the pointer record of the Complete model (groups of positions, do_overwrite_ptr, new_ptr_group); Record.v counts its entries | a relation between states (n more positions; no more groups than allocator calls, with the group due after a move as potential) shown for each method and composed through bind; induction on the representation gives n = number of owned allocations; C59 and C37 bound the calls | `C76_count`, `C76_groups`, `C76_witness` | proved |
| C77 | Hand-written implementations are safe in any number of threads | the calls of hand-written implementations (Client.v) as programs of memory and allocator instructions (`ProgClient.v`); clients as sequences of storage calls and sessions (`ClientJobs.v`); the machine of C70 | the programs run alone are the model of Client.v (simulation); they read what they are lent (`confined`, by the structure of the calls); C57's session theorem, now for any memory holding the output, gives safety alone; MachineFacts makes that safety together | `C77_no_UB`, `C77_no_race`, `C77_touches`, `C77_inputs_unchanged`, `C77_ends`, `C77_output`, `C77_not_stuck`, `C77_supported`, `C77_witness` | proved |
| C78 | An output can be loaded at any address by adjusting its pointer words | a reader that follows pointers and lists the words it follows (`Load.v` handles); a program that copies an output and adjusts those words (`PropLoad.v` load) | the words are the patches of the layout rule (C25's encode, owned_handles), so disjoint; relocation by induction on the representation, with the places of C68 for the bytes that are not pointers | `C78_relocate`, `C78_load`, `C78_witness` | proved |
| C79 | Types that mix derived, built-in and hand-written implementations | a program: environment of layouts, declarations given to the macro model of Derive.v, hand-written impls as functions from memory and address to calls (`Mixed.v`); mx_data runs the generated statements, the impls of the crate and the hand-written ones | mutual induction on the representation: each value makes proper calls at its place and running it is running them (`MixedFacts.v`); calls of parts shifted to their offsets, kept apart by the field layout; the headers of Vec and String as overwrite calls; determinism by induction on makes; then C47. C79_derived by induction on fuel | `C79_derived`, `C79_calls`, `C79_mixed`, `C79_hypotheses`, `C79_witness` | proved |
| C80 | Hand-written parts compose: the whole output is a valid value | the programs of C79; `MixedValid.v` turns relates the value serialized to the one that comes out, given what each hand-written impl is meant to do; all_achieve is the obligation on each of them alone, stated on the effect of its calls (ClientSpec.v region) | the output has the effect of the calls of C79; by mutual induction on the representation each part's region is cut out of the whole's (calls shifted back, other parts disjoint), pointers are valid by `points`, headers by cases on the six layouts, discriminants are untouched or, in a niche, valid because the part is (niche_read) | `C80_value`, `C80_same`, `C80_hypotheses`, `C80_witness` | proved |
| C81 | Every value of every type a program can declare | type declarations without layouts, the repr(C)/repr(uN) layout rule of the Rust reference and the environment they give (`Source.v`; language, not code of /repo) | the table of layouts is stable because by-value mentions are earlier; placed fields are disjoint, aligned and inside; alignments are powers of two by induction on the order of declaration; values by mutual induction both ways; then C71, C18, C19, C21 | `C81_supported`, `C81_values`, `C81_every_program`, `C81_hypotheses`, `C81_witness` | proved |
| C82 | Extra memory of CompleteSerializer is bounded by its output | std's Vec growth (`vec_cap`) applied to the lists of the pointer record | disjoint fields add up to at most their struct (intervals, by splitting at the first); by induction on the representation a word per owned allocation fits in what holds them; C76 counts entries and groups | `C82_word_each`, `C82_memory`, `C82_no_overflow`, `C82_overflow`, `C82_witness` | proved |
| C83 | Sessions of values of mixed types survive panics of hand-written impls | the programs of C79 and a client that serializes a list of values under catch_unwind (`PropMixedSession.v` mx_session, as Client.session) | each value's run is that of the calls it makes (C79_calls), so the session is one of C57_resume; each image that is there is a valid value by the induction of C80 | `C83_session`, `C83_values`, `C83_hypotheses`, `C83_witness` | proved |
| C84 | Big numbers keep their value wherever they are | `bigint.rs` run wherever a type name means BigInt or BigUint (`PropBigNum.v` bn_data); the integer stored at an address | mutual induction on the representation: the run equals ser_data's (C33 at each BigInt); then C18, C19, C21; digits of any integer by well-founded recursion, present in memory by C71 | `C84_same_run`, `C84_value`, `C84_number`, `C84_part`, `C84_one_number`, `C84_every_number`, `C84_hypotheses`, `C84_witness` | proved |
| C85 | Programs of derived, built-in and hand-written implementations are safe in any number of threads | the programs of C79 as instructions (`ProgMixed.v`: generated statements, impls of the crate, hand-written impls as reading code followed by calls); clients and what must be lent to them (`MixedJobs.v`); the machine of C70 | run alone these programs are the model of Mixed.v (simulation by induction on fuel); they read only what is lent (confined, induction on fuel with the representation); C83 gives safety alone and the values; MachineFacts makes that safety together | `C85_no_UB`, `C85_no_race`, `C85_touches`, `C85_inputs_unchanged`, `C85_ends`, `C85_output`, `C85_values`, `C85_not_stuck`, `C85_witness` | proved |
| C86 | Types the storage cannot align are refused at compile time, and what compiles is safe | the instances of generic functions a program makes and the constants evaluated in them (`Mono.v`: mentions, consts_hold, made, accepted) | an instance that writes a type makes align_for of it (induction on ownership); an instance mentioned writes no more than the one mentioning it (induction on made); wf_ty from the language's layout rules and the check, by induction on types; then C05, C18, C19, C21 | `C86_exact`, `C86_enough`, `C86_safe`, `C86_storage`, `C86_rejects`, `C86_supported_compile`, `C86_witness`, `C86_page_refused`, `C86_check_needed` | proved |
| C87 | The output of PureCopy and PosTracking can be read in order for any program, hand-written impls included | the programs of C79; a reader of such outputs that leaves hand-written parts to their authors' readers (`MixedDecode.v` mx_decode) | induction on the representation: with these serializers every byte of a copy stays as in memory, and what the calls of a part push starts where reading had got to; C79_mixed and C83_session give the images | `C87_value`, `C87_same`, `C87_plan`, `C87_session`, `C87_hypotheses`, `C87_witness` | proved |
| C88 | Zero-sized slices pushed by hand | as C47: a push of a zero-sized type leaves the storage alone and gives position 0 | `ZstPush.v`: the push, the pointer write and the processing, by the invariants of C22; then C47 and inversion of its image | `C88_push`, `C88_zero_sized`, `C88_hypotheses`, `C88_witness` | proved |
| C89 | Hand-written impls over a user's own storage | hand-written impls (`GenClient.v`) calling the methods of a serializer over any storage (C66's model); what they may do in ClientSpec.v / GenClientSpec.v | `GenClientFacts.v`: induction on the calls with the per-piece invariant of C66 (ginv, gdone), zero-sized slices separately; simulation with Client.v over AlignedVec | `C89_custom_impls_any_storage`, `C89_custom_impl_any_storage`, `C89_aligned_vec`, `C89_steps_ok`, `C89_witness` | proved |
| C90 | Whole programs over a user's own storage | the programs of C79 run with the methods of a serializer over any storage (`GenMixed.v`) | `GenMixedFacts.v`: mutual induction on the representation, running a value is running the calls `makes` says (which C79 shows proper); these calls are plain; then C89, and the inductions of C80 and C87 on the images | `C90_calls`, `C90_mixed_any_storage`, `C90_values`, `C90_values_read`, `C90_aligned_vec`, `C90_witness` | proved |
| C91 | Outputs of whole programs can be moved and loaded at another address | the positions of the pointer words, from the calls (`Relocate.v` step_words … roots_words); an output moved with those words adjusted (moved_to); the loader of C78 | inductions on the calls: words lie where their slice is or in what is written after (words_where), so are apart; images and regions carry over to the moved memory (all_moved, regions_moved); then C90 and the induction of C80 at the new address | `C91_hand_written`, `C91_program`, `C91_load`, `C91_witness` | proved |
| C92 | Impls that hand fields on to any other impl, to any depth | Deleg.v: dx_data and g_dx_data, in which a hand-written impl's serialize_data call on a part (SField) runs the impl the program has for that type; calls, the calls of all parts written out; written_out, the program with them written out; DelegValid.v: effect, what may be assumed of the parts handed on | by induction on depth, the program written out keeps to the rules (DelegFacts.out_wb) and running the program is running it (dx_is_mx, g_dx_is_mx), so C79, C57, C89, C91 apply; all_out carries what each impl attains alone over to the program written out | `C92_conservative`, `C92_calls`, `C92_delegating`, `C92_value`, `C92_session`, `C92_session_values`, `C92_calls_any_storage`, `C92_any_storage`, `C92_load`, `C92_hypotheses`, `C92_witness`, `C92_witness_calls` | proved |
| C93 | Outputs without pointers of delegating programs read back | DelegDecode.v: dx_decode, a reader of whole outputs that leaves hand-written parts to their authors' readers, which may use it for what they hand on; wrote, what an author may assume of his calls | induction on the representation with the depth of nesting as a bound (reads_all), together with an induction on that bound which makes the readers right (all_reads); C92_delegating, C92_session and C92_any_storage give the images | `C93_value`, `C93_same`, `C93_session`, `C93_any_storage`, `C93_hypotheses`, `C93_witness` | proved |
| C94 | Impls that hand fields on, in any number of threads | The programs of C92 with every memory access explicit (`ProgDeleg.v`: readers of hand-written impls, then their calls, fields handed on by recursion), as threads of `Machine.v`. | `DelegJobs.v`: simulation with Deleg.v when run alone; confinement to the ranges lent by induction on the fuel and, mutually, on the rules for calls; C92_session for the absence of undefined behaviour; then the machine's invariant (C70). Outputs by `dx_is_session`, values by C92's `valid`. | `C94_no_UB`, `C94_no_race`, `C94_touches`, `C94_inputs_unchanged`, `C94_ends`, `C94_output`, `C94_values`, `C94_not_stuck`, `C94_witness` | proved |
| C95 | Sessions with caught panics over any storage | `GenClient.v`: g_catch, g_attempt_all, g_session, and storage calls by implementations (g_store_call) over any storage; `Deleg.v`: g_dx_session; `GenClientSpec.v`: proper implementations, g_attempts (what became of each value). | The invariant of C66/C89 is kept through a panic (`gdone`/`grdone`: serializer state consistent, no pointers recorded below the position at the start, bytes below kept, and the reason: a refused request within the value's output or client code); `GenSession.v` by induction over the values; programs by geq to the calls they make (C92). AlignedVec by the simulation of C89. | `C95_session`, `C95_programs`, `C95_values`, `C95_only_if_full`, `C95_all_there`, `C95_aligned_vec`, `small_contract`, `small_refuses`, `C95_witness`, `C95_program_witness` | proved |
| C96 | Every byte of the output of any program, by a reference encoder | No new code: the runs of C89, C92, C95. Specification: `Bytes.v`, a reference encoder (`*_pieces`: position, length, content; `found`: the last piece at a position) and `padding`. | `region`/`image` (ClientSpec.v) imply the encoder's claim by induction over the calls: a byte no piece of a call covers is the copied one, since no other call is for that place; uncovered positions are padding by induction over the allocations. Sessions through g_attempts/attempts; two storages by uniqueness of the calls. | `C96_hand_written`, `C96_programs`, `C96_sessions`, `C96_aligned_vec`, `C96_same_output`, `C96_witness` | proved |
| C97 | The pointer record of any program: entries, size and memory, on any storage | No new code: `g_attempt_all` (GenClient.v), `g_dx_attempt_all` (Deleg.v), `attempt_all` (Client.v). Specification: `entries_in`, `record_small` (PropGenRecord.v), `vec_cap` (PropRecordMem.v). | `GenRecord.v`: no group put aside is empty, and only Complete records anything, kept by every step also through panics; the invariant of C95 (`ginv`: record = pointers present, distinct, aligned, within the output) gives the entries; distinct aligned words are disjoint intervals, so they take no more than the output. | `C97_session`, `C97_programs`, `C97_aligned_vec`, `C97_witness`, `C97_program_witness` | proved |
| C98 | Panics caught inside an implementation are harmless if the mapping is restored | `Catch.v`: implementations with catch_unwind inside (cstep: a call, push_and_process_slice with such a closure, catch_unwind with or without restoring the mapping) over the methods of GenSerializer.v/GenClient.v; c_session. Specification in the same file: csteps_ok (the rules, with the one about restoring), c_image/c_attempts (the output, with nothing said of what a caught call left, but a reason given for each catch: a panic of the implementation's own or a refusal, [refused_within], for one of the calls in it at a position reached). | `CatchFacts.v`: `cdone`, as `gdone` of C66 but the end position existential and the mapping kept only while no caught call may have left another; calls by C89; push_and_process_slice by giving the closure's end in advance (`guard`) and using the lemma of C89 for a closure of known end; catch_unwind because the invariant is kept through a panic (C95) and `keeps_map`: calls that cannot leave another value's mapping behind. | `C98_session`, `C98_nothing_to_catch`, `C98_room`, `C98_catching_nothing`, `C98_rules_of_calls`, `C98_mapping_lost`, `C98_witness`, `C98_room_witness` | proved |
| C99 | Serializing ends exactly when the implementations' calls nest finitely, and that much stack is enough | No new code: `g_dx_data`, `g_dx_session`, `dx_data` (Deleg.v), whose fuel is the number of calls there is room for. Specification: `Nest.v`, `callees` (the calls of serialize_data one call makes itself), `nested` (at most n active at once), `goes_on` (a circle). | `NestFacts.v`: bodies whose callees behave the same behave the same (`same_data`), a body with a callee that never returns never returns (`fails_data`), for every type and impl; then induction over `nested`, and over the allowance for circles. Bodies do nothing but the storage's methods and total arithmetic (`fine`), so only a callee can run out. For valid values of programs that keep to the rules, induction as in C92. Over AlignedVec by the simulation of GenSerAV.v. | `C99_needed`, `C99_enough`, `C99_circle`, `C99_overflow`, `C99_session`, `C99_session_needed`, `C99_valid`, `C99_no_circle`, `C99_aligned_vec_ends`, `C99_aligned_vec`, `C99_witness`, `C99_circle_witness` | proved |
| C100 | Outputs of whole programs can be serialized again, any number of times | No new code: `g_dx_all` (Deleg.v) over any storage. Specification in `PropGenerations.v`: `generation`, `generations` (an output where it is, or moved with its pointer words adjusted, is the next input), `turned` (`turns` of C80/C92, n times). | One generation: C92_load and C91's `relocatable` for the values there, C99 for the stack (what succeeded with some stack has the same result with more), sizes and addresses by the arithmetic of push_end and the storage's contract; then induction on the number of generations. Functionality of `repr` (C72) for what else could be read; induction on `turns` for impls that act once. | `C100_generations`, `C100_values`, `C100_next`, `C100_faithful`, `C100_settles`, `C100_any_session`, `C100_hypotheses`, `C100_witness` | proved |
| C101 | The positions a serializer gives back can be relied on by the implementations that get them | `reacts` (React.v): an implementation as a tree that branches on positions; `r_call` (a call of Client.v together with the position it returns, serializer.rs:297-299, :333-342, :365-367), `r_run` (serialize.rs:97-102), `r_all`, `r_session`. Specification: `calls_from` / `roots_from` / `roots_at`, the calls such an implementation makes when the positions are the right ones. | `ReactFacts.v`: induction on the tree; each push returns `slice_pos` of the position before it (push_slice_answer, pps_answer), the position after a call is `step_end`, so the calls made are those of `calls_from`, and the image invariant of C89 composes as there. `ReactSame.v`: the same induction for equality of outcome and state (two closures that agree wherever a push can run them give the same push, g_push_same). C101_bytes, C101_same_output: C101_same and C96. C101_position by inversion of the image. | `C101_same`, `C101_same_session`, `C101_any_storage`, `C101_session`, `C101_aligned_vec`, `C101_fixed`, `C101_position`, `C101_witness`, `C101_position_witness`, `C101_bytes`, `C101_same_output`, `C101_bytes_witness` | proved |
