{"id": "C01", "title": "align_up_to rounds up exactly", "statement": "For a power-of-two alignment and a position such that pos + alignment does not overflow usize, align_up_to returns the smallest multiple of alignment that is >= pos, in debug and release builds alike, and never panics.", "quantifier": "all usize positions and all power-of-two alignments with no overflow, both pointer widths, both build modes", "why_tests_cant": "2^64 positions x 64 alignments; a mask/off-by-one bug shows only at boundaries", "anchors": ["ser_raw/src/util.rs: align_up_to"]}
{"id": "C02", "title": "is_aligned_to decides divisibility", "statement": "For a power-of-two alignment, is_aligned_to(pos, alignment) is true exactly when pos is a multiple of alignment.", "quantifier": "all usize positions and power-of-two alignments", "why_tests_cant": "domain is 2^64 x 64", "anchors": ["ser_raw/src/util.rs: is_aligned_to"]}
{"id": "C03", "title": "aligned_max_capacity is the largest legal capacity", "statement": "aligned_max_capacity(a) panics unless a is a power of two below isize::MAX; otherwise its result c is a multiple of a, c rounded up to a does not exceed isize::MAX (std::alloc::Layout's rule), and it is the greatest value with that property.", "quantifier": "all usize alignments, 32 and 64 bit", "why_tests_cant": "needs every alignment, and maximality is a universal statement", "anchors": ["ser_raw/src/util.rs: aligned_max_capacity"]}
{"id": "C04", "title": "aligned_max_u32_capacity is a legal capacity whose positions fit in u32", "statement": "For each accepted alignment, aligned_max_u32_capacity(a) is a non-zero multiple of a, is accepted as MAX_CAPACITY for STORAGE_ALIGNMENT = a, and every position below it is representable as a u32.", "quantifier": "all usize alignments, 32 and 64 bit", "why_tests_cant": "universal over alignments and positions", "anchors": ["ser_raw/src/util.rs: aligned_max_u32_capacity"]}
{"id": "C05", "title": "Storage invariants hold after every history", "statement": "After any sequence of safe AlignedVec calls starting from new() or with_capacity(n), including calls that panic and are caught, capacity() is a multiple of MAX_VALUE_ALIGNMENT and <= MAX_CAPACITY, pos() <= capacity(), pos() is a multiple of VALUE_ALIGNMENT, and, once memory is allocated, the buffer address is non-null and a multiple of STORAGE_ALIGNMENT.", "quantifier": "all valid const-parameter choices, all call sequences, all value layouts, all allocator behaviours, both build modes", "why_tests_cant": "the set of histories is infinite and the allocator is adversarial", "anchors": ["ser_raw/src/storage/mod.rs: Storage (push_slice, push_empty_slice, align_for, align_after, align, clear)", "ser_raw/src/storage/aligned_vec.rs: AlignedVec (reserve, grow_for_reserve, shrink_to_fit, with_capacity_unchecked)"]}
{"id": "C06", "title": "push / push_slice store the data where they say", "statement": "If push_slice (or push, push_bytes) of a non-zero-sized T returns p, then p is a multiple of align_of::<T>(), p is at or after the previous pos() with less padding than the alignment, bytes [p, p + size*len) of the storage equal the slice's bytes (even if the buffer was reallocated), all previously stored bytes are unchanged, and pos() afterwards is p + size*len rounded up to VALUE_ALIGNMENT. For zero-sized T the storage is untouched and 0 is returned.", "quantifier": "all storages satisfying the invariants, layouts, slice lengths, contents, allocator behaviours", "why_tests_cant": "unbounded state and content space; reallocation paths depend on capacity", "anchors": ["ser_raw/src/storage/mod.rs: push_slice, push, push_bytes", "ser_raw/src/storage/aligned_vec.rs: push_slice_unchecked, write_slice"]}
{"id": "C07", "title": "Push positions are deterministic", "statement": "The positions returned by a sequence of pushes depend only on the sequence of types and lengths and on the starting position, never on the initial capacity, on intermediate reserve/growth, on where the allocator places or moves the buffer, or on the bytes pushed.", "quantifier": "all push sequences and all pairs of capacities/allocators/contents", "why_tests_cant": "relational property over pairs of unbounded runs", "anchors": ["ser_raw/src/storage/mod.rs: push_slice, align_for, align_after", "ser_raw/src/storage/aligned_vec.rs: reserve"]}
{"id": "C08", "title": "reserve grows exactly when and as documented", "statement": "reserve(n) does nothing if capacity() - pos() >= n; otherwise, if pos() + n <= MAX_CAPACITY it leaves pos() and contents unchanged and makes capacity() the next power of two >= pos()+n (at least MAX_VALUE_ALIGNMENT on first allocation, capped at MAX_CAPACITY), and if pos() + n > MAX_CAPACITY it panics leaving the storage unchanged. So after reserve returns, n more bytes fit.", "quantifier": "all reachable storages and all usize n (including values that overflow pos + n)", "why_tests_cant": "overflow and cap boundaries range over all usize", "anchors": ["ser_raw/src/storage/aligned_vec.rs: reserve, grow_for_reserve"]}
{"id": "C09", "title": "with_capacity rounds up and bounds", "statement": "with_capacity(c) panics iff c > MAX_CAPACITY; with_capacity(0) allocates nothing; otherwise capacity() is c rounded up to a multiple of MAX_VALUE_ALIGNMENT, is <= MAX_CAPACITY, and pos() is 0.", "quantifier": "all valid const parameters and usize c", "why_tests_cant": "universal over const parameters and c", "anchors": ["ser_raw/src/storage/mod.rs: with_capacity", "ser_raw/src/storage/aligned_vec.rs: with_capacity_unchecked, new"]}
{"id": "C10", "title": "shrink_to_fit keeps the data and gives the minimum capacity", "statement": "shrink_to_fit leaves pos() and the bytes below pos() unchanged, makes capacity() the least multiple of MAX_VALUE_ALIGNMENT >= pos() (freeing the buffer when that is 0), and never grows the storage.", "quantifier": "all reachable storages", "why_tests_cant": "unbounded state space", "anchors": ["ser_raw/src/storage/aligned_vec.rs: shrink_to_fit"]}
{"id": "C11", "title": "clear resets without freeing", "statement": "clear() sets pos() to 0 and keeps capacity and buffer; a later push sequence behaves as on a fresh storage with that capacity (same positions).", "quantifier": "all reachable storages", "why_tests_cant": "unbounded state space", "anchors": ["ser_raw/src/storage/mod.rs: clear"]}
{"id": "C12", "title": "Allocator protocol and no leaks", "statement": "Over any history of safe AlignedVec calls ending in drop, every allocator call satisfies the GlobalAlloc/Layout contract (non-zero size, size rounded up to the alignment fits isize, realloc/dealloc name the one live block with exactly its current size and alignment), and after drop no block is live: no leak, no double free.", "quantifier": "all histories, allocator behaviours and const parameters", "why_tests_cant": "needs every interleaving of growth, shrinking and drop", "anchors": ["ser_raw/src/storage/aligned_vec.rs: alloc, realloc, dealloc, layout, grow_for_reserve, shrink_to_fit, Drop"]}
{"id": "C13", "title": "Safe Storage calls never cause out-of-bounds or misaligned access", "statement": "No sequence of safe AlignedVec calls makes the storage read or write outside its allocation or use a misaligned pointer.", "quantifier": "all histories, const parameters, layouts, allocator behaviours", "why_tests_cant": "absence of UB over all histories", "anchors": ["ser_raw/src/storage/mod.rs: push_slice, push_empty_slice", "ser_raw/src/storage/aligned_vec.rs: write_slice, push_slice_unchecked"]}
{"id": "C14", "title": "push_empty reserves aligned space", "statement": "push_empty::<T>() and push_empty_slice::<T>(n) return a position p aligned for T such that [p, p + n*size_of::<T>()) lies inside [old pos, new pos) of the storage, leaving existing bytes unchanged, and do not panic while the space fits in MAX_CAPACITY.", "quantifier": "all reachable storages, layouts, usize n, both build modes", "why_tests_cant": "universal over n (incl. multiplication overflow) and build mode", "anchors": ["ser_raw/src/storage/mod.rs: push_empty, push_empty_slice", "ser_raw/src/storage/aligned_vec.rs: set_pos"]}
{"id": "C15", "title": "Capacity failures are clean", "statement": "If a push, reserve or with_capacity panics because MAX_CAPACITY would be exceeded, the bytes already stored, the capacity and the buffer are unchanged and the storage still satisfies all its invariants, so it can be used further.", "quantifier": "all reachable storages and operations", "why_tests_cant": "panic paths at every fill level", "anchors": ["ser_raw/src/storage/aligned_vec.rs: grow_for_reserve", "ser_raw/src/storage/mod.rs: push_slice, with_capacity"]}
{"id": "C16", "title": "Random-access write then read", "statement": "write/write_slice at an aligned in-bounds position changes exactly the bytes [pos, pos+size*len), and read at such a position returns exactly the bytes last written there; neither moves the buffer nor changes pos() or capacity().", "quantifier": "all storages, positions, layouts, contents", "why_tests_cant": "frame property over all other bytes", "anchors": ["ser_raw/src/storage/mod.rs: write", "ser_raw/src/storage/aligned_vec.rs: write_slice, read"]}
{"id": "C17", "title": "Const-parameter validation is sufficient", "statement": "Every parameter choice accepted by ASSERT_ALIGNMENTS_VALID satisfies: all alignments are powers of two with VALUE <= MAX_VALUE <= STORAGE, MAX_CAPACITY is a non-zero multiple of MAX_VALUE_ALIGNMENT, and any capacity up to MAX_CAPACITY forms a legal Layout; every choice satisfying these is accepted.", "quantifier": "all quadruples of usize", "why_tests_cant": "2^256 parameter choices", "anchors": ["ser_raw/src/storage/mod.rs: ASSERT_ALIGNMENTS_VALID"]}
{"id": "C18", "title": "PureCopy output can be decoded in order", "statement": "After any of the serializers (PureCopySerializer in particular, but also a pos_tracking, ptr_offset or complete one, and wherever the output was moved to) serializes a value and returns (pos, storage), a reader that knows only the type, the four const parameters and pos, and walks the output in the deterministic serialization order without following pointers, reconstructs exactly the input value.", "quantifier": "all values of all supported types (primitives, Box, Vec, String, arrays, tuples, structs, enums/Option, recursive types), const parameters, allocators", "why_tests_cant": "type and value spaces are unbounded", "anchors": ["ser_raw/src/serializer.rs: serialize_value, push_and_process_slice", "ser_raw/src/serializers/pure_copy.rs", "ser_raw/src/serialize_impls/ptrs.rs", "ser_raw/src/serialize_impls/multiples.rs", "ser_raw/src/serialize_impls/other.rs"]}
{"id": "C19", "title": "PtrOffset output is navigable by offsets", "statement": "After PtrOffsetSerializer serializes a value, reading the output from the returned position and interpreting every pointer of a non-empty, non-zero-sized pointee as a byte offset from the start of the output yields exactly the input value, with every offset aligned for its pointee and within the output.", "quantifier": "all values of all supported types, const parameters, initial capacities, allocators", "why_tests_cant": "unbounded values and types", "anchors": ["ser_raw/src/serializer_traits/ptr_writing.rs: do_push_slice, do_push_and_process_slice", "ser_raw/src/serializer_traits/ptr_offset.rs: do_overwrite_ptr", "ser_raw/src/serializer_traits/pos_tracking.rs: do_serialize_value", "ser_raw/src/pos.rs: PosMapping"]}
{"id": "C20", "title": "PtrOffset offsets are never zero", "statement": "Every offset PtrOffsetSerializer writes is non-zero and points past the allocation holding it, so null-pointer niches (Option<Box<T>>, Option<Vec<T>>, Option<String> and nestings) keep their variant in the output.", "quantifier": "all values of all supported types with niche-encoded enums", "why_tests_cant": "niche confusion needs a specific layout", "anchors": ["ser_raw/src/serializer_traits/ptr_offset.rs: do_overwrite_ptr", "ser_raw/src/serialize_impls/other.rs"]}
{"id": "C21", "title": "Complete output is a valid copy of the input", "statement": "After CompleteSerializer::serialize(&value) returns (pos, storage), the memory at storage address + pos, viewed as type T, represents exactly the input value: every pointer has been replaced by a pointer into the output to a correctly aligned valid copy of its pointee, to any depth.", "quantifier": "all values of all supported types, const parameters, initial capacities, allocators (any number of moves of the buffer), both pointer widths, endiannesses and Vec layouts", "why_tests_cant": "unbounded values; growth can move the buffer at any push", "anchors": ["ser_raw/src/serializer_traits/complete.rs: do_overwrite_ptr, do_finalize", "ser_raw/src/serializer_traits/ptr_writing.rs", "ser_raw/src/pos.rs: PtrGroup::correct_ptrs", "ser_raw/src/serialize_impls/ptrs.rs"]}
{"id": "C22", "title": "Pointer correction is right for every move history", "statement": "However the buffer moves while pointers are being recorded (never, many times, back to an address it had before, moving after the last pointer), after finalize every recorded pointer equals final buffer address + its target position, and no other byte of the output is changed by finalize.", "quantifier": "all sequences of pointer writes interleaved with arbitrary address changes", "why_tests_cant": "address reuse is up to the allocator and cannot be forced by tests", "anchors": ["ser_raw/src/serializer_traits/complete.rs: do_overwrite_ptr, new_ptr_group, do_finalize", "ser_raw/src/pos.rs: Ptrs, PtrGroup"]}
{"id": "C23", "title": "Complete output is shrunk to fit", "statement": "In CompleteSerializer output every Vec of non-zero-sized elements and every String has capacity == len, and an empty one has capacity 0 and the canonical dangling pointer (the element alignment), whatever the capacity of the input. (An input Vec that has allocated nothing is assumed to hold std's canonical dangling pointer; the serializer leaves that one as it is.)", "quantifier": "all values of all supported types and spare capacities", "why_tests_cant": "every nesting and every len/capacity pair", "anchors": ["ser_raw/src/serialize_impls/ptrs.rs: Vec::serialize_data, String::serialize_data, overwrite_capacity_and_ptr_for_empty_vec"]}
{"id": "C24", "title": "Complete output is self-contained", "statement": "CompleteSerializer output represents the value using only bytes of the output buffer below pos(): it stays valid after the input is dropped or overwritten.", "quantifier": "all values of all supported types", "why_tests_cant": "universal over positions of every pointer in the output", "anchors": ["ser_raw/src/serializer_traits/complete.rs", "ser_raw/src/serializer_traits/ptr_writing.rs", "ser_raw/src/serialize_impls/ptrs.rs"]}
{"id": "C25", "title": "Several values in one output all stay valid", "statement": "When serialize_value is called several times before finalize, each call's value is found at its own returned position in the final output (read in order with every serializer; through the offsets or pointers with a ptr_offset or complete one), regardless of growth triggered by later calls.", "quantifier": "all lists of values of any supported types", "why_tests_cant": "interaction between an unbounded number of values and growth", "anchors": ["ser_raw/src/serializer.rs: serialize_value, finalize", "ser_raw/src/serializer_traits/pos_tracking.rs: do_serialize_value"]}
{"id": "C26", "title": "Serializing into existing storage preserves its contents", "statement": "A serializer built with from_storage on a storage that already holds data leaves the bytes below the initial pos() unchanged (they may move with the buffer) and writes only at or after it.", "quantifier": "all reachable storages, values, serializers", "why_tests_cant": "any earlier content", "anchors": ["ser_raw/src/serializers/complete.rs: from_storage", "ser_raw/src/serializers/ptr_offset.rs: from_storage", "ser_raw/src/serializers/pure_copy.rs: from_storage", "ser_raw/src/storage/mod.rs: push_slice"]}
{"id": "C27", "title": "All serializers produce the same layout", "statement": "For the same value and starting position, PureCopy, pos_tracking, PtrOffset and Complete serializers return the same position and leave the same pos(), given by one layout rule depending only on the value's shape and VALUE_ALIGNMENT.", "quantifier": "all values, types, serializer kinds, const parameters", "why_tests_cant": "relational over unbounded values", "anchors": ["ser_raw/src/serializer.rs", "ser_raw/src/serializer_traits/pos_tracking.rs", "ser_raw/src/serializer_traits/ptr_writing.rs", "ser_raw/src/serialize_impls/ptrs.rs"]}
{"id": "C28", "title": "Serialization succeeds exactly when the output fits", "statement": "Serializing a value succeeds iff its total padded output size fits MAX_CAPACITY (and the allocator does not fail); otherwise it panics with the capacity message and nothing else goes wrong.", "quantifier": "all values, types, serializers, MAX_CAPACITY", "why_tests_cant": "boundary at every size", "anchors": ["ser_raw/src/storage/aligned_vec.rs: grow_for_reserve", "ser_raw/src/serializer.rs"]}
{"id": "C29", "title": "Serializing supported types never panics otherwise or causes UB", "statement": "For valid input values of supported types, no debug assertion, arithmetic overflow, out-of-bounds or misaligned access, read of uninitialised memory or unreachable branch occurs in any of the four serializer kinds, in debug or release builds.", "quantifier": "all values, types, kinds, const parameters, allocators, build modes", "why_tests_cant": "absence property", "anchors": ["ser_raw/src/serializer.rs", "ser_raw/src/serializer_traits/pos_tracking.rs", "ser_raw/src/serializer_traits/ptr_writing.rs", "ser_raw/src/serializer_traits/ptr_offset.rs", "ser_raw/src/serializer_traits/complete.rs", "ser_raw/src/serialize_impls/ptrs.rs", "ser_raw/src/storage/aligned_vec.rs"]}
{"id": "C30", "title": "Position tracking is restored around nested processing", "statement": "With a position-tracking serializer, during processing of a pushed slice the output position computed for an address inside that slice is the place where its copy lies, and after the push returns addresses of the enclosing value map as before, for any nesting depth.", "quantifier": "all nestings", "why_tests_cant": "unbounded nesting", "anchors": ["ser_raw/src/serializer_traits/pos_tracking.rs: do_push_and_process_slice, do_serialize_value", "ser_raw/src/serializer_traits/ptr_writing.rs: do_push_and_process_slice", "ser_raw/src/pos.rs: PosMapping::pos_for_addr"]}
{"id": "C31", "title": "Vec/String field offsets are detected for every layout", "statement": "The compile-time detection of the ptr, capacity and len field offsets of Vec<T> and String yields the true offsets for each of the six possible field orders, every element alignment and both pointer widths.", "quantifier": "6 layouts x all alignments x pointer widths", "why_tests_cant": "a given compiler exhibits just one layout", "anchors": ["ser_raw/src/serialize_impls/ptrs.rs: VecOffsets, STRING_PTR_INDEX, OFFSETS_STRING"]}
{"id": "C32", "title": "Emptied Vec/String overwrite touches exactly capacity and pointer", "statement": "For an empty Vec/String with spare capacity, the Complete serializer's correction sets the capacity field to 0 and the pointer field to the dangling value, leaving len and all other output bytes unchanged, for every field order.", "quantifier": "6 layouts, all alignments, all storages", "why_tests_cant": "only one layout exists per compiler", "anchors": ["ser_raw/src/serialize_impls/ptrs.rs: overwrite_capacity_and_ptr_for_empty_vec, overwrite_capacity_and_ptr_for_empty_string"]}
{"id": "C33", "title": "BigInt data offset detection", "statement": "Serializing a BigInt finds the digits inside it whether the compiler put the sign first or last: it never panics in looking for them, reads nothing uninitialised, and does exactly what serializing the two fields at their true places would; BigInt meets the conditions of every other theorem on types.", "quantifier": "both field orders, all Vec field orders, both pointer widths and endiannesses", "why_tests_cant": "one compiler has one layout", "anchors": ["ser_raw/src/serialize_impls/bigint.rs: bigint_data_offset, create_bigint_bytes, BigInt::serialize_data"]}
{"id": "C34", "title": "derive(Serialize) visits each field of the live variant once, in order", "statement": "The code generated by derive(Serialize) calls serialize_data exactly once per field, in declaration order, for structs, and for enums exactly the fields of the value's current variant.", "quantifier": "all struct and enum declarations", "why_tests_cant": "unbounded family of declarations", "anchors": ["ser_raw_derive/src/structs.rs: derive_struct", "ser_raw_derive/src/enums.rs: derive_enum"]}
{"id": "C35", "title": "derived enum match is exhaustive and has no dead wildcard", "statement": "The match generated for an enum covers every variant, and has a catch-all arm iff at least one but not all variants carry fields.", "quantifier": "all enum declarations", "why_tests_cant": "unbounded family of declarations", "anchors": ["ser_raw_derive/src/enums.rs: derive_enum"]}
{"id": "C36", "title": "ser_with is honoured", "statement": "A field annotated #[ser_with(Proxy)] is serialized through Proxy::serialize_data_with and not through its own Serialize impl.", "quantifier": "all declarations", "why_tests_cant": "unbounded family; silently ignored attributes compile", "anchors": ["ser_raw_derive/src/structs.rs: get_with, get_field_stmt", "ser_raw_derive/src/enums.rs: get_field_stmts (TODO: Handle ser_with)"]}
{"id": "C37", "title": "Amortised growth", "statement": "In any sequence of pushes and reserves (no shrink) the number of allocator calls is at most logarithmic in MAX_CAPACITY (at most pointer width in bits + 1), since each growth moves capacity to a strictly larger power of two or to MAX_CAPACITY.", "quantifier": "all sequences", "why_tests_cant": "asymptotic bound over all histories", "anchors": ["ser_raw/src/storage/aligned_vec.rs: grow_for_reserve"]}
{"id": "C38", "title": "A pre-sized buffer never moves", "statement": "If capacity() is at least the final pos() of a serialization, the serializer makes no allocator call and the buffer address and capacity are unchanged.", "quantifier": "all values, kinds, storages", "why_tests_cant": "universal", "anchors": ["ser_raw/src/storage/aligned_vec.rs: reserve", "ser_raw/src/serializer.rs"]}
{"id": "C39", "title": "Safe pointer-address arguments cannot corrupt memory", "statement": "Calling the safe Serializer methods push, push_slice, push_and_process, push_and_process_slice with any Addr value never writes outside the output buffer.", "quantifier": "all Addr values, kinds, states", "why_tests_cant": "adversarial arguments", "anchors": ["ser_raw/src/serializer_traits/ptr_writing.rs: do_push_slice, do_push_and_process_slice", "ser_raw/src/serializer_traits/complete.rs: do_overwrite_ptr", "ser_raw/src/serializer_traits/ptr_offset.rs: do_overwrite_ptr"]}
{"id": "C40", "title": "Re-pushing for the same pointer keeps the pointer right", "statement": "If a Serialize implementation pushes twice for the same pointer address, the pointer in the final CompleteSerializer output points to the last pushed value.", "quantifier": "all clients and move histories", "why_tests_cant": "depends on buffer moving after the second push", "anchors": ["ser_raw/src/serializer_traits/complete.rs: do_overwrite_ptr, do_finalize", "ser_raw/src/pos.rs: PtrGroup::correct_ptrs"]}
{"id": "C41", "title": "Returned position is usable for any T", "statement": "The position returned by serialize for a value of type T can be used to obtain a correctly aligned reference to T in the output, including zero-sized T.", "quantifier": "all types incl. zero-sized ones with alignment > 1, all storages", "why_tests_cant": "depends on layout and on storage being unallocated", "anchors": ["ser_raw/src/storage/mod.rs: push_slice (ZST returns 0)", "ser_raw/src/storage/aligned_vec.rs: read, new (dangling)"]}
{"id": "C42", "title": "derive(Serializer) accepts exactly one tagged field", "statement": "The Serializer derive macro accepts a struct iff exactly one field carries each required attribute exactly once (and a known ser_type), and then uses that field.", "quantifier": "all struct declarations and attribute multiplicities", "why_tests_cant": "unbounded family", "anchors": ["ser_raw_derive_serializer/src/common.rs: get_tagged_field, get_ser_type", "ser_raw_derive_serializer/src/lib.rs"]}
{"id": "C43", "title": "Output size is bounded", "statement": "The output of serializing a value is at most the sum of the sizes of its allocations plus, per allocation, less than MAX_VALUE_ALIGNMENT + VALUE_ALIGNMENT bytes of padding.", "quantifier": "all values and const parameters", "why_tests_cant": "unbounded values", "anchors": ["ser_raw/src/storage/mod.rs: align_for, align_after"]}
{"id": "C44", "title": "derive(Serialize) handles every legal field name", "statement": "derive(Serialize) generates valid code for every field identifier Rust accepts, including raw identifiers, in structs and enum variants.", "quantifier": "all identifiers", "why_tests_cant": "unbounded set of names", "anchors": ["ser_raw_derive/src/enums.rs: get_match_for_named_fields (val_ aliases)"]}
{"id": "C45", "title": "Storage access during serialization is harmless", "statement": "Between pushes, a client of a CompleteSerializer may call any safe method on the storage returned by storage_mut() (push, reserve, align_for, clear, shrink_to_fit, ...); finalize never reads or writes outside the buffer, and pointers already recorded end up right.", "quantifier": "every sequence of pushes and safe storage calls, every allocator behaviour", "why_tests_cant": "depends on which calls are interleaved and where the allocator moves the buffer", "anchors": ["ser_raw/src/serializer.rs: Serializer::storage_mut", "ser_raw/src/serializer_traits/complete.rs: do_finalize", "ser_raw/src/pos.rs: PtrGroup::correct_ptrs"]}
{"id": "C46", "title": "ser_bound is applied or rejected, never dropped", "statement": "derive(Serialize) puts the bound of #[ser_bound(B)] on the generated impl when the type carries that attribute exactly once; it reports an error when the attribute is malformed or given twice, adds no bound when there is none, and rejects unions.", "quantifier": "all type declarations and attribute lists", "why_tests_cant": "unbounded family; an ignored attribute still compiles", "anchors": ["ser_raw_derive/src/lib.rs: serialize_impl, get_generics, get_ser_bound"]}
{"id": "C47", "title": "Hand-written Serialize implementations are safe and faithful", "statement": "For any hand-written Serialize or SerializeWith implementation built from calls to push_and_process / push_and_process_slice, push / push_slice, push_raw, overwrite inside overwrite_with, safe calls on storage_mut() other than clear (reserve, shrink_to_fit, push, push_slice, push_bytes, align_for, ...), and delegation to fields of supported types, nested to any depth, that names each pointer, overwritten place and field once, inside the value and aligned (the slices pushed may be empty or of zero-sized types): serialize never has undefined behaviour and panics only when the implementation itself does or the output does not fit; the output is the value's bytes with exactly those places changed: each pushed slice is copied at the next aligned position and processed by its own calls, each pointer pushed for points to that copy (PtrOffset, Complete) or keeps its bytes (PureCopy, PosTracking), each place of a direct storage push holds the pushed bytes, each overwritten place holds the given bytes (Complete) or its old ones (others), and each delegated field is a faithful image.", "quantifier": "every tree of serializer and storage calls keeping to the rules, every memory, layout, serializer, storage state, allocator", "why_tests_cant": "implementations are arbitrary user programs; nesting depth, order of calls and buffer growth points are unbounded", "anchors": ["ser_raw/src/serialize.rs: Serialize, SerializeWith", "ser_raw/src/serializer.rs: Serializer::push_and_process_slice, push_slice, push_raw_slice, overwrite_with, overwrite", "ser_raw/src/serializer.rs: Serializer::storage_mut"]}
{"id": "C48", "title": "Exactly which storage calls are unsound", "statement": "A history of safe calls on an AlignedVec has undefined behaviour if and only if at some point push_slice is called with an empty slice of a type with non-zero size and alignment above 1 while the storage has no buffer.", "quantifier": "every initial capacity, every history of safe calls with valid arguments, every allocator, debug and release", "why_tests_cant": "needs all histories of calls; memory checkers see only those run", "anchors": ["ser_raw/src/storage/aligned_vec.rs: push_slice_unchecked, as_mut_ptr", "ser_raw/src/storage/mod.rs: push_slice"]}
{"id": "C49", "title": "push_empty_slice: the outcome in every case", "statement": "push_empty_slice::<T>(n) on any storage: with bytes = size_of::<T>() * n modulo 2^bits, it panics on overflow in debug builds only, with the capacity message when the bytes do not fit under MAX_CAPACITY, with the debug assertion when in a debug build the bytes are no multiple of VALUE_ALIGNMENT, and otherwise returns the next position aligned for T and advances to the end of the bytes rounded up; in all cases the bytes stored before are kept.", "quantifier": "all storages, layouts, lengths, debug and release", "why_tests_cant": "sizes and states are unbounded", "anchors": ["ser_raw/src/storage/mod.rs: push_empty_slice", "ser_raw/src/serializer.rs: push_empty_slice"]}
{"id": "C50", "title": "Pushing for an arbitrary address: exactly which word is written", "statement": "In a release build, push/push_slice of a PtrOffset or Complete serializer with any address n writes the word at position (n - input base + output base) modulo 2^bits: undefined behaviour if and only if that word is not inside the buffer or not aligned, otherwise exactly that word is set, to the offset or address of the pushed slice. In a debug build the same call is never undefined: if the word is inside the buffer and aligned it is set likewise, otherwise the call panics after the push and changes nothing else.", "quantifier": "every address, mapping, storage, slice", "why_tests_cant": "all addresses are 2^64 cases", "anchors": ["ser_raw/src/pos.rs: PosMapping::pos_for_addr", "ser_raw/src/serializer_traits/ptr_offset.rs", "ser_raw/src/serializer_traits/complete.rs"]}
{"id": "C51", "title": "When the position returned by serialize may be dereferenced", "statement": "The address storage.as_ptr() + pos returned by serialize is a valid reference for the type if and only if the storage has a buffer or the type has alignment 1; the storage has no buffer only if the type is zero-sized and nothing was stored.", "quantifier": "all values, types, serializers, storages", "why_tests_cant": "all types and states", "anchors": ["ser_raw/src/serializer.rs: serialize, serialize_value", "ser_raw/src/storage/aligned_vec.rs: as_ptr"]}
{"id": "C52", "title": "A pointer word written several times: its exact final value", "statement": "After any history of pointer writes and storage calls other than clear with a CompleteSerializer, finalize leaves in every pointer word the final buffer address plus the target of its last write plus, for every earlier write at the same position, the distance the buffer moved since that write (modulo 2^bits); with exactly two writes at a position the pointer is right if and only if the buffer ended up where it was at the first write. All other bytes are unchanged.", "quantifier": "every history of pointer writes and storage calls, every allocator and every choice of when the buffer moves", "why_tests_cant": "depends on the interleaving of writes and reallocations, which is unbounded and up to the allocator", "anchors": ["ser_raw/src/serializers/complete.rs: CompleteSerializer", "ser_raw_derive_serializer/src/ser_types/complete.rs: finalize, overwrite_ptr", "ser_raw/src/serializer_traits/complete.rs: Complete", "ser_raw/src/pos.rs: Ptrs, PtrGroup, correct_ptrs"]}
{"id": "C53", "title": "finalize after clear during serialization: exactly when it is unsound", "statement": "After any safe storage calls, clear included, interleaved with pointer writes of a CompleteSerializer, finalize has undefined behaviour if and only if some pointer was written while the buffer was at another address than now and its word is now outside the buffer or not initialised; otherwise it succeeds and leaves a consistent storage.", "quantifier": "every history of safe calls, every allocator", "why_tests_cant": "depends on unbounded histories and on the allocator", "anchors": ["ser_raw_derive_serializer/src/ser_types/complete.rs: finalize", "ser_raw/src/pos.rs: PtrGroup::correct_ptrs", "ser_raw/src/serializer.rs: storage_mut"]}
{"id": "C54", "title": "Output is byte-for-byte that of a reference encoder", "statement": "When a sequence of values is serialized successfully with any of the serializers, every byte of every block of the output is determined: it equals the byte that a reference encoder computes from the input memory alone, namely the input's byte, except for the words the serializer documents it rewrites (pointers for PtrOffset and Complete, capacities and the pointer of an emptied Vec/String for Complete), which hold the new pointer / offset / number. The blocks, their positions, and the end of the output are the encoder's too. Only alignment padding between blocks is unspecified.", "quantifier": "all serializers, configurations, type environments, input memories, sequences of valid values, and starting storages", "why_tests_cant": "The number of input shapes is unbounded; tests compare a few round trips, which also cannot see wrong bytes that the decoder ignores (padding inside structs, spare fields, capacities).", "anchors": ["ser_raw/src/serializers/complete.rs", "ser_raw/src/serializers/ptr_offset.rs", "ser_raw/src/serializers/pure_copy.rs", "ser_raw/src/serializer.rs: serialize_value, push_and_process_slice", "ser_raw/src/serialize_impls/bigint.rs", "ser_raw/src/serialize_impls/multiples.rs", "ser_raw/src/serialize_impls/other.rs", "ser_raw/src/serialize_impls/primitives.rs", "ser_raw/src/serialize_impls/ptrs.rs"]}
{"id": "C55", "title": "Output depends only on input, serializer, machine and value alignment", "statement": "Two serializations of the same values with the same serializer, on the same kind of machine (pointer width, byte order), with the same value alignment and from the same position, give the same positions, the same length and the same bytes in every block, even if the storages differ in alignment, maximum value alignment, capacity, maximum capacity, allocator behaviour and build profile. For Complete the bytes agree if the final buffers lie at the same address.", "quantifier": "all pairs of configurations that agree on pointer width, byte order and value alignment; all inputs and storages", "why_tests_cant": "Independence from allocator behaviour and capacity ranges over all reallocation schedules.", "anchors": ["ser_raw/src/storage/aligned_vec.rs", "ser_raw/src/serializers/complete.rs", "ser_raw/src/serializers/ptr_offset.rs", "ser_raw/src/serializers/pure_copy.rs"]}
{"id": "C56", "title": "A Complete output serializes like the original", "statement": "The output of the Complete serializer is itself a valid input: serializing, again with Complete, the values found in it succeeds whenever there is room, and produces, in a storage at the same position, the same positions, length and (if the final buffers lie at the same address) the same bytes in every block as serializing the original values there. In particular, re-serializing at the same address reproduces the output exactly.", "quantifier": "all sequences of valid values, input memories, type environments, configurations, and starting storages of the three runs", "why_tests_cant": "Ranges over all values and three independent storages; round-trip tests compare decoded values, which cannot see wrong bytes the decoder ignores, such as capacities and the pointers of emptied Vecs.", "anchors": ["ser_raw/src/serializers/complete.rs", "ser_raw/src/serialize_impls/bigint.rs", "ser_raw/src/serialize_impls/multiples.rs", "ser_raw/src/serialize_impls/other.rs", "ser_raw/src/serialize_impls/primitives.rs", "ser_raw/src/serialize_impls/ptrs.rs"]}
{"id": "C57", "title": "A caught panic leaves the serializer usable", "statement": "A client that serializes several values with serialize_value on one serializer, each call under catch_unwind, and then finalizes, never has undefined behaviour and gets no further panic, even though implementations panic at any point or the storage overflows: every call that returned gave the next position for its value, and the whole image of that value is in the final output with its pointers correct, whatever panicked before or after it; a call panics only if its own implementation does or its output does not fit; everything in the storage before is kept.", "quantifier": "every sequence of values with hand-written implementations (trees of calls, panicking anywhere), every serializer, memory, storage state, allocator", "why_tests_cant": "the panic may happen at any call of any implementation, leaving a half-written value, pointers recorded for it and a stale position mapping; tests can only try a few panic points", "anchors": ["ser_raw/src/serializer.rs: Serializer::serialize_value, pos, finalize", "ser_raw/src/serializer_traits/complete.rs", "ser_raw/src/serializer_traits/pos_tracking.rs", "ser_raw/src/serializer_traits/ptr_offset.rs", "ser_raw/src/serializer_traits/ptr_writing.rs", "ser_raw/src/serializer_traits/writable.rs", "ser_raw/src/pos.rs: PosMapping, PtrGroup"]}
{"id": "C58", "title": "Copying done by growth is linear", "statement": "However an output is built up, the reallocations a storage makes copy at most twice the capacity it ends with (as long as shrink_to_fit is not called), panicking calls included; that capacity is at most twice the largest end of space any call asked for (or what it was before, or MAX_VALUE_ALIGNMENT). So building an output of n bytes by pushes alone copies at most max(4n, 2 MAX_VALUE_ALIGNMENT) bytes, and serializing values copies at most twice the capacity reached.", "quantifier": "every history of storage calls without shrink_to_fit, every sequence of serialized values, every serializer, allocator and parameters", "why_tests_cant": "an amortised bound over all histories of pushes of arbitrary sizes; a test measures one history", "anchors": ["ser_raw/src/storage/aligned_vec.rs: grow_for_reserve", "ser_raw/src/storage/aligned_vec.rs: push_slice, reserve"]}
{"id": "C59", "title": "Serializing uses the storage exactly as one push_slice per allocation", "statement": "Serializing values drives the storage exactly as calling push_slice on it once per allocation of those values (the value itself, then each non-empty owned slice in order) does: same positions, same growths, same allocator calls with the same sizes, same capacity panic or allocation failure. It does not depend on the serializer, on the contents, nor on where the values are in memory: all four serializers make the same allocator calls. The same holds for a hand-written implementation that makes no storage calls and does not panic.", "quantifier": "every sequence of values, all serializers, every memory, every storage state, every allocator; every hand-written implementation (tree of calls)", "why_tests_cant": "equivalence of two whole runs over all values and growth points", "anchors": ["ser_raw/src/serializer_traits/complete.rs: push_and_process_slice, push_slice", "ser_raw/src/serializer_traits/pos_tracking.rs: push_and_process_slice, push_slice", "ser_raw/src/serializer_traits/ptr_offset.rs: push_and_process_slice, push_slice", "ser_raw/src/serializer_traits/ptr_writing.rs: push_and_process_slice, push_slice", "ser_raw/src/serializer_traits/writable.rs: push_and_process_slice, push_slice", "ser_raw/src/serializer.rs: Serializer::serialize", "ser_raw/src/storage/aligned_vec.rs: push_slice"]}
{"id": "C60", "title": "Default const parameters", "statement": "AlignedVec with no const arguments compiles on every supported machine, with STORAGE_ALIGNMENT and MAX_VALUE_ALIGNMENT 16, VALUE_ALIGNMENT the size of a pointer and the largest MAX_CAPACITY a storage of that alignment can have. With MAX_CAPACITY left out, exactly the power-of-two choices with VALUE_ALIGNMENT <= MAX_VALUE_ALIGNMENT <= STORAGE_ALIGNMENT <= 16 compile (so AlignedVec<32> does not, nor AlignedVec<4> on a 64-bit machine); with all four given, exactly the documented choices do.", "quantifier": "every choice of the given const arguments, 32- and 64-bit machines", "why_tests_cant": "ranges over all const arguments of both pointer widths", "anchors": ["ser_raw/src/storage/aligned_vec.rs: DEFAULT_STORAGE_ALIGNMENT, DEFAULT_VALUE_ALIGNMENT, DEFAULT_MAX_CAPACITY, struct AlignedVec", "ser_raw/src/storage/mod.rs: ASSERT_ALIGNMENTS_VALID", "ser_raw/src/util.rs: aligned_max_capacity"]}
{"id": "C61", "title": "Outputs stay valid while the storage is used on", "statement": "A storage may be used directly and lent to any number of serializers of all kinds, calls that panic included: as long as it is not cleared, every output serialized into it stays readable at the position returned: PureCopy and PtrOffset outputs wherever the buffer moves, a Complete output as long as the buffer is at the address it had when it was finalized (after a move its pointers still hold the old addresses: documented, counterexample shown).", "quantifier": "every sequence of storage calls and serializations of any values with any serializers, every allocator", "why_tests_cant": "any later growth, shrink or panic of any history could damage an earlier output", "anchors": ["ser_raw/src/serializers/complete.rs: from_storage (BorrowMut)", "ser_raw/src/serializers/ptr_offset.rs: from_storage (BorrowMut)", "ser_raw/src/serializers/pure_copy.rs: from_storage (BorrowMut)", "ser_raw/src/serializers/complete.rs:34-41", "ser_raw/src/storage/aligned_vec.rs: reserve, shrink_to_fit"]}
{"id": "C62", "title": "The documented contracts of the unsafe storage methods", "statement": "A call of an unsafe storage method that meets its Safety section does exactly what it is documented to do, leaves the rest of the buffer alone and keeps the storage in order (push_slice_unchecked: after align_after), in any history mixed with safe calls. The one gap: the access is misaligned, hence undefined, exactly when the storage has no buffer and T's alignment is above 1, or T's alignment exceeds STORAGE_ALIGNMENT and the address happens not to be a multiple of it.", "quantifier": "every storage in order, every unsafe call with any arguments meeting its contract, every history of safe and unsafe calls", "why_tests_cant": "the contracts are stated for all types, positions and histories", "anchors": ["ser_raw/src/storage/mod.rs: set_pos, push_slice_unchecked, align, write, write_slice, read, read_mut, ptr, mut_ptr, with_capacity_unchecked (Safety sections)", "ser_raw/src/storage/aligned_vec.rs: the same methods and their debug_assert!s"]}
{"id": "C63", "title": "Debug assertions catch every contract violation", "statement": "In a build with debug assertions, every call of an unsafe storage method whose Safety section is not met panics and leaves the storage unchanged. In a build without them nothing is checked: set_pos always succeeds and leaves the storage in order exactly when its contract is met; writes and reads are undefined exactly when out of the buffer or misaligned.", "quantifier": "every storage in order, every unsafe call with any arguments", "why_tests_cant": "the violating arguments are unbounded", "anchors": ["ser_raw/src/storage/mod.rs: set_pos, push_slice_unchecked, align, write, write_slice, read, read_mut, ptr, mut_ptr, with_capacity_unchecked (Safety sections)", "ser_raw/src/storage/aligned_vec.rs: the same methods and their debug_assert!s"]}
{"id": "C64", "title": "Derived impls cover exactly the declared type", "statement": "derive(Serialize) on a declaration with any lifetimes, types, consts, bounds, defaults and where clause generates a legal impl header, and the impl exists exactly for the serializers that implement Serializer and the #[ser_bound] trait and for the arguments the type itself can take (no more bounds, none lost, arguments not permuted). The one exception is a parameter called __S, for which the header never compiles. The impls of derive(Serializer) exist exactly for the arguments the serializer type can take.", "quantifier": "every legal generic declaration, every meaning of its bounds, all arguments and serializers", "why_tests_cant": "ranges over all generic declarations and instantiations", "anchors": ["ser_raw_derive/src/lib.rs: get_generics", "ser_raw_derive/src/structs.rs: derive_struct", "ser_raw_derive/src/enums.rs: derive_enum", "ser_raw_derive_serializer/src/lib.rs: split_for_impl", "ser_raw_derive_serializer/src/ser_types/complete.rs: split_for_impl", "ser_raw_derive_serializer/src/ser_types/ptr_offset.rs: split_for_impl"]}
{"id": "C65", "title": "The alignment logic of Storage works for every implementor", "statement": "For every implementor of Storage that keeps to the documented contract of the required methods (capacity a multiple of MAX_VALUE_ALIGNMENT and at most MAX_CAPACITY, set_pos, push_slice_unchecked, reserve and shrink_to_fit doing what they say), the provided methods are right: push, push_slice and push_bytes put the values aligned and unchanged at the position they return, keep everything stored before, leave the position a multiple of VALUE_ALIGNMENT, call the unsafe methods only inside their contract, and survive a panic of reserve; with_capacity gives the room asked for; a history of calls keeps every value pushed, no two overlapping. If reserve does not move the position, the positions are those of the layout rule (C07), so any two implementors place values alike. AlignedVec is such an implementor. push_empty and push_empty_slice are the exception: unless the space they leave is a multiple of VALUE_ALIGNMENT they call set_pos outside its contract; and the comment that reserve may alter pos holds only for multiples of MAX_VALUE_ALIGNMENT.", "quantifier": "every implementor of Storage keeping to the contract, every history of calls, every const parameters", "why_tests_cant": "ranges over all user-written implementations of a trait", "anchors": ["ser_raw/src/storage/mod.rs: Storage (provided methods and documentation)", "ser_raw/src/storage/aligned_vec.rs: impl Storage for AlignedVec"]}
{"id": "C66", "title": "The serializers are right over any storage", "statement": "A serializer of any of the four kinds derive(Serializer) generates, over any storage keeping to the documented contract of Storage (and, where the kind needs them, RandomAccessStorage and ContiguousStorage) whose reserve leaves the position alone: serializing any sequence of valid values returns the positions the layout rules give and ends where they say, keeps everything stored before, and every value is found again in the output (by the layout rules with every kind, through the written offsets for ptr_offset, through the written pointers from as_ptr() for complete, whenever and however often the block of memory moved). It never misbehaves, and panics only when the storage's own reserve does, leaving earlier contents in place. Any two such storages give the same positions. AlignedVec is such a storage. If reserve moves the position, a pure_copy output is not found again.", "quantifier": "every implementor of the storage traits keeping to the contract, every kind, every sequence of supported values, every initial contents", "why_tests_cant": "ranges over all user-written storages and all inputs", "anchors": ["ser_raw/src/storage/mod.rs: Storage, RandomAccessStorage, ContiguousStorage", "ser_raw/src/serializer_traits/complete.rs", "ser_raw/src/serializer_traits/pos_tracking.rs", "ser_raw/src/serializer_traits/ptr_offset.rs", "ser_raw/src/serializer_traits/ptr_writing.rs", "ser_raw/src/serializer_traits/writable.rs", "ser_raw/src/serialize_impls/bigint.rs", "ser_raw/src/serialize_impls/multiples.rs", "ser_raw/src/serialize_impls/other.rs", "ser_raw/src/serialize_impls/primitives.rs", "ser_raw/src/serialize_impls/ptrs.rs", "ser_raw_derive_serializer/src/ser_types/complete.rs", "ser_raw_derive_serializer/src/ser_types/pos_tracking.rs", "ser_raw_derive_serializer/src/ser_types/ptr_offset.rs", "ser_raw_derive_serializer/src/ser_types/pure_copy.rs"]}
{"id": "C67", "title": "Every byte of the output is determined; the space between values is not written", "statement": "After serializing any sequence of valid values, with any serializer, every byte below pos() is known: what the buffer held before, below the old position; in the blocks of the values, what the reference encoding says (C54); and everywhere else (the space skipped for alignment) exactly what the buffer held there before, uninitialised if the room was added meanwhile. So two outputs of the same values are the same bytes if and only if the two buffers agreed before at every position skipped: the output as a string of bytes is not reproducible in general, and after clear() it can show bytes of earlier outputs. Hand-written implementations that do not use the storage themselves leave the same bytes alone.", "quantifier": "every kind, every sequence of supported values, every initial contents, position and capacity of the storage, every allocator; every hand-written implementation without storage calls or panics", "why_tests_cant": "a claim about every byte of the buffer for all values and all earlier contents", "anchors": ["ser_raw/src/storage/mod.rs: push_slice, align_for, align_after, clear", "ser_raw/src/storage/aligned_vec.rs: grow_for_reserve, realloc", "ser_raw/src/serializer_traits/complete.rs: do_finalize"]}
{"id": "C68", "title": "Values in the output share no memory", "statement": "In the output of the serializers that rewrite pointers (PtrOffset, Complete), follow the pointers of every serialized value: the blocks reached (each value itself, and the contents of every Box, Vec and String inside it) are pairwise disjoint, all lie between the position where serialization started and the final position, and are exactly the blocks of the layout rule, even if the values shared memory in the input (the same value serialized twice, a value and a part of it). A value found in the output depends on no byte outside the blocks it owns, so changing the memory of one value in any way leaves every other value of the output unchanged.", "quantifier": "both kinds, every sequence of supported values (overlapping in memory or not), every storage and allocator, every later contents of the memory", "why_tests_cant": "a claim about all pairs of pointers in all outputs, and about all later writes", "anchors": ["ser_raw/src/serializer_traits/ptr_writing.rs", "ser_raw/src/serializer_traits/complete.rs: do_finalize", "ser_raw/src/serializers/complete.rs", "ser_raw/src/serializers/ptr_offset.rs", "ser_raw/src/serialize_impls/ptrs.rs: Box, Vec, String"]}
{"id": "C69", "title": "A serializer touches nothing but its input and its own buffer", "statement": "While a storage is used and values are serialized, the only memory read is the values given, what they own (the contents of their Boxes, Vecs and Strings) and the storage's own block; the only memory written or freed is the storage's own block. In particular the bytes around the values, spare capacity of Vecs, and all other memory of the process are neither read nor written, whatever the allocator answers.", "quantifier": "every history of a storage, every serializer, every list of supported values, every allocator, every other activity in the process, every moment of the execution", "why_tests_cant": "a claim about every single memory access of every execution", "anchors": ["ser_raw/src/storage/aligned_vec.rs", "ser_raw/src/serializer_traits", "ser_raw/src/serialize_impls"]}
{"id": "C70", "title": "Serializers in several threads", "statement": "Any number of threads, each with its own storage and serializer (possibly with different const parameters) and possibly reading the same input values, may run in any interleaving on one memory with one allocator: no thread ever does anything undefined (allocator contract, accesses outside owned or lent memory, overlapping copies), there is no data race, blocks of different threads and inputs never share memory, inputs are unchanged, every thread can always go on and finishes after finitely many steps, and it ends exactly as it would alone: with the same result and, byte for byte, the same contents of its block; a dropped or never made storage leaves no block. Values serialized with CompleteSerializer are then in the shared memory at the positions returned.", "quantifier": "every number of threads, every schedule, every allocator behaviour (answers fresh blocks or null), everything else the process does (allocate, free, write memory not in use by a thread, start threads, take over finished output), every valid client in each thread", "why_tests_cant": "all interleavings of all programs", "anchors": ["ser_raw/src/storage/aligned_vec.rs: alloc, realloc, dealloc, Drop, write_slice, unsafe impl Send, Sync", "ser_raw/src/serializers", "ser_raw/src/serialize_impls"]}
{"id": "C71", "title": "Every value of a supported type can be serialized", "statement": "The inputs the properties about serializing speak of are exactly the values of Rust types: whatever an input's memory holds is a value of its type, and every value of every supported type (any nesting, any recursion, any enum variant the compiler gives a bit pattern) can be laid out in memory by a program, aligned and non-null, in the strictest form any property asks for (Vecs shrunk to fit, dangling pointers canonical, pointers forward). So each of the four serializers, given an allocator that does not fail, succeeds in serializing every value whose output fits in MAX_CAPACITY.", "quantifier": "all supported types and environments of recursive types, all values of them, all four serializers, all storages and const parameters", "why_tests_cant": "the type and value spaces are unbounded; it also rules out that a property holds for want of inputs", "anchors": ["ser_raw/src/serialize.rs: Serialize", "ser_raw/src/serialize_impls/bigint.rs", "ser_raw/src/serialize_impls/multiples.rs", "ser_raw/src/serialize_impls/other.rs", "ser_raw/src/serialize_impls/primitives.rs", "ser_raw/src/serialize_impls/ptrs.rs", "ser_raw/src/serializer.rs: Serializer::serialize"]}
{"id": "C72", "title": "An output determines its values", "statement": "Two outputs with the same bytes and the same returned positions are outputs of the same values (for the same types), whichever of the four serializers wrote each, from whatever memory and into whatever storage, and wherever the outputs lie. So no two different values are serialized to the same output.", "quantifier": "all pairs of serializers, sequences of values, input memories, storages, const parameters", "why_tests_cant": "quantifies over pairs of values of unbounded types: no finite set of tests shows injectivity", "anchors": ["ser_raw/src/serializer.rs: serialize_value", "ser_raw/src/serializers/complete.rs", "ser_raw/src/serializers/ptr_offset.rs", "ser_raw/src/serializers/pure_copy.rs", "ser_raw/src/serialize_impls/bigint.rs", "ser_raw/src/serialize_impls/multiples.rs", "ser_raw/src/serialize_impls/other.rs", "ser_raw/src/serialize_impls/primitives.rs", "ser_raw/src/serialize_impls/ptrs.rs"]}
{"id": "C73", "title": "What #[ser_with] does, exactly", "statement": "derive(Serialize) accepts a struct exactly if every field, disregarding attributes that are not of the form name, name = literal or name(items) (e.g. #[ser_with(Proxy<T>)]), has no #[ser_with] or exactly one and this one names a path; it then serializes the fields in order, each through the named proxy or as itself. So the fields of an accepted struct are all serialized as annotated exactly if no #[ser_with] is of unreadable form (such an attribute is ignored without an error). The fields of an enum variant are serialized as annotated exactly if none of them carries #[ser_with] (there it is always ignored).", "quantifier": "all struct and enum declarations, all fields, attributes and identifiers, every lexer that meets the Rust rules used", "why_tests_cant": "declarations and attribute lists are unbounded, and the claim is an equivalence", "anchors": ["ser_raw_derive/src/structs.rs: derive_struct, get_field_stmt, get_with", "ser_raw_derive/src/enums.rs: derive_enum, get_field_stmts"]}
{"id": "C74", "title": "How much stack serializing takes", "statement": "Serializing a value needs as many nested calls of serialize_data as its parts nest: one for itself plus those of its deepest part, where contents of Boxes and Vecs that have size 0 do not count. With that many it never overflows, and more make no difference; with fewer it cannot succeed. So for a type that is not recursive the need is bounded by the type, however large the value is; for a recursive type (a linked list of Boxes) there is no bound: n more nodes take 3n more calls.", "quantifier": "all supported types, values of any size, all four serializers, all storages and allocator answers", "why_tests_cant": "an exact bound over all values of unbounded size; a test that does not overflow says nothing about larger inputs", "anchors": ["ser_raw/src/serialize_impls/ptrs.rs: Box, Vec serialize_data", "ser_raw/src/serialize_impls/multiples.rs", "ser_raw/src/serialize_impls/other.rs", "ser_raw_derive/src/structs.rs", "ser_raw_derive/src/enums.rs"]}
{"id": "C75", "title": "One thread's serialized bytes are the next thread's input", "statement": "When a thread has finished serializing values with CompleteSerializer and hands over the block it wrote, a new thread \u2014 with other storage constants, its own storage and any of the four serializers \u2014 may be started to serialize, by shared reference, the values found in that block at the reported positions. It needs to be lent nothing but bytes inside that block, no other thread owns any of them, and every value it is given is the one the first thread was given. If it too uses CompleteSerializer, what it leaves behind is again those same values.", "quantifier": "all reachable states of any number of threads under any schedule, all supported types and values, all storages and constants", "why_tests_cant": "ranges over all schedules, all values and all placements of blocks; a test runs one schedule with one allocator", "anchors": ["ser_raw/src/serializers/complete.rs: CompleteSerializer", "ser_raw/src/serializer_traits/complete.rs: Complete", "ser_raw/src/storage/aligned_vec.rs: unsafe impl Send, Sync, Drop, AlignedVec"]}
{"id": "C76", "title": "What CompleteSerializer remembers while serializing", "statement": "Serializing any values with CompleteSerializer records, for correction in finalize, exactly one position for each allocation the values own (each Box, non-empty Vec or String whose contents take space, at any depth), no more; they are kept in groups, of which there are no more past ones than calls of the allocator made for the output, and never more than pointer width in bits + 1. PureCopy, pos_tracking and PtrOffset serializers record nothing. So the extra memory is one word per owned allocation and a bounded number of group headers.", "quantifier": "all lists of values of supported types, all storages, capacities and allocator behaviours", "why_tests_cant": "an exact count for values of any size and any history of buffer moves", "anchors": ["ser_raw/src/serializer_traits/complete.rs: do_overwrite_ptr, new_ptr_group, do_finalize", "ser_raw/src/pos.rs: Ptrs, PtrGroup", "ser_raw/src/serialize_impls/ptrs.rs"]}
{"id": "C77", "title": "Hand-written implementations are safe in any number of threads", "statement": "Any number of threads, each with a storage (of whatever constants) and serializers of its own, make storage calls and serialize values with any hand-written Serialize implementations that keep to the rules of the trait (pushes for pointers inside the value, overwrites, delegation to fields, raw pushes, storage calls other than clear, panics anywhere), every panic being caught and the serializer used on, then finalize and go on with the storage or drop it. Whatever the schedule, the allocator and the rest of the process do: no thread is ever about to do something undefined, no two threads race, each accesses only its own block and (to read) what it was lent, which stays as it was; a thread ends by returning, or with a with_capacity panic exactly because the capacity asked for is over the maximum, owning no block, or by an abort for lack of memory; a dropped storage leaves no block; and after its last session a thread's block in the process's memory holds, for every value whose serialize_value returned, the complete image the implementation asked for, with the positions returned.", "quantifier": "all word sizes, byte orders, storage constants per thread, types, memories, clients (sequences of storage calls and serializer sessions), implementations to any depth, panics, schedules, allocator answers, environment actions, reachable states", "why_tests_cant": "The number of interleavings, implementations and panic points is unbounded; data races and undefined behaviour do not show up as test failures.", "anchors": ["ser_raw/src/serializer.rs: Serializer::serialize_value, push_and_process_slice, push_slice, push_raw_slice, overwrite_with, storage_mut, finalize", "ser_raw/src/serialize.rs: Serialize, SerializeWith", "ser_raw/src/storage/aligned_vec.rs: AlignedVec", "ser_raw/src/serializer_traits/complete.rs: do_overwrite_ptr, do_finalize"]}
{"id": "C78", "title": "An output can be loaded at any address by adjusting its pointer words", "statement": "The output of PtrOffsetSerializer or CompleteSerializer is relocatable with types and bytes alone. A reader that follows the pointers of the serialized values from the positions returned meets a set of pointer words: exactly one per allocation the values own, all inside the part of the output just written, pairwise disjoint, each leading into that part. For every non-null address that is a multiple of MAX_VALUE_ALIGNMENT and has room for the output, copying the bytes there and adding the difference of the addresses (address minus 0 for PtrOffset positions, new address minus old for Complete) to exactly those words, leaving every other byte alone, gives every one of the values, in place, at the new address plus the position returned.", "quantifier": "all word sizes, byte orders, storage constants, types, input memories and values, storages already holding data, allocator behaviours, both pointer-writing serializers, target addresses", "why_tests_cant": "Any word missed, any word adjusted twice and any byte taken for a pointer shows only for the shape that contains it, and only at some load address.", "anchors": ["ser_raw/src/serializers/ptr_offset.rs: PtrOffsetSerializer", "ser_raw/src/serializers/complete.rs: CompleteSerializer", "ser_raw/src/serializer_traits/ptr_writing.rs: write_ptr", "ser_raw/src/serialize_impls/ptrs.rs: serialize_data", "ser_raw/src/serialize_impls/multiples.rs: serialize_data"]}
{"id": "C79", "title": "Types that mix derived, built-in and hand-written implementations", "statement": "Take any program whose named types are derived structs and enums (fields possibly going through a #[ser_with] proxy) or have a Serialize impl written by hand, used inside Box, Vec, String, arrays, tuples, Option and each other to any depth. Running the generated code field by field is, if nothing is written by hand, exactly the serialization of the value as the sum of its parts (so every other theorem is about the generated code). Otherwise serializing a value makes one determined sequence of serializer calls: those of its parts, in declaration order, each at its place; a field annotated #[ser_with] is left to its proxy, an enum's live variant to its fields' own impls, a hand-written type to its impl. As long as each hand-written impl by itself keeps to the rules on the values of its type, the whole does; so the output is a copy of the value with exactly the pointers, overwritten places and parts these calls are for changed, there is no undefined behaviour, and the only panics are the implementations' own and an output that does not fit.", "quantifier": "all word sizes, byte orders, compiler layouts, storage constants, type environments (recursive ones included), declarations the macro accepts, hand-written implementations and proxies that keep to the rules, input memories and values, the four serializers, storages already holding data", "why_tests_cant": "It composes arbitrary user code, generated code and the crate's own at every nesting; a statement that calls the wrong field, or a part whose calls reach outside its place, shows only in some combination.", "anchors": ["ser_raw_derive/src/structs.rs: get_field_stmt, derive_struct", "ser_raw_derive/src/enums.rs: derive_enum", "ser_raw/src/serialize.rs: Serialize, SerializeWith", "ser_raw/src/serialize_impls/ptrs.rs: serialize_data", "ser_raw/src/serialize_impls/multiples.rs: serialize_data", "ser_raw/src/serialize_impls/other.rs: serialize_data", "ser_raw/src/serializer.rs: serialize, serialize_value"]}
{"id": "C80", "title": "Hand-written parts compose: the whole output is a valid value", "statement": "Take a program as in C79 and a serializer that writes pointers (PtrOffset or Complete). Suppose each hand-written impl and each proxy, by itself, leaves a valid value of its type wherever its calls have had their effect, turning a value into what its author means it to be. Then whenever serialize succeeds, what lies at the returned position is a valid value of the type serialized: the same value, to any depth and through every Box, Vec, String, array, tuple, Option, derived struct and derived enum (niches and tags included), except that exactly the parts implemented by hand are turned into what their authors mean. If those change nothing, it is the value serialized.", "quantifier": "all word sizes, byte orders, compiler layouts (niche encodings included), storage constants, type environments, declarations the macro accepts, hand-written implementations and proxies that keep to the rules, what they are meant to do, input memories and values, the two pointer-writing serializers, storages already holding data, allocator behaviours", "why_tests_cant": "It is about the combination of user code with generated and built-in code at every nesting; a header, niche or discriminant spoiled by a part shows only for that combination.", "anchors": ["ser_raw/src/serialize.rs: Serialize, SerializeWith", "ser_raw_derive/src/structs.rs: get_field_stmt", "ser_raw_derive/src/enums.rs: derive_enum", "ser_raw/src/serialize_impls/ptrs.rs: serialize_data", "ser_raw/src/serialize_impls/multiples.rs: serialize_data", "ser_raw/src/serialize_impls/other.rs: serialize_data", "ser_raw/src/serializers/complete.rs: CompleteSerializer", "ser_raw/src/serializers/ptr_offset.rs: PtrOffsetSerializer"]}
{"id": "C81", "title": "Every value of every type a program can declare", "statement": "Take any set of type declarations built from primitives, Box, Vec, String, arrays, tuples, Option, structs and enums, recursive through pointers, that the compiler accepts (no infinitely sized type, none above isize::MAX bytes, no alignment above MAX_VALUE_ALIGNMENT, enum tags wide enough), laid out by the rule of the Rust reference for repr(C)/repr(uN). Then every value of every such type can be present in memory, any of the four serializers serializes it successfully if it fits in MAX_CAPACITY, and the output yields the same value: by walking it, and in place for the serializers that write pointers.", "quantifier": "for every list of declarations, type expression, value, order of Vec's fields, serializer kind, storage in order and allocator", "why_tests_cant": "Test suites contain a handful of types; the claim is that no combination of declarations, however nested or recursive, falls outside what the crate handles.", "anchors": ["ser_raw_derive/src/lib.rs: serialize", "ser_raw/src/serialize_impls/primitives.rs", "ser_raw/src/serialize_impls/ptrs.rs", "ser_raw/src/serialize_impls/multiples.rs", "ser_raw/src/serialize_impls/other.rs", "ser_raw/src/serializer.rs: serialize"]}
{"id": "C82", "title": "Extra memory of CompleteSerializer is bounded by its output", "statement": "While it serializes, CompleteSerializer remembers where it wrote pointers. That record never has more entries than there are words in the bytes it has written; the vectors that hold it take at most twice the bytes written plus a constant (96 W^2 + 32 W bytes for words of W bytes); and as long as the bytes written are at most half of isize::MAX no growth of them can panic with a capacity overflow.", "quantifier": "for every list of values of any supported types, memory, storage in order, allocator and configuration", "why_tests_cant": "The bound must hold for all shapes of values, including ones that are nothing but pointers; a test can only measure particular ones.", "anchors": ["ser_raw/src/pos.rs: Ptrs, PtrGroup, push_pos", "ser_raw/src/serializer_traits/complete.rs: do_overwrite_ptr, new_ptr_group"]}
{"id": "C83", "title": "Sessions of values of mixed types survive panics of hand-written impls", "statement": "A client may serialize any number of values of any types of a program (derived, built-in, hand-written and `ser_with` impls nested in any way) with one serializer, catching every panic at the call that serializes a value, and finalize at the end. Nothing escapes: there is no undefined behaviour and no other panic; each call that returned gave a position at which, in the final output of a pointer-writing serializer, its whole value can be read (with the parts implemented by hand turned into what their impls are meant to make of them), in order and without overlap, whatever panicked before or after it; a call panicked only if a hand-written impl it runs does or the output would not fit; what was in the storage before is kept.", "quantifier": "all programs whose hand-written impls keep to the rules, all sessions of valid values of its types, all serializer kinds, all storages, any pattern of panics", "why_tests_cant": "Where a panic strikes, deep inside nested derived and hand-written impls, and what was recorded before it, has unboundedly many cases; a test tries a few.", "anchors": ["ser_raw/src/serializer.rs: serialize_value, serialize_value_with, finalize", "ser_raw/src/serialize.rs: Serialize, SerializeWith"]}
{"id": "C84", "title": "Big numbers keep their value wherever they are", "statement": "BigInt and BigUint are serialized through unsafe casts that assume how num_bigint and the compiler lay them out. Whatever order the compiler chose for the fields of BigInt and of the Vec inside it, and wherever a BigInt or BigUint is nested in the value serialized (Box, Vec, arrays, tuples, Option, structs, enums), serializing it does exactly what serializing its fields would, so it has the same success, size and output; in the output of a serializer that writes pointers there is at the returned position a valid BigInt (BigUint) worth the same integer, its invariants (no leading zero digit, sign NoSign exactly for zero) kept; every integer is covered, and an address holds at most one.", "quantifier": "all word sizes, byte orders, Vec word orders, positions and encodings of the sign, type environments naming BigInt and BigUint, values containing them at any depth, integers of any size, memories, the four serializers, storages in order, allocators", "why_tests_cant": "one compiler has one layout, and the casts are undefined behaviour if the assumption is wrong; integers and nestings are unbounded", "anchors": ["ser_raw/src/serialize_impls/bigint.rs: BigUint::serialize_data, BigInt::serialize_data, bigint_data_offset"]}
{"id": "C85", "title": "Programs of derived, built-in and hand-written implementations are safe in any number of threads", "statement": "Any number of threads run the code of a program whose types have derived, built-in, hand-written and `ser_with` implementations nested in any way, the hand-written ones reading of what they are given whatever they like and panicking where they like. Each thread makes a storage (with constants of its own), calls it, and serializes any number of values with serializers of any kind, one session after the other, catching every panic, and finally keeps or drops the storage. Whatever the schedule, the allocator and the rest of the process do: no thread is ever about to do something undefined, none is stuck, no two race; each accesses only its own block and (to read) what it was lent, which stays as it was; a thread ends by returning, or by the with_capacity panic exactly when the capacity is over the maximum, or by an abort for lack of memory; and after a last session of a pointer-writing serializer the thread's block in the process's memory holds, for every value whose call returned, that whole value, with the parts implemented by hand turned into what their impls are meant to make of them, at the positions returned and without overlap.", "quantifier": "all word sizes, byte orders, storage constants per thread, programs whose hand-written impls keep to the rules, memories, values, clients, panics, schedules, allocator answers, environment actions, reachable states", "why_tests_cant": "The number of interleavings, programs, values and panic points is unbounded; data races and undefined behaviour do not show up as test failures.", "anchors": ["ser_raw/src/serializer.rs: serialize_value, serialize_value_with, finalize", "ser_raw/src/serialize.rs: Serialize, SerializeWith", "ser_raw_derive/src/structs.rs: derive_struct", "ser_raw_derive/src/enums.rs: derive_enum", "ser_raw/src/storage/aligned_vec.rs: AlignedVec"]}
{"id": "C86", "title": "Types the storage cannot align are refused at compile time, and what compiles is safe", "statement": "A program that makes storages, pushes values and serializes values compiles exactly if the constants of its storage are in order and every type that may be written as an allocation of its own (what is pushed or serialized, and whatever that may own through boxes, vecs and strings, in any variant, whether or not the code runs) has an alignment of at most MAX_VALUE_ALIGNMENT; no other type is refused. If it compiles, then with an allocator that keeps its contract every serialization of a value returns with the value in the output, or panics because the output does not fit, or aborts for lack of memory, and every history of storage calls leaves the storage in order (but for pushing an empty slice into a storage that has not allocated, C13); without the check there would be undefined behaviour.", "quantifier": "all word sizes, storage constants, layouts a compiler may choose, type environments (recursive ones too), programs as sets of generic functions used, the four serializers, values, memories, histories", "why_tests_cant": "That every path to the storage passes the check, for every type, is a statement about all instances of the generic functions; a test only sees programs that compile, or one that does not.", "anchors": ["ser_raw/src/storage/mod.rs: AlignmentCheck, align_for, ASSERT_ALIGNMENTS_VALID, with_capacity, push_slice, push_empty_slice", "ser_raw/src/storage/aligned_vec.rs: AlignedVec::new, with_capacity_unchecked", "ser_raw/src/serializer.rs: serialize, serialize_value, push_and_process_slice, push_raw_slice", "ser_raw/src/serialize_impls/ptrs.rs: SizeCheck, VecOffsets, Box::serialize_data, Vec::serialize_data"]}
{"id": "C87", "title": "The output of PureCopy and PosTracking can be read in order for any program, hand-written impls included", "statement": "In a program whose types mix derived impls (with ser_with fields), the crate's own impls and hand-written impls, serialize a value with a serializer that writes no pointers. If the authors of hand-written impls and proxies can each read back what their own calls pushed (given the position of the part and the position from which nothing has been read yet), then the whole output is read back, in order and following no pointer, from the returned position: as the value serialized, with the parts implemented by hand turned into what their readers say, and as the value itself if their readers change nothing. In a session of many values under catch_unwind this holds of every value whose call returned, whatever panicked before or after it.", "quantifier": "all programs with type environments, derive inputs, hand-written impls and proxies; their readers; PureCopy and PosTracking; values, memories, storages, storage constants, word sizes; sessions of any length", "why_tests_cant": "That the order of what is pushed is determined by the types and the values, through any nesting of derived, built-in and hand-written impls, is a statement about all programs.", "anchors": ["ser_raw/src/serializers/pure_copy.rs: PureCopySerializer", "ser_raw_derive_serializer/src/ser_types/pure_copy.rs", "ser_raw_derive_serializer/src/ser_types/pos_tracking.rs", "ser_raw/src/serializer.rs: serialize, push_and_process_slice, push_slice, push_raw_slice", "ser_raw/src/serialize_impls: ptrs.rs, multiples.rs", "ser_raw_derive/src/structs.rs", "ser_raw_derive/src/enums.rs"]}
{"id": "C88", "title": "Zero-sized slices pushed by hand", "statement": "Pushing a slice of a zero-sized type returns position 0 and changes nothing. If a hand-written impl pushes such a slice for a reference (with or without processing it), then whatever else it does, in the output of CompleteSerializer that reference is the address of the storage, which is not null and aligned for the type, so that it may be dereferenced; PtrOffsetSerializer writes offset 0, which added to any aligned non-null address the output is loaded at may be dereferenced too; PureCopySerializer and the position tracking one keep the reference's bytes. (A TODO in the source asks whether returning 0 is correct.)", "quantifier": "all zero-sized layouts, slice lengths, hand-written implementations that keep to the rules, memories, storages, allocators, the four serializers", "why_tests_cant": "The pointer is written before the buffer has its final address and before everything else the implementation does; no finite set of implementations shows it is always valid at the end.", "anchors": ["ser_raw/src/storage/mod.rs: push_slice (TODO: Is this correct?)", "ser_raw/src/serializer_traits/ptr_writing.rs: PtrWriting", "ser_raw/src/serializers/complete.rs: CompleteSerializer", "ser_raw/src/serializers/ptr_offset.rs: PtrOffsetSerializer"]}
{"id": "C89", "title": "Hand-written impls over a user's own storage", "statement": "With a serializer made by derive(Serializer) over any storage that keeps to the contracts of Storage (and RandomAccessStorage for ptr_offset, ContiguousStorage for complete), any hand-written Serialize impl that keeps to the documented rules (pointers pushed for, places overwritten and fields delegated to are aligned, inside the value and do not overlap; no calls on the storage itself, no empty slices but of zero-sized types) gives its faithful image: the value is copied with exactly the announced places changed, every slice pushed is copied and processed to any depth, every pointer points to its copy even if the block moves in between, every overwrite is there (complete). Several values in a row keep each other intact and what was stored before. The only panic is one raised by the storage's reserve; there is no undefined behaviour.", "quantifier": "all storages keeping their contract, layouts, hand-written implementations of any nesting depth, lists of values, memories, states of the storage, the four kinds of serializer", "why_tests_cant": "Ranges over all implementations of two traits at once, one under and one above the library.", "anchors": ["ser_raw/src/serializer.rs: Serializer::push_slice, push_and_process_slice, push_raw_slice, overwrite_with, serialize_value", "ser_raw/src/storage/mod.rs: Storage, RandomAccessStorage, ContiguousStorage", "ser_raw/src/serializer_traits/ptr_writing.rs: PtrWriting", "ser_raw/src/serializer_traits/complete.rs: Complete"]}
{"id": "C90", "title": "Whole programs over a user's own storage", "statement": "Take a program whose types get their Serialize impl from the derive macro, from the crate (Box, Vec, String, arrays, tuples, Option) or by hand, with #[ser_with] proxies, nested in any way, and a serializer made by derive(Serializer) over any storage that keeps to its contract. Running the generated code on valid values makes exactly the calls the declarations and impls say; the output has the faithful image of every value, one after the other at the positions returned, on top of what was stored before. With ptr_offset and complete every value can be used at its position, turned into what its hand-written parts are meant to make of it; with the other kinds it reads back. The only panic is one raised by the storage's reserve; no undefined behaviour.", "quantifier": "all storages keeping their contract, programs that compile, lists of valid values, memories, states of the storage, the four kinds of serializer", "why_tests_cant": "Ranges over all programs, macro inputs, impls of two traits and values at once.", "anchors": ["ser_raw_derive/src/lib.rs", "ser_raw_derive/src/structs.rs", "ser_raw_derive/src/enums.rs", "ser_raw/src/serialize_impls/ptrs.rs", "ser_raw/src/serializer.rs: Serializer::serialize_value, finalize", "ser_raw/src/storage/mod.rs: Storage, RandomAccessStorage, ContiguousStorage"]}
{"id": "C91", "title": "Outputs of whole programs can be moved and loaded at another address", "statement": "Serialize any values of a program (derived, crate-provided and hand-written impls, #[ser_with] proxies, mixed in any way) with a pointer-writing serializer (ptr_offset or complete) over any storage that keeps its contract. The words of the output that hold pointers are determined by the calls the impls make: exactly one per slice pushed, at a known position, inside the output and after what was stored before, none overlapping another, and each pointing into the output. Copy the output to any address aligned to the maximum value alignment and adjust exactly those words by the distance: the output there is as faithful an image of the values as where it was made. The program that copies the bytes and adjusts the words in turn does so: afterwards every value can be used at its position from the new address, turned into what its hand-written parts are meant to make of it.", "quantifier": "all storages keeping their contract, programs that compile, hand-written impls and proxies keeping to their rules, lists of valid values, states of the storage, new addresses aligned to the maximum value alignment, memories holding the moved output", "why_tests_cant": "Ranges over all programs, values, storages and addresses.", "anchors": ["ser_raw/src/serializer_traits/ptr_offset.rs", "ser_raw/src/serializer_traits/complete.rs", "ser_raw/src/serializer_traits/ptr_writing.rs: write_ptr, overwrite_ptr", "ser_raw/src/serializer.rs: Serializer::push_and_process_slice, push_slice", "ser_raw/src/pos.rs: PosMapping, Ptrs, PtrGroup"]}
{"id": "C92", "title": "Impls that hand fields on to any other impl, to any depth", "statement": "A hand-written Serialize or SerializeWith impl may hand fields of its value, or values inside slices it pushes, on to the impl of their own type with value.serialize_data(serializer), whether that is the crate's, derived or again hand-written, to any depth. As long as every impl keeps to the rules by itself (what it hands on is a valid, strictly inner value at its place), serializing any value of any type of the program makes exactly the calls of all the impls involved, in order; there is no undefined behaviour; the output has their image; with pointer-writing serializers the value is there, whole, each hand-written part turned into what its own impl means, where each impl can be judged alone knowing of what it hands on only the value that comes out; sessions with caught panics behave as for C83; the same holds over any storage keeping the contract, and the output can be moved and loaded.", "quantifier": "all programs mixing crate, derived and hand-written impls with delegation of any depth, all well-behaved impls, all values, all four serializers, all storages keeping the contract, all destinations", "why_tests_cant": "which impls run inside which is a property of the whole program and of values of unbounded nesting; tests fix one program", "anchors": ["ser_raw/src/serialize.rs: Serialize::serialize_data, SerializeWith::serialize_data_with", "ser_raw/src/serializer.rs: Serializer", "ser_raw/src/serialize_impls/ptrs.rs", "ser_raw/src/serialize_impls/multiples.rs", "ser_raw_derive/src/structs.rs", "ser_raw_derive/src/enums.rs"]}
{"id": "C93", "title": "Outputs without pointers of delegating programs read back", "statement": "With the serializers that write no pointers (PureCopy, PosTracking) the output of any value of a program whose hand-written impls hand parts on to other impls (C92) can be read in order, following no pointer: if the author of each hand-written impl has a reader that is right for his own calls, provided the readers of the types he hands parts on to are right, then these readers together give the value serialized, each hand-written part turned as its impl means (the value itself if the readers give back what was there), from the position the call returned. It holds for single values, for sessions with caught panics (every value whose call returned), and for many values over any storage that keeps the contract and whose reserve does not move the position.", "quantifier": "all programs mixing crate, derived and hand-written impls with delegation of any depth, all readers right for their own impl, all values, both serializers that write no pointers, all storages, all sessions and panics in them", "why_tests_cant": "each reader starts where the previous one stopped, at depths and with contents unbounded; one reader being off by some padding breaks everything after it", "anchors": ["ser_raw/src/serializers/pure_copy.rs: PureCopySerializer", "ser_raw/src/serialize.rs: Serialize::serialize_data, SerializeWith::serialize_data_with", "ser_raw/src/serializer.rs: Serializer::push_and_process_slice", "ser_raw/src/storage/mod.rs: Storage::align_after", "ser_raw_derive/src/structs.rs"]}
{"id": "C94", "title": "Impls that hand fields on, in any number of threads", "statement": "Take programs in which hand-written impls hand fields on to whatever impls the program has for their types (C92), and any number of threads, each with its own storage, calling it and serializing values with serializers made from it, one session after another, panics being caught; readers may share the values. Then under every interleaving and every behaviour of the allocator: no thread ever does anything undefined and no two threads race; a thread only touches its own block and reads only what it was lent (the values and what they own, and what the hand-written impls look at); what it was lent stays unchanged; a thread ends by returning, by a failed with_capacity owning nothing, or by the abort for lack of memory; when its last session is over, its block holds in the memory of the process the whole image of each value whose serialize_value returned, as the calls of all its parts (handed on or not) make it, and with a pointer-writing serializer each such value can be read back from there, turned as the impls of its parts mean to; a thread that has not finished can go on.", "quantifier": "for all programs, values, clients, numbers of threads, interleavings, allocator behaviours and panics", "why_tests_cant": "the interleavings, allocator answers, programs and depth of handing on are unbounded", "anchors": ["ser_raw/src/serialize.rs: Serialize::serialize_data, SerializeWith::serialize_data_with", "ser_raw_derive/src/structs.rs: derive_struct", "ser_raw/src/serializer.rs: Serializer::serialize_value, finalize", "ser_raw/src/storage/aligned_vec.rs: AlignedVec"]}
{"id": "C95", "title": "Sessions with caught panics over any storage", "statement": "Take a serializer of any kind over any storage that keeps to its contract (not only AlignedVec), and any number of values with any implementations that keep to the rules (derived, hand-written, proxies, handing fields on to one another), each serialized with serialize_value under catch_unwind whatever becomes of the others, the implementations being free to panic and to make calls of their own on the storage; then finalize. There is no undefined behaviour and no panic gets out; what was stored before is kept and the storage can be used further; each value whose call returned has its whole image in the final output, at the position returned, and with a pointer-writing serializer can be read back, turned as its impls mean to; a value whose call panicked has an implementation that panics itself or makes storage calls, or the storage's reserve refused a request that is part of that value's own output, so with a storage that refuses only what does not fit its output would not have fitted. If no implementation panics and the storage never refuses, all values are there one after the other. Over AlignedVec this is the session of C57.", "quantifier": "for all storages keeping to the contract, kinds of serializer, programs, lists of values, implementations and places where they panic, and storage states to begin with", "why_tests_cant": "storages, programs, values and the points at which a panic strikes are unbounded", "anchors": ["ser_raw/src/serializer.rs: Serializer::serialize_value, finalize, pos, storage_mut", "ser_raw/src/storage/mod.rs: Storage, RandomAccessStorage, ContiguousStorage", "ser_raw/src/serialize.rs: Serialize::serialize_data", "ser_raw/src/serializers/complete.rs: CompleteSerializer", "ser_raw/src/serializers/ptr_offset.rs: PtrOffsetSerializer", "ser_raw/src/serializers/pure_copy.rs: PureCopySerializer", "ser_raw/src/pos.rs: PosMapping"]}
{"id": "C96", "title": "Every byte of the output of any program, by a reference encoder", "statement": "What a serialization of any values of a program (impls of the crate, derived, hand-written, handing parts on to one another) puts into the output is given, byte by byte, by a simple encoder that knows only the calls the impls make, the input's memory and the position serializing starts at: a copy of each value's bytes; for each slice pushed its copy at the next aligned position and (with a pointer-writing serializer) a pointer to it at its place; for each overwrite (Complete only) the new bytes; for each call on the storage the bytes pushed; what comes later counts. Over any storage that keeps to its contract, and any kind of serializer, each byte of the output is the one the encoder names, or belongs to a word that is the address of the position it names, and every position it does not name is alignment padding. So over two different storages the same values give, from the same starting position on, the same positions and byte for byte the same output, but for padding and for pointer words, which are at the same places and point to the same positions. In sessions with caught panics the same is true of the output of each value whose call returned.", "quantifier": "for all storages keeping to the contract, kinds of serializer, programs, input memories, lists of values, starting positions, and positions of the output", "why_tests_cant": "storages, programs, values and output positions are unbounded; a test compares a few outputs", "anchors": ["ser_raw/src/serializer.rs: Serializer::serialize_value, push_slice, push_and_process_slice, overwrite, finalize", "ser_raw/src/serializer_traits/ptr_writing.rs: PtrSerializer", "ser_raw/src/serializer_traits/complete.rs: overwrite_with", "ser_raw/src/storage/mod.rs: Storage", "ser_raw/src/serializers/complete.rs: CompleteSerializer", "ser_raw/src/serializers/ptr_offset.rs: PtrOffsetSerializer", "ser_raw/src/serializers/pure_copy.rs: PureCopySerializer", "ser_raw/src/serialize.rs: Serialize::serialize_data"]}
{"id": "C97", "title": "The pointer record of any program: entries, size and memory, on any storage", "statement": "CompleteSerializer remembers where in its output it put pointers. For any implementations that keep to the rules, over any storage, between any two calls to serialize_value - also after calls that panicked and were caught, after calls that were refused room, after the storage's block moved, and when implementations make storage calls of their own - what it remembers is a set of distinct aligned words lying in the output made since the serializer was created. So it remembers at most one position per word of output, takes at most 14 bytes of memory per byte of output and a constant, and no push onto it panics with a capacity overflow while eight times the output fits isize. The other serializers remember nothing.", "quantifier": "for all storages keeping to the contract (and AlignedVec with all storage calls allowed of it), kinds of serializer, programs, hand-written implementations, input memories, lists of values and panics", "why_tests_cant": "the number of values, pointers, moves of the block and panics is unbounded; leaks of the record show only in long sessions", "anchors": ["ser_raw/src/pos.rs", "ser_raw/src/serializers/complete.rs", "ser_raw/src/serializer_traits/complete.rs"]}
{"id": "C98", "title": "Panics caught inside an implementation are harmless if the mapping is restored", "statement": "An implementation of Serialize may itself call the serializer under catch_unwind and go on after a panic - its own, one of a type it hands on to, or a refusal of the storage. With any storage and any serializer there is then no undefined behaviour, and every value whose serialize call returns has its image in the output, all calls that were not caught panicking having had their effects - on one condition: with a serializer that writes pointers, if the panic may have come from inside the closure of push_and_process_slice or a field, the implementation either restores the position mapping (set_pos_mapping) before it goes on, or makes no further call that needs the place of the value in what is left of the closure it is in. A catch_unwind catches nothing but panics of the implementation's own and the storage's refusals to make room for one of the calls in it: if nothing panics and there is room for the calls up to the end of the session, catching changes nothing. Without the condition safe code has undefined behaviour in release builds, and puts pointers over other data in debug builds.", "quantifier": "for all storages keeping to the contract, kinds of serializer, hand-written implementations with any nesting of catch_unwind, input memories, lists of values and points of panic", "why_tests_cant": "which calls panic, how deep, and what the storage's state is at that point are unbounded; the wrong outcome is a pointer written at a position computed from another value's mapping, often without any symptom", "anchors": ["ser_raw/src/serializer.rs", "ser_raw/src/serialize.rs", "ser_raw/src/serializer_traits/pos_tracking.rs", "ser_raw/src/serializer_traits/ptr_writing.rs", "ser_raw/src/pos.rs"]}
{"id": "C99", "title": "Serializing ends exactly when the implementations' calls nest finitely, and that much stack is enough", "statement": "However the Serialize implementations of a program hand on to one another (the crate's, derived and hand-written ones, proxies): a serialize call that returns has had calls of serialize_data nested no deeper than the stack had room for; if the calls nest at most n deep, room for n is enough for every kind of serializer and every storage, and more room makes no difference to the result; the same holds of many values on one serializer, each under catch_unwind. Implementations that call each other in a circle, or ever further, never return, and if the call is the first thing each of them does the stack overflows whatever its size; programs whose hand-written implementations hand on only parts nested less deep than their own value have no valid value like that, and one call more than the value nests suffices.", "quantifier": "for all programs of crate, derived and hand-written implementations (with no rule imposed on them, except where the last sentence says so), input memories, values, storages, kinds of serializer, states and stack sizes", "why_tests_cant": "depth and shape of the chain of calls depend on the value and on all implementations together, a test overflows or not with one stack size; that a circle never returns is a statement about unbounded executions", "anchors": ["ser_raw/src/serialize.rs", "ser_raw/src/serializer.rs", "ser_raw/src/serialize_impls/ptrs.rs", "ser_raw/src/serialize_impls/multiples.rs", "ser_raw/src/serialize_impls/other.rs", "ser_raw_derive/src/structs.rs", "ser_raw_derive/src/enums.rs"]}
{"id": "C100", "title": "Outputs of whole programs can be serialized again, any number of times", "statement": "The output of values of any program (crate, derived and hand-written implementations, proxies, handing on to one another) is as good an input as the original: whether a Complete output where it is, or a pointer-writing serializer's output loaded at another address, its values can be serialized again by the same program, into any storage, and that output again, any number of times. After n times the values found at the returned positions are those of the input turned n times as the hand-written implementations mean to, and nothing else can be read there; the next serialization has no undefined behaviour and panics only if the storage refuses room it needs. With implementations that leave values as they are, all generations hold the same values; with ones that change a value the first time only, all hold those of the first output.", "quantifier": "for all programs whose implementations keep to the rules in every memory, input memories, lists of values of non-zero size, numbers of generations, storages that keep to the documented contract, starting states of each of them, load addresses aligned to MAX_VALUE_ALIGNMENT, and stack sizes", "why_tests_cant": "a statement about every chain of outputs and inputs, of any length; a test tries one or two copies of a few values, at the addresses it happens to get", "anchors": ["ser_raw/src/serializer.rs", "ser_raw/src/serializers/complete.rs", "ser_raw/src/serializers/ptr_offset.rs", "ser_raw/src/serializer_traits/complete.rs", "ser_raw/src/serializer_traits/ptr_offset.rs", "ser_raw/src/serialize_impls/ptrs.rs", "ser_raw_derive/src/structs.rs", "ser_raw_derive/src/enums.rs"]}
{"id": "C101", "title": "The positions a serializer gives back can be relied on by the implementations that get them", "statement": "A hand-written serialize_data may go on according to what the serializer tells it: the position pos() gives it at any moment, and the position push_slice, push_raw_slice and push_and_process_slice (with a closure that may do the same) return. Whatever the implementation does with them - store them in the value, push something else - the serializer behaves as if the implementation had known beforehand where everything goes: positions asked for are those at which the next bytes are put (after alignment), positions returned are those at which the slice is, and the output holds the images of the calls made for exactly those positions, for several values one after the other, also when some panic and are caught, and with pushes through the storage. In a complete output a word in which an implementation stored the position of the data it pushed is the index of that data in the final output. Implementations that take no notice make the fixed calls of C89/C95. Every byte of the output is what the reference encoder says for those calls, and over two storages of any kinds, starting at the same position, implementations are given the same positions and the outputs differ in padding and in the bytes of pointers only.", "quantifier": "for all such implementations (decision trees over the positions, with nested closures, of any depth), all storages that keep to the documented contract, all four serializers, starting states, input memories, lists of values", "why_tests_cant": "an implementation may take another course for every position it could be given, and the positions depend on everything stored before and on the storage; a test sees the few positions it happens to get", "anchors": ["ser_raw/src/serializer.rs", "ser_raw/src/serialize.rs", "ser_raw/src/serializer_traits/ptr_offset.rs", "ser_raw/src/serializer_traits/complete.rs", "ser_raw/src/serializer_traits/pos_tracking.rs"]}
