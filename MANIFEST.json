{
 "claims": [
  {
   "property": "C01",
   "status": "proved",
   "theorems": [
    "C01_align_up_to"
   ],
   "note": "witness C01_witness"
  },
  {
   "property": "C02",
   "status": "proved",
   "theorems": [
    "C02_is_aligned_to"
   ],
   "note": ""
  },
  {
   "property": "C03",
   "status": "proved",
   "theorems": [
    "C03_aligned_max_capacity"
   ],
   "note": ""
  },
  {
   "property": "C04",
   "status": "proved",
   "theorems": [
    "C04_aligned_max_u32_capacity"
   ],
   "note": "also maximality"
  },
  {
   "property": "C05",
   "status": "proved",
   "theorems": [
    "C05_invariants"
   ],
   "note": "histories with caught panics; every prefix of a history is a history"
  },
  {
   "property": "C06",
   "status": "proved",
   "theorems": [
    "C06_push",
    "C06_push_returns"
   ],
   "note": ""
  },
  {
   "property": "C07",
   "status": "proved",
   "theorems": [
    "C07_positions"
   ],
   "note": "two runs with different machines, allocators, capacities, growth calls and data"
  },
  {
   "property": "C08",
   "status": "proved",
   "theorems": [
    "C08_reserve"
   ],
   "note": ""
  },
  {
   "property": "C09",
   "status": "proved",
   "theorems": [
    "C09_with_capacity"
   ],
   "note": ""
  },
  {
   "property": "C10",
   "status": "proved",
   "theorems": [
    "C10_shrink_to_fit"
   ],
   "note": ""
  },
  {
   "property": "C11",
   "status": "proved",
   "theorems": [
    "C11_clear",
    "C11_clear_positions"
   ],
   "note": ""
  },
  {
   "property": "C12",
   "status": "proved",
   "theorems": [
    "C12_protocol"
   ],
   "note": ""
  },
  {
   "property": "C13",
   "status": "partial",
   "theorems": [
    "C13_no_UB_partial",
    "C13_only_UB",
    "C13_counterexample"
   ],
   "note": "the full claim is false of the code: pushing an empty slice of an aligned type to a storage without buffer copies to a misaligned pointer; C13_only_UB shows that is the only undefined behaviour"
  },
  {
   "property": "C14",
   "status": "partial",
   "theorems": [
    "C14_push_empty_partial",
    "C14_counterexample_debug",
    "C14_counterexample_release"
   ],
   "note": "the full claim is false of the code: debug builds panic when size is no multiple of VALUE_ALIGNMENT, release builds wrap the size"
  },
  {
   "property": "C15",
   "status": "proved",
   "theorems": [
    "C15_clean_failure",
    "C09_with_capacity"
   ],
   "note": ""
  },
  {
   "property": "C16",
   "status": "proved",
   "theorems": [
    "C16_write",
    "C16_read",
    "C16_write_then_read"
   ],
   "note": ""
  },
  {
   "property": "C17",
   "status": "proved",
   "theorems": [
    "C17_validation",
    "C17_every_capacity_legal"
   ],
   "note": ""
  },
  {
   "property": "C18",
   "status": "proved",
   "theorems": [
    "C18_pure_copy"
   ],
   "note": "witnesses in WitnessSerialize.v (ser_hypotheses, C18_witness)"
  },
  {
   "property": "C19",
   "status": "proved",
   "theorems": [
    "C19_ptr_offset"
   ],
   "note": ""
  },
  {
   "property": "C20",
   "status": "proved",
   "theorems": [
    "C20_offsets_forward"
   ],
   "note": ""
  },
  {
   "property": "C21",
   "status": "proved",
   "theorems": [
    "C21_complete",
    "C21_complete_forward"
   ],
   "note": ""
  },
  {
   "property": "C22",
   "status": "proved",
   "theorems": [
    "C22_correction"
   ],
   "note": ""
  },
  {
   "property": "C23",
   "status": "proved",
   "theorems": [
    "C23_shrunk"
   ],
   "note": ""
  },
  {
   "property": "C24",
   "status": "proved",
   "theorems": [
    "C24_self_contained"
   ],
   "note": ""
  },
  {
   "property": "C25",
   "status": "proved",
   "theorems": [
    "C25_several_values"
   ],
   "note": ""
  },
  {
   "property": "C26",
   "status": "proved",
   "theorems": [
    "C26_existing_kept"
   ],
   "note": ""
  },
  {
   "property": "C27",
   "status": "proved",
   "theorems": [
    "C27_same_layout"
   ],
   "note": ""
  },
  {
   "property": "C28",
   "status": "proved",
   "theorems": [
    "C28_succeeds_iff_fits"
   ],
   "note": ""
  },
  {
   "property": "C29",
   "status": "proved",
   "theorems": [
    "C29_nothing_else",
    "C29_allocator"
   ],
   "note": ""
  },
  {
   "property": "C30",
   "status": "proved",
   "theorems": [
    "C30_mapping"
   ],
   "note": ""
  },
  {
   "property": "C31",
   "status": "proved",
   "theorems": [
    "C31_vec_offsets"
   ],
   "note": ""
  },
  {
   "property": "C32",
   "status": "proved",
   "theorems": [
    "C32_empty_overwrite"
   ],
   "note": ""
  },
  {
   "property": "C33",
   "status": "proved",
   "theorems": [
    "C33",
    "C33_serialize",
    "C33_supported"
   ],
   "note": "both field orders, every Vec word order, any sign encoding; witness C33_witness"
  },
  {
   "property": "C34",
   "status": "proved",
   "theorems": [
    "C34_struct",
    "C34_enum",
    "C34_runs"
   ],
   "note": "witnesses C34_struct_witness, C34_enum_witness"
  },
  {
   "property": "C35",
   "status": "proved",
   "theorems": [
    "C35"
   ],
   "note": "witness C34_enum_witness"
  },
  {
   "property": "C36",
   "status": "partial",
   "theorems": [
    "C36_partial",
    "C36_rejects",
    "C36_enum_ignores",
    "C36_counterexample_enum",
    "C36_counterexample_generic"
   ],
   "note": "the full claim is false of the code: enums ignore ser_with, and so do structs when the proxy is a path with generic arguments; C73 proves exactly when annotations are followed"
  },
  {
   "property": "C37",
   "status": "proved",
   "theorems": [
    "C37_growth",
    "C37_growth_step"
   ],
   "note": ""
  },
  {
   "property": "C38",
   "status": "proved",
   "theorems": [
    "C38_presized"
   ],
   "note": ""
  },
  {
   "property": "C39",
   "status": "partial",
   "theorems": [
    "C39_addresses_partial",
    "C39_counterexample"
   ],
   "note": "the full claim is false of the code in release builds: safe push with an arbitrary Addr writes out of bounds"
  },
  {
   "property": "C40",
   "status": "partial",
   "theorems": [
    "C40_repush_partial",
    "C40_counterexample"
   ],
   "note": "the full claim is false of the code when the buffer moves between the two pushes"
  },
  {
   "property": "C41",
   "status": "partial",
   "theorems": [
    "C41_position_usable_partial",
    "C41_counterexample"
   ],
   "note": "the full claim is false of the code for zero-sized types with alignment > 1 in a storage without buffer"
  },
  {
   "property": "C42",
   "status": "proved",
   "theorems": [
    "C42",
    "C42_dispatch"
   ],
   "note": "witnesses C42_witness, C42_reject"
  },
  {
   "property": "C43",
   "status": "proved",
   "theorems": [
    "C43_size_bound"
   ],
   "note": ""
  },
  {
   "property": "C44",
   "status": "partial",
   "theorems": [
    "C44_partial",
    "C44_exact",
    "C44_counterexample"
   ],
   "note": "the full claim is false of the code: the macro panics on a raw identifier as a named field of an enum variant; C44_exact shows this is the only failure"
  },
  {
   "property": "C45",
   "status": "partial",
   "theorems": [
    "C45_access_partial",
    "C45_counterexample"
   ],
   "note": "C45_access_partial allows any storage call but clear (and the empty push of C13) between pushes; with clear the claim is false of the code (C45_counterexample); C53 is the exact form. Hypotheses met: C22_witness."
  },
  {
   "property": "C46",
   "status": "proved",
   "theorems": [
    "C46",
    "C64_serialize"
   ],
   "note": "witnesses C46_witness, C46_twice; C64_serialize: the bound in the header of the generated impl"
  },
  {
   "property": "C47",
   "status": "proved",
   "theorems": [
    "C47_custom_impl"
   ],
   "note": "Rules for the implementation are ClientSpec.steps_ok, the required output ClientSpec.region. Concrete case: C47_hypotheses, C47_witness. Empty slices: C47_empty_hypotheses, C47_empty_witness."
  },
  {
   "property": "C48",
   "status": "proved",
   "theorems": [
    "C48_UB_exactly"
   ],
   "note": "strengthens C13 to an equivalence; witness C48_witness"
  },
  {
   "property": "C49",
   "status": "proved",
   "theorems": [
    "C49_push_empty_exactly"
   ],
   "note": "exact form of C14; witness C49_witness"
  },
  {
   "property": "C50",
   "status": "proved",
   "theorems": [
    "C50_any_address_exactly",
    "C50_any_address_debug"
   ],
   "note": "exact form of C39; witness C50_witness"
  },
  {
   "property": "C51",
   "status": "proved",
   "theorems": [
    "C51_position_usable_exactly"
   ],
   "note": "exact form of C41; witness C51_witness"
  },
  {
   "property": "C52",
   "status": "proved",
   "theorems": [
    "C52_repush_exactly",
    "C52_twice"
   ],
   "note": "exact form of C40; witness C52_witness"
  },
  {
   "property": "C53",
   "status": "proved",
   "theorems": [
    "C53_finalize_exactly"
   ],
   "note": "exact form of C45; witness C53_witness"
  },
  {
   "property": "C54",
   "status": "proved",
   "theorems": [
    "C54_bytes"
   ],
   "note": "Encode.v is the specification (does not run the serializer)."
  },
  {
   "property": "C55",
   "status": "proved",
   "theorems": [
    "C55_depends_only"
   ],
   "note": ""
  },
  {
   "property": "C56",
   "status": "proved",
   "theorems": [
    "C56_copy_of_copy",
    "C56_idempotent",
    "C56_valid_again"
   ],
   "note": "Bytes between blocks are not written by the serializer."
  },
  {
   "property": "C57",
   "status": "proved",
   "theorems": [
    "C57_resume",
    "C57_inside_counterexample"
   ],
   "note": "The panic is caught around serialize_value. C57_inside_counterexample shows that catching one inside an implementation and going on with the same value is not safe: the position mapping is stale, a release build writes outside the storage."
  },
  {
   "property": "C58",
   "status": "proved",
   "theorems": [
    "C58_copying",
    "C58_capacity",
    "C58_linear",
    "C58_serialize"
   ],
   "note": ""
  },
  {
   "property": "C59",
   "status": "proved",
   "theorems": [
    "C59_storage_use",
    "C59_all_kinds",
    "C59_client"
   ],
   "note": "alike ignores the contents of the buffer; contents are C54."
  },
  {
   "property": "C60",
   "status": "proved",
   "theorems": [
    "C60_defaults",
    "C60_given",
    "C60_all",
    "C60_too_many"
   ],
   "note": ""
  },
  {
   "property": "C61",
   "status": "proved",
   "theorems": [
    "C61_stays_readable",
    "C61_complete_in_place",
    "C61_moved_counterexample"
   ],
   "note": "C61_moved_counterexample: the documented warning about moving a Complete output is real."
  },
  {
   "property": "C62",
   "status": "proved",
   "theorems": [
    "C62_contracts",
    "C62_when_aligned",
    "C62_histories",
    "C62_new"
   ],
   "note": "Finding: the documented contracts alone do not exclude misaligned accesses (C62_empty_write_refuted, C62_wide_type_refuted)."
  },
  {
   "property": "C63",
   "status": "proved",
   "theorems": [
    "C63_debug_catches",
    "C63_debug_catches_new",
    "C63_release_unchecked"
   ],
   "note": "Of 'a T is present at this position' only that it lies below pos() is checked (and can be)."
  },
  {
   "property": "C64",
   "status": "proved",
   "theorems": [
    "C64_serialize",
    "C64_clash",
    "C64_total",
    "C64_serializer"
   ],
   "note": "Since no bound is added, the impl of a struct with a field of a bare type parameter T also covers T that are not Serialize, so rustc rejects it: such a field needs #[ser_with]."
  },
  {
   "property": "C65",
   "status": "proved",
   "theorems": [
    "any_storage_push_slice",
    "any_storage_history",
    "any_storage_keeps_values",
    "any_storage_positions",
    "any_two_storages_agree",
    "any_storage_with_capacity",
    "aligned_vec_keeps_contract",
    "fixed_storages_keep_contract",
    "moving_reserve_misaligns",
    "push_empty_breaks_set_pos_contract",
    "gen_ops_witness"
   ],
   "note": "The contract is the record keeps_contract (GenSpec.v), each clause citing the documentation. AlignedVec meets it for non-empty slices (C13 is about the empty ones). Implementors that override a provided method are not modelled."
  },
  {
   "property": "C66",
   "status": "proved",
   "theorems": [
    "any_storage_serialize_all",
    "any_storage_serialize",
    "any_storage_complete_tight",
    "any_two_storages_serialize_alike",
    "aligned_vec_serializers",
    "any_storage_serialize_witness",
    "moving_reserve_loses_value"
   ],
   "note": "Contracts: keeps_contract, reserve_keeps_pos (GenSpec.v), storage_for (GenSerSpec.v). The witness is a block of fixed size that moves while being written. The panic case says which request was refused: one that starts at or after the position at the start and would end within the output (refused_within)."
  },
  {
   "property": "C67",
   "status": "proved",
   "theorems": [
    "C67_gaps",
    "C67_every_byte",
    "C67_client_gaps",
    "C67_reproducible_iff",
    "C67_not_reproducible"
   ],
   "note": "Specification in PropGaps.v (in_a_block, old_byte, expected_byte) and Encode.v. The storage is compared before and after; the bytes of the input inside a block include the input's own padding."
  },
  {
   "property": "C68",
   "status": "proved",
   "theorems": [
    "C68_separate",
    "C68_owned_only",
    "C68_change_one"
   ],
   "note": "Specification in PropTree.v: root_places follows pointers found in memory, separate says pairwise disjoint. For Complete the output is read at the storage's address, for PtrOffset at 0 (offsets)."
  },
  {
   "property": "C69",
   "status": "proved",
   "theorems": [
    "C69_touches",
    "C69_lent"
   ],
   "note": "About programs at the level of memory instructions (Prog.v, ProgSer.v), which are proved to be the model of Storage.v/Serialize.v when run alone (sim_client). tk_reads are the ranges lent; C69_lent: the values' own places (root_places) suffice."
  },
  {
   "property": "C70",
   "status": "proved",
   "theorems": [
    "C70_no_UB",
    "C70_no_race",
    "C70_separate",
    "C70_inputs_unchanged",
    "C70_as_alone",
    "C70_output",
    "C70_not_stuck",
    "C70_terminates"
   ],
   "note": "Machine in Machine.v, clients in Jobs.v. One instruction (a whole copy) is atomic, which race freedom justifies. Abort ends only the thread in the model. C70_witness is a concrete interleaving of two threads run to the end."
  },
  {
   "property": "C71",
   "status": "proved",
   "theorems": [
    "C71_every_value",
    "C71_only",
    "C71_serialize",
    "C71_witness"
   ],
   "note": "build is an executable program storing any value (Build.v); it needs the total size by the layout rule, plus MAX_VALUE_ALIGNMENT, to be within the address space."
  },
  {
   "property": "C72",
   "status": "proved",
   "theorems": [
    "C72_output_determines_values",
    "C72_witness"
   ],
   "note": ""
  },
  {
   "property": "C73",
   "status": "proved",
   "theorems": [
    "C73_struct",
    "C73_struct_as_annotated",
    "C73_enum",
    "C73_witness"
   ],
   "note": "The exact form of C36, which claims annotations are always followed and is false of enums and of generic proxies."
  },
  {
   "property": "C74",
   "status": "proved",
   "theorems": [
    "C74_exact",
    "C74_type_bound",
    "C74_recursive",
    "C74_no_bound",
    "C74_witness"
   ],
   "note": "Counts nested serialize_data calls; bytes of stack per call are the compiler's."
  },
  {
   "property": "C75",
   "status": "proved",
   "theorems": [
    "C75_relay",
    "C75_end_to_end",
    "C75_witness"
   ],
   "note": "Addresses are numbers: pointer provenance is not modelled."
  },
  {
   "property": "C76",
   "status": "proved",
   "theorems": [
    "C76_count",
    "C76_groups",
    "C76_witness"
   ],
   "note": "Counts entries; how std's Vec over-allocates is not modelled."
  },
  {
   "property": "C77",
   "status": "proved",
   "theorems": [
    "C77_no_UB",
    "C77_no_race",
    "C77_touches",
    "C77_inputs_unchanged",
    "C77_ends",
    "C77_output",
    "C77_not_stuck",
    "C77_supported",
    "C77_witness"
   ],
   "note": "Threads run ClientJobs.v jobs on the machine of Machine.v. C77_supported: the crate's own implementations are a special case. C77_witness: two interleaved threads with three implementations each, one panicking."
  },
  {
   "property": "C78",
   "status": "proved",
   "theorems": [
    "C78_relocate",
    "C78_load",
    "C78_witness"
   ],
   "note": "handles (Load.v) is the reader; load (PropLoad.v) the loading program. C78_relocate gives the set of words and that any memory that agrees has the values; C78_load that the program produces such a memory."
  },
  {
   "property": "C79",
   "status": "proved",
   "theorems": [
    "C79_derived",
    "C79_calls",
    "C79_mixed",
    "C79_hypotheses",
    "C79_witness"
   ],
   "note": "Mixed.v: program, mx_data (the run), makes (the calls, a specification). C79_calls makes the theorems about hand-written implementations (C47, C57, C77) theorems about every type of such a program. The calls of a hand-written impl are a function of the memory and the address of the value. Impls that hand fields on to derived or hand-written impls: C92."
  },
  {
   "property": "C80",
   "status": "proved",
   "theorems": [
    "C80_value",
    "C80_same",
    "C80_hypotheses",
    "C80_witness"
   ],
   "note": "turns and all_achieve (MixedValid.v) are the specification: what comes out, and what each hand-written impl has to achieve. C80_witness: for the program of C79_witness the only value that can come out has 99 in the two places Hand's impl is for."
  },
  {
   "property": "C81",
   "status": "proved",
   "theorems": [
    "C81_supported",
    "C81_values",
    "C81_every_program",
    "C81_hypotheses",
    "C81_witness"
   ],
   "note": "Shows that the hypotheses wf_env/wf_ty/has_ty/valid_input of the other theorems are met by all declared programs with the reference layout, not only by the witnesses. Layouts rustc chooses itself (repr(Rust)) are covered by the other theorems through wf_ty."
  },
  {
   "property": "C82",
   "status": "proved",
   "theorems": [
    "C82_word_each",
    "C82_memory",
    "C82_no_overflow",
    "C82_overflow",
    "C82_witness"
   ],
   "note": "Vec's growth is std's (doubling, at least 4), as specified by vec_cap. C82_overflow shows that the half is needed: a record of more positions does overflow. An allocation failure for the record aborts the process, as for any Vec."
  },
  {
   "property": "C83",
   "status": "proved",
   "theorems": [
    "C83_session",
    "C83_values",
    "C83_hypotheses",
    "C83_witness"
   ],
   "note": "Zero-sized roots are left out (their pushes do nothing). The positions and the reason for every panic are in values_in; for serializers that write no pointers C83_session gives the image of each value."
  },
  {
   "property": "C84",
   "status": "proved",
   "theorems": [
    "C84_same_run",
    "C84_value",
    "C84_number",
    "C84_part",
    "C84_one_number",
    "C84_every_number",
    "C84_hypotheses",
    "C84_witness"
   ],
   "note": ""
  },
  {
   "property": "C85",
   "status": "proved",
   "theorems": [
    "C85_no_UB",
    "C85_no_race",
    "C85_touches",
    "C85_inputs_unchanged",
    "C85_ends",
    "C85_output",
    "C85_values",
    "C85_not_stuck",
    "C85_witness"
   ],
   "note": " Impls that hand fields on to derived or hand-written impls, in threads: C94."
  },
  {
   "property": "C86",
   "status": "proved",
   "theorems": [
    "C86_exact",
    "C86_enough",
    "C86_safe",
    "C86_storage",
    "C86_rejects",
    "C86_supported_compile",
    "C86_witness",
    "C86_page_refused",
    "C86_check_needed"
   ],
   "note": ""
  },
  {
   "property": "C87",
   "status": "proved",
   "theorems": [
    "C87_value",
    "C87_same",
    "C87_plan",
    "C87_session",
    "C87_hypotheses",
    "C87_witness"
   ],
   "note": ""
  },
  {
   "property": "C88",
   "status": "proved",
   "theorems": [
    "C88_push",
    "C88_zero_sized",
    "C88_hypotheses",
    "C88_witness"
   ],
   "note": "A consequence of C47, which since covers empty slices and zero-sized types. The pointer is written by the history of pointer writes of C22."
  },
  {
   "property": "C89",
   "status": "proved",
   "theorems": [
    "C89_custom_impls_any_storage",
    "C89_custom_impl_any_storage",
    "C89_aligned_vec",
    "C89_steps_ok",
    "C89_witness"
   ],
   "note": "Generalises C47 (storage AlignedVec) and C66 (impls of the crate). Calls on the storage itself, and impls that panic, over any storage: C95. A panic is tied to a refused request within the output (refused_within). C89_aligned_vec: over AlignedVec it is the code C47 is about. Witness: a storage of another kind whose block moves, two values, a zero-sized slice."
  },
  {
   "property": "C90",
   "status": "proved",
   "theorems": [
    "C90_calls",
    "C90_mixed_any_storage",
    "C90_values",
    "C90_values_read",
    "C90_aligned_vec",
    "C90_witness"
   ],
   "note": "Generalises C79, C80 and C87 (storage AlignedVec) and C66. Hand-written impls that call the storage itself or panic over any storage: C95. Witness: the program of C79 over a storage of another kind whose block moves on the way."
  },
  {
   "property": "C91",
   "status": "proved",
   "theorems": [
    "C91_hand_written",
    "C91_program",
    "C91_load",
    "C91_witness"
   ],
   "note": "Generalises C78 (derive-free values over AlignedVec). Hand-written impls that hand a field to its own Serialize impl are covered by writing out the calls that field makes (no_delegation). Witness: the output of C90_witness moved to 32768, with both kinds. Delegating programs: C92_load."
  },
  {
   "property": "C92",
   "status": "proved",
   "theorems": [
    "C92_conservative",
    "C92_calls",
    "C92_delegating",
    "C92_value",
    "C92_session",
    "C92_session_values",
    "C92_calls_any_storage",
    "C92_any_storage",
    "C92_load",
    "C92_hypotheses",
    "C92_witness",
    "C92_witness_calls"
   ],
   "note": "An impl's calls are a function of memory and address, as in C79; a call to serialize_data of a part is SField and runs the impl the program has for that type. What is handed on must be nested less deep than the value (a proxy may hand on the field itself): an impl handing its own value on does not end."
  },
  {
   "property": "C93",
   "status": "proved",
   "theorems": [
    "C93_value",
    "C93_same",
    "C93_session",
    "C93_any_storage",
    "C93_hypotheses",
    "C93_witness"
   ],
   "note": "all_read_parts is what the authors owe, one impl at a time: what is handed on is known only by the answer of its reader. The decoder's fuel bounds nesting only. C93_hypotheses meets it for the program of C92."
  },
  {
   "property": "C94",
   "status": "proved",
   "theorems": [
    "C94_no_UB",
    "C94_no_race",
    "C94_touches",
    "C94_inputs_unchanged",
    "C94_ends",
    "C94_output",
    "C94_values",
    "C94_not_stuck",
    "C94_witness"
   ],
   "note": "ProgDeleg.v is Deleg.v with the memory accesses explicit; DelegJobs.v proves it is the same program run alone, confined to what it is lent, and never undefined; MachineFacts.v does the rest. C94_witness: two interleaved threads over the program of C92."
  },
  {
   "property": "C95",
   "status": "proved",
   "theorems": [
    "C95_session",
    "C95_programs",
    "C95_values",
    "C95_only_if_full",
    "C95_all_there",
    "C95_aligned_vec",
    "small_contract",
    "small_refuses",
    "C95_witness",
    "C95_program_witness"
   ],
   "note": "Empty slices of types that are not zero-sized are excluded (as in C89; over AlignedVec C57 covers them). A panic of a storage call made by an implementation is counted as the implementation's own. Witnesses: a 256-byte buffer whose block moves, in which one value is stored, one panics half-way, one no longer fits and one stores bytes of its own; the program of C92 five times, of which four fit."
  },
  {
   "property": "C96",
   "status": "proved",
   "theorems": [
    "C96_hand_written",
    "C96_programs",
    "C96_sessions",
    "C96_aligned_vec",
    "C96_same_output",
    "C96_witness"
   ],
   "note": "The encoder is Bytes.v's *_pieces and found. A byte of a pointer word is stated through the word it belongs to. That the rest is padding is stated for impls that make no storage calls and do not panic. Empty slices of types that are not zero-sized are excluded over other storages (as in C89), not over AlignedVec (C96_aligned_vec)."
  },
  {
   "property": "C97",
   "status": "proved",
   "theorems": [
    "C97_session",
    "C97_programs",
    "C97_aligned_vec",
    "C97_witness",
    "C97_program_witness"
   ],
   "note": "C82 has the smaller bound for values of the crate's own impls over AlignedVec. std's Vec growth policy (doubling, at least 4) is the specification vec_cap of PropRecordMem.v."
  },
  {
   "property": "C98",
   "status": "proved",
   "theorems": [
    "C98_session",
    "C98_nothing_to_catch",
    "C98_room",
    "C98_catching_nothing",
    "C98_rules_of_calls",
    "C98_mapping_lost",
    "C98_witness",
    "C98_room_witness"
   ],
   "note": "C57 and C95 have panics caught outside of serialize_value, C57_inside_counterexample a first case of the unsound one. C98_mapping_lost is a finding: only what the condition forbids is needed for undefined behaviour from safe code."
  },
  {
   "property": "C99",
   "status": "proved",
   "theorems": [
    "C99_needed",
    "C99_enough",
    "C99_circle",
    "C99_overflow",
    "C99_session",
    "C99_session_needed",
    "C99_valid",
    "C99_no_circle",
    "C99_aligned_vec_ends",
    "C99_aligned_vec",
    "C99_witness",
    "C99_circle_witness"
   ],
   "note": "C74 has the crate's own impls only. The allowance is a number of calls; how many bytes of stack a call takes is not modelled. C99_needed and C99_enough ask nothing of the program, the memory or the storage; that the stack does not overflow asks that the storage's own methods end, which AlignedVec's do."
  },
  {
   "property": "C100",
   "status": "proved",
   "theorems": [
    "C100_generations",
    "C100_values",
    "C100_next",
    "C100_faithful",
    "C100_settles",
    "C100_any_session",
    "C100_hypotheses",
    "C100_witness"
   ],
   "note": "C56 has the crate's own impls and equality of bytes; here it is equality of values. C100_any_session: every successful session is such a step, at any address. The input and output of a step are separate memories."
  },
  {
   "property": "C101",
   "status": "proved",
   "theorems": [
    "C101_same",
    "C101_same_session",
    "C101_any_storage",
    "C101_session",
    "C101_aligned_vec",
    "C101_fixed",
    "C101_position",
    "C101_witness",
    "C101_position_witness",
    "C101_bytes",
    "C101_same_output",
    "C101_bytes_witness"
   ],
   "note": "The result of a closure and positions returned by methods of Storage are not handed on (the implementation can ask pos() instead). C101_session needs the rules for the calls of every starting position, since an earlier panic may leave any. C101_same: equality of outcome and final state with the calls made blindly (C89), also when something panics; C101_same_session: the same for sessions that return (C101_session says they always do, unless the allocator aborts)."
  }
 ]
}
