(** * Assumptions: the axioms every property theorem rests on (generated from MANIFEST.json).
    Each command must print "Closed under the global context". *)
From Verif Require Import PropStorage PropSerialize WitnessSerialize PropDerive WitnessDerive BigInt PropClient PropExact PropMoves PropEncode PropIdem PropResume PropCost PropUse PropDefaults PropReuse PropUnsafe PropGenerics PropGen PropGenSer PropGaps PropTree PropMachine PropValues PropSerWith PropDepth PropRelay PropRecord PropClients PropLoad PropMixed PropMixedValue PropSource PropRecordMem PropMixedSession PropBigNum PropMixedThreads PropMono PropMixedDecode PropZst PropGenClient PropGenMixed PropRelocate PropDeleg PropDelegDecode PropDelegThreads PropGenSession PropBytes PropGenRecord PropCatch PropNest PropGenerations PropReact.

Print Assumptions C01_align_up_to.
Print Assumptions C02_is_aligned_to.
Print Assumptions C03_aligned_max_capacity.
Print Assumptions C04_aligned_max_u32_capacity.
Print Assumptions C05_invariants.
Print Assumptions C06_push.
Print Assumptions C06_push_returns.
Print Assumptions C07_positions.
Print Assumptions C08_reserve.
Print Assumptions C09_with_capacity.
Print Assumptions C100_any_session.
Print Assumptions C100_faithful.
Print Assumptions C100_generations.
Print Assumptions C100_hypotheses.
Print Assumptions C100_next.
Print Assumptions C100_settles.
Print Assumptions C100_values.
Print Assumptions C100_witness.
Print Assumptions C101_aligned_vec.
Print Assumptions C101_any_storage.
Print Assumptions C101_bytes.
Print Assumptions C101_bytes_witness.
Print Assumptions C101_fixed.
Print Assumptions C101_position.
Print Assumptions C101_position_witness.
Print Assumptions C101_same.
Print Assumptions C101_same_output.
Print Assumptions C101_same_session.
Print Assumptions C101_session.
Print Assumptions C101_witness.
Print Assumptions C10_shrink_to_fit.
Print Assumptions C11_clear.
Print Assumptions C11_clear_positions.
Print Assumptions C12_protocol.
Print Assumptions C13_counterexample.
Print Assumptions C13_no_UB_partial.
Print Assumptions C13_only_UB.
Print Assumptions C14_counterexample_debug.
Print Assumptions C14_counterexample_release.
Print Assumptions C14_push_empty_partial.
Print Assumptions C15_clean_failure.
Print Assumptions C16_read.
Print Assumptions C16_write.
Print Assumptions C16_write_then_read.
Print Assumptions C17_every_capacity_legal.
Print Assumptions C17_validation.
Print Assumptions C18_pure_copy.
Print Assumptions C19_ptr_offset.
Print Assumptions C20_offsets_forward.
Print Assumptions C21_complete.
Print Assumptions C21_complete_forward.
Print Assumptions C22_correction.
Print Assumptions C23_shrunk.
Print Assumptions C24_self_contained.
Print Assumptions C25_several_values.
Print Assumptions C26_existing_kept.
Print Assumptions C27_same_layout.
Print Assumptions C28_succeeds_iff_fits.
Print Assumptions C29_allocator.
Print Assumptions C29_nothing_else.
Print Assumptions C30_mapping.
Print Assumptions C31_vec_offsets.
Print Assumptions C32_empty_overwrite.
Print Assumptions C33.
Print Assumptions C33_serialize.
Print Assumptions C33_supported.
Print Assumptions C34_enum.
Print Assumptions C34_runs.
Print Assumptions C34_struct.
Print Assumptions C35.
Print Assumptions C36_counterexample_enum.
Print Assumptions C36_counterexample_generic.
Print Assumptions C36_enum_ignores.
Print Assumptions C36_partial.
Print Assumptions C36_rejects.
Print Assumptions C37_growth.
Print Assumptions C37_growth_step.
Print Assumptions C38_presized.
Print Assumptions C39_addresses_partial.
Print Assumptions C39_counterexample.
Print Assumptions C40_counterexample.
Print Assumptions C40_repush_partial.
Print Assumptions C41_counterexample.
Print Assumptions C41_position_usable_partial.
Print Assumptions C42.
Print Assumptions C42_dispatch.
Print Assumptions C43_size_bound.
Print Assumptions C44_counterexample.
Print Assumptions C44_exact.
Print Assumptions C44_partial.
Print Assumptions C45_access_partial.
Print Assumptions C45_counterexample.
Print Assumptions C46.
Print Assumptions C47_custom_impl.
Print Assumptions C48_UB_exactly.
Print Assumptions C49_push_empty_exactly.
Print Assumptions C50_any_address_debug.
Print Assumptions C50_any_address_exactly.
Print Assumptions C51_position_usable_exactly.
Print Assumptions C52_repush_exactly.
Print Assumptions C52_twice.
Print Assumptions C53_finalize_exactly.
Print Assumptions C54_bytes.
Print Assumptions C55_depends_only.
Print Assumptions C56_copy_of_copy.
Print Assumptions C56_idempotent.
Print Assumptions C56_valid_again.
Print Assumptions C57_inside_counterexample.
Print Assumptions C57_resume.
Print Assumptions C58_capacity.
Print Assumptions C58_copying.
Print Assumptions C58_linear.
Print Assumptions C58_serialize.
Print Assumptions C59_all_kinds.
Print Assumptions C59_client.
Print Assumptions C59_storage_use.
Print Assumptions C60_all.
Print Assumptions C60_defaults.
Print Assumptions C60_given.
Print Assumptions C60_too_many.
Print Assumptions C61_complete_in_place.
Print Assumptions C61_moved_counterexample.
Print Assumptions C61_stays_readable.
Print Assumptions C62_contracts.
Print Assumptions C62_histories.
Print Assumptions C62_new.
Print Assumptions C62_when_aligned.
Print Assumptions C63_debug_catches.
Print Assumptions C63_debug_catches_new.
Print Assumptions C63_release_unchecked.
Print Assumptions C64_clash.
Print Assumptions C64_serialize.
Print Assumptions C64_serializer.
Print Assumptions C64_total.
Print Assumptions C67_client_gaps.
Print Assumptions C67_every_byte.
Print Assumptions C67_gaps.
Print Assumptions C67_not_reproducible.
Print Assumptions C67_reproducible_iff.
Print Assumptions C68_change_one.
Print Assumptions C68_owned_only.
Print Assumptions C68_separate.
Print Assumptions C69_lent.
Print Assumptions C69_touches.
Print Assumptions C70_as_alone.
Print Assumptions C70_inputs_unchanged.
Print Assumptions C70_no_UB.
Print Assumptions C70_no_race.
Print Assumptions C70_not_stuck.
Print Assumptions C70_output.
Print Assumptions C70_separate.
Print Assumptions C70_terminates.
Print Assumptions C71_every_value.
Print Assumptions C71_only.
Print Assumptions C71_serialize.
Print Assumptions C71_witness.
Print Assumptions C72_output_determines_values.
Print Assumptions C72_witness.
Print Assumptions C73_enum.
Print Assumptions C73_struct.
Print Assumptions C73_struct_as_annotated.
Print Assumptions C73_witness.
Print Assumptions C74_exact.
Print Assumptions C74_no_bound.
Print Assumptions C74_recursive.
Print Assumptions C74_type_bound.
Print Assumptions C74_witness.
Print Assumptions C75_end_to_end.
Print Assumptions C75_relay.
Print Assumptions C75_witness.
Print Assumptions C76_count.
Print Assumptions C76_groups.
Print Assumptions C76_witness.
Print Assumptions C77_ends.
Print Assumptions C77_inputs_unchanged.
Print Assumptions C77_no_UB.
Print Assumptions C77_no_race.
Print Assumptions C77_not_stuck.
Print Assumptions C77_output.
Print Assumptions C77_supported.
Print Assumptions C77_touches.
Print Assumptions C77_witness.
Print Assumptions C78_load.
Print Assumptions C78_relocate.
Print Assumptions C78_witness.
Print Assumptions C79_calls.
Print Assumptions C79_derived.
Print Assumptions C79_hypotheses.
Print Assumptions C79_mixed.
Print Assumptions C79_witness.
Print Assumptions C80_hypotheses.
Print Assumptions C80_same.
Print Assumptions C80_value.
Print Assumptions C80_witness.
Print Assumptions C81_every_program.
Print Assumptions C81_hypotheses.
Print Assumptions C81_supported.
Print Assumptions C81_values.
Print Assumptions C81_witness.
Print Assumptions C82_memory.
Print Assumptions C82_no_overflow.
Print Assumptions C82_overflow.
Print Assumptions C82_witness.
Print Assumptions C82_word_each.
Print Assumptions C83_hypotheses.
Print Assumptions C83_session.
Print Assumptions C83_values.
Print Assumptions C83_witness.
Print Assumptions C84_every_number.
Print Assumptions C84_hypotheses.
Print Assumptions C84_number.
Print Assumptions C84_one_number.
Print Assumptions C84_part.
Print Assumptions C84_same_run.
Print Assumptions C84_value.
Print Assumptions C84_witness.
Print Assumptions C85_ends.
Print Assumptions C85_inputs_unchanged.
Print Assumptions C85_no_UB.
Print Assumptions C85_no_race.
Print Assumptions C85_not_stuck.
Print Assumptions C85_output.
Print Assumptions C85_touches.
Print Assumptions C85_values.
Print Assumptions C85_witness.
Print Assumptions C86_check_needed.
Print Assumptions C86_enough.
Print Assumptions C86_exact.
Print Assumptions C86_page_refused.
Print Assumptions C86_rejects.
Print Assumptions C86_safe.
Print Assumptions C86_storage.
Print Assumptions C86_supported_compile.
Print Assumptions C86_witness.
Print Assumptions C87_hypotheses.
Print Assumptions C87_plan.
Print Assumptions C87_same.
Print Assumptions C87_session.
Print Assumptions C87_value.
Print Assumptions C87_witness.
Print Assumptions C88_hypotheses.
Print Assumptions C88_push.
Print Assumptions C88_witness.
Print Assumptions C88_zero_sized.
Print Assumptions C89_aligned_vec.
Print Assumptions C89_custom_impl_any_storage.
Print Assumptions C89_custom_impls_any_storage.
Print Assumptions C89_steps_ok.
Print Assumptions C89_witness.
Print Assumptions C90_aligned_vec.
Print Assumptions C90_calls.
Print Assumptions C90_mixed_any_storage.
Print Assumptions C90_values.
Print Assumptions C90_values_read.
Print Assumptions C90_witness.
Print Assumptions C91_hand_written.
Print Assumptions C91_load.
Print Assumptions C91_program.
Print Assumptions C91_witness.
Print Assumptions C92_any_storage.
Print Assumptions C92_calls.
Print Assumptions C92_calls_any_storage.
Print Assumptions C92_conservative.
Print Assumptions C92_delegating.
Print Assumptions C92_hypotheses.
Print Assumptions C92_load.
Print Assumptions C92_session.
Print Assumptions C92_session_values.
Print Assumptions C92_value.
Print Assumptions C92_witness.
Print Assumptions C92_witness_calls.
Print Assumptions C93_any_storage.
Print Assumptions C93_hypotheses.
Print Assumptions C93_same.
Print Assumptions C93_session.
Print Assumptions C93_value.
Print Assumptions C93_witness.
Print Assumptions C94_ends.
Print Assumptions C94_inputs_unchanged.
Print Assumptions C94_no_UB.
Print Assumptions C94_no_race.
Print Assumptions C94_not_stuck.
Print Assumptions C94_output.
Print Assumptions C94_touches.
Print Assumptions C94_values.
Print Assumptions C94_witness.
Print Assumptions C95_aligned_vec.
Print Assumptions C95_all_there.
Print Assumptions C95_only_if_full.
Print Assumptions C95_program_witness.
Print Assumptions C95_programs.
Print Assumptions C95_session.
Print Assumptions C95_values.
Print Assumptions C95_witness.
Print Assumptions C96_aligned_vec.
Print Assumptions C96_hand_written.
Print Assumptions C96_programs.
Print Assumptions C96_same_output.
Print Assumptions C96_sessions.
Print Assumptions C96_witness.
Print Assumptions C97_aligned_vec.
Print Assumptions C97_program_witness.
Print Assumptions C97_programs.
Print Assumptions C97_session.
Print Assumptions C97_witness.
Print Assumptions C98_catching_nothing.
Print Assumptions C98_mapping_lost.
Print Assumptions C98_nothing_to_catch.
Print Assumptions C98_room.
Print Assumptions C98_room_witness.
Print Assumptions C98_rules_of_calls.
Print Assumptions C98_session.
Print Assumptions C98_witness.
Print Assumptions C99_aligned_vec.
Print Assumptions C99_aligned_vec_ends.
Print Assumptions C99_circle.
Print Assumptions C99_circle_witness.
Print Assumptions C99_enough.
Print Assumptions C99_needed.
Print Assumptions C99_no_circle.
Print Assumptions C99_overflow.
Print Assumptions C99_session.
Print Assumptions C99_session_needed.
Print Assumptions C99_valid.
Print Assumptions C99_witness.
Print Assumptions aligned_vec_keeps_contract.
Print Assumptions aligned_vec_serializers.
Print Assumptions any_storage_complete_tight.
Print Assumptions any_storage_history.
Print Assumptions any_storage_keeps_values.
Print Assumptions any_storage_positions.
Print Assumptions any_storage_push_slice.
Print Assumptions any_storage_serialize.
Print Assumptions any_storage_serialize_all.
Print Assumptions any_storage_serialize_witness.
Print Assumptions any_storage_with_capacity.
Print Assumptions any_two_storages_agree.
Print Assumptions any_two_storages_serialize_alike.
Print Assumptions fixed_storages_keep_contract.
Print Assumptions gen_ops_witness.
Print Assumptions moving_reserve_loses_value.
Print Assumptions moving_reserve_misaligns.
Print Assumptions push_empty_breaks_set_pos_contract.
Print Assumptions small_contract.
Print Assumptions small_refuses.
