{
 "claims": [
  {
   "property": "C01",
   "status": "proved",
   "theorems": [
    "C01_queue_is_fifo",
    "C01_queue_conserves_messages",
    "C01_queue_never_undefined"
   ],
   "note": "Every history of queue calls refines an ideal FIFO; conservation of messages; never undefined."
  },
  {
   "property": "C02",
   "status": "proved",
   "theorems": [
    "C02_connection_invariant",
    "C02_single_instance_invariant",
    "C02_at_most_one_receiver_and_sender",
    "C02_failed_calls_change_nothing",
    "C02_call_outcomes",
    "C02_call_effects",
    "C02_shared_port_refuted"
   ],
   "note": "For every history in which a port is not handed to an instance while owned by another (in particular every single-instance history). Refuted for ports handed to two instances (connectInput does not check the port)."
  },
  {
   "property": "C03",
   "status": "proved",
   "theorems": [
    "C03_double_buffering_refines_spec",
    "C03_receiver_sees_value_of_last_swap",
    "C03_receiver_sees_initial_value_before_swap",
    "C03_changed_flag"
   ],
   "note": "Refinement to a buffer-free specification plus history statements. Finding: mChanged is not cleared by (dis)connecting, so the flag is exact relative to swaps seen while connected since the last resetChanged."
  },
  {
   "property": "C04",
   "status": "proved",
   "theorems": [
    "C04_incremental_edits_with_copy",
    "C04_incremental_edits_without_copy",
    "C04_default_swap_accumulates_refuted"
   ],
   "note": "copy=true law, exact two-lane law for copy=false, refutation that the default swap accumulates."
  },
  {
   "property": "C05",
   "status": "proved",
   "theorems": [
    "C05_shared_data_visible",
    "C05_at_most_one_sender"
   ],
   "note": "Read value as a function of the call history; single sender."
  },
  {
   "property": "C06",
   "status": "proved",
   "theorems": [
    "C06_circular_buffer_is_delay_memory",
    "C06_read_pointers_of_all_channels"
   ],
   "note": "Any history of writes and commits, any channel/length/alignment; reads at every delay up to the length."
  },
  {
   "property": "C07",
   "status": "proved",
   "theorems": [
    "C07_circular_buffer_memory_safe",
    "C07_limit_violations_throw",
    "C07_unchecked_read_pointer_refuted"
   ],
   "note": "Memory safety under the caller obligations; limit violations throw; per-channel read pointer is unchecked (refuted for delays beyond the length)."
  },
  {
   "property": "C08",
   "status": "proved",
   "theorems": [
    "C08_flexible_buffer_one_period_delay",
    "C08_frame_counts_irrelevant"
   ],
   "note": "Any flow, any period, any sequence of frame counts (pointer overload)."
  },
  {
   "property": "C09",
   "status": "partial",
   "theorems": [
    "C09_strided_equals_pointer_partial",
    "C09_strided_overload_refuted"
   ],
   "note": "False of the code (write pointer advances by frames, not frames*stride): refuted; proved for sample stride 1 or calls within one period."
  },
  {
   "property": "C10",
   "status": "proved",
   "theorems": [
    "C10_polynomials_reproduced",
    "C10_coefficients_sum_to_one",
    "C10_kronecker_at_taps"
   ],
   "note": "Every order and both coefficient orders, exact arithmetic."
  },
  {
   "property": "C11",
   "status": "partial",
   "theorems": [
    "C11_integer_delay_partial",
    "C11_nearest_sample_integer_delay",
    "C11_fractional_delay_of_polynomial_exact"
   ],
   "note": "Complete for nearest-sample; for Lagrange orders every whole total delay whose filter fits before the maximum delay (beyond that the code reads outside its history, see C12); also exactness of fractional/moving delays on polynomial signals."
  },
  {
   "property": "C12",
   "status": "partial",
   "theorems": [
    "C12_reads_only_recent_samples_partial",
    "C12_nearest_sample_reads_only_recent_samples",
    "C12_other_delays_throw",
    "C12_states_reachable",
    "C12_maximum_delay_refuted",
    "C12_maximum_delay_reads_newest_refuted"
   ],
   "note": "False of the code near the maximum delay for orders >= 1 (refuted: undefined behaviour, or the newest sample is read); proved for order 0 completely and for delays leaving room for half the filter."
  },
  {
   "property": "C13",
   "status": "partial",
   "theorems": [
    "C13_texts_expand_partial",
    "C13_only_such_texts_accepted",
    "C13_no_negative_index",
    "C13_undefined_only_by_overflow",
    "C13_refuted"
   ],
   "note": "Grammar-level soundness and completeness for every text. False of the code in three ways (refuted): negative indices / zero steps throw a char const pointer instead of invalid_argument, and stepping past the end of a range may overflow int."
  },
  {
   "property": "C14",
   "status": "partial",
   "theorems": [
    "C14_print_parse_round_trip_partial",
    "C14_refuted"
   ],
   "note": "False for three equal indices, indices beyond int and the empty list (refuted); proved for all other lists with indices below 2^30."
  },
  {
   "property": "C15",
   "status": "proved",
   "theorems": [
    "C15_valid_ranges",
    "C15_size_counts",
    "C15_at",
    "C15_list_of_ranges"
   ],
   "note": "64-bit arithmetic with wrap-around; indices below 2^63."
  },
  {
   "property": "C16",
   "status": "proved",
   "theorems": [
    "C16_channels_exclusive",
    "C16_set_objects_accepted_and_stable",
    "C16_too_many_objects_rejected",
    "C16_object_for_channel",
    "C16_duplicates_leak_refuted",
    "C16_channel_out_of_range_not_rejected_refuted"
   ],
   "note": "All histories of duplicate-free lists. Findings refuted separately: duplicates leak channels; out-of-range channel query is not rejected."
  },
  {
   "property": "C17",
   "status": "partial",
   "theorems": [
    "C17_ramp_is_equidistant_partial",
    "C17_ramp_end_points_partial",
    "C17_consecutive_ramps_join",
    "C17_ramp_stays_between_end_points",
    "C17_single_element_ramp_refuted"
   ],
   "note": "Single-element ramps with equal inclusion flags violate it (refuted); everything else proved."
  },
  {
   "property": "C18",
   "status": "partial",
   "theorems": [
    "C18_multiply_float",
    "C18_multiply_double",
    "C18_multiply_complex",
    "C18_multiply_add_float",
    "C18_multiply_add_double",
    "C18_multiply_add_complex",
    "C18_ramp_scaling",
    "C18_constant_add_float_partial",
    "C18_constant_add_float_aligned_partial",
    "C18_constant_add_complex_partial",
    "C18_constant_add_float_unaligned_refuted",
    "C18_constant_add_alignment_error_refuted",
    "C18_constant_add_alignment_fault_refuted"
   ],
   "note": "Refuted for vectorMultiplyConstantAddInplace: the float kernel uses an aligned store for unclaimed alignment (undefined behaviour where the reference succeeds) and neither kernel checks the alignment argument. Proved in full for vectorMultiply, vectorMultiplyAddInplace (float, double, complex<float>) and vectorRampScaling, and for vectorMultiplyConstantAddInplace under the truthful-alignment hypotheses of the _partial theorems."
  },
  {
   "property": "C19",
   "status": "partial",
   "theorems": [
    "C19_output_is_mix_with_gains",
    "C19_follows_ideal_ramps_partial",
    "C19_transition_starts_at_last_gain_partial",
    "C19_slope_bounded",
    "C19_target_reached",
    "C19_set_twice_jumps_refuted"
   ],
   "note": "False if gains are set twice without a block in between or when |new-old| is tiny (refuted); otherwise ideal linear ramps, slope bound and reaching the target proved for all histories."
  },
  {
   "property": "C20",
   "status": "partial",
   "theorems": [
    "C20_blocks_join",
    "C20_new_gain_transition_starts_mirrored",
    "C20_new_delay_transition_starts_mirrored",
    "C20_continuous_iff_partial",
    "C20_output_between_block_ends",
    "C20_running_transition_jumps_refuted",
    "C20_matrix_continuous_iff_partial",
    "C20_matrix_running_transition_jumps_refuted"
   ],
   "note": "False of the code: a running transition is mirrored (refuted for DelayVector and DelayMatrix); exact start value and the iff characterisation of the continuous cases proved."
  },
  {
   "property": "C21",
   "status": "proved",
   "theorems": [
    "C21_target_applied",
    "C21_output_after_transition",
    "C21_matrix_target_applied",
    "C21_matrix_output_after_transition"
   ],
   "note": "All histories, DelayVector and DelayMatrix, parameters and audio output."
  },
  {
   "property": "C22",
   "status": "proved",
   "theorems": [
    "C22_time_varying_cascade",
    "C22_cascade",
    "C22_block_partition",
    "C22_equation_determines_output",
    "C22_constructors",
    "C22_ragged_matrix_refuted"
   ],
   "note": "Over an arbitrary commutative ring. C22_time_varying_cascade covers every history of (accepted or rejected) coefficient updates and blocks; C22_cascade is the constant-coefficient statement; C22_block_partition the partition independence. Coefficient matrices must be rectangular: a ragged matrix passes the size check and is read out of bounds (C22_ragged_matrix_refuted). An exception from a setter is modelled as leaving the component unchanged, because all checks precede the first write. SSE/AVX dispatch of the biquad does not exist in the code: the reference kernel is the only one."
  },
  {
   "property": "C23",
   "status": "proved",
   "theorems": [
    "C23_stream",
    "C23_real_dft"
   ],
   "note": "For any commutative ring of samples and any linear transform satisfying the convolution theorem (C23_stream), instantiated with the half-spectrum real DFT over Coq's Reals (C23_real_dft; uses the standard library's axioms of R)."
  },
  {
   "property": "C24",
   "status": "proved",
   "theorems": [
    "C24_routing_sum",
    "C24_real_dft",
    "C24_unrouted_silent",
    "C24_order_irrelevant"
   ],
   "note": "All histories of filter/routing calls and process() of MultichannelConvolverUniform refine the specification; order independence and silence of unrouted outputs are separate theorems. C24_real_dft uses the axioms of Reals."
  },
  {
   "property": "C25",
   "status": "partial",
   "theorems": [
    "C25_map_semantics",
    "C25_rejected_unchanged",
    "C25_remove_result_refuted"
   ],
   "note": "Map semantics, capacity and unchanged-on-rejection proved; the claim that removeRoutingEntry returns whether the entry existed is false of the code (C25_remove_result_refuted); the remaining statement is proved in full."
  },
  {
   "property": "C26",
   "status": "partial",
   "theorems": [
    "C26_crossfade",
    "C26_weights",
    "C26_transition",
    "C26_real",
    "C26_init_filters_refuted",
    "C26_filter_index_refuted"
   ],
   "note": "The crossfade law is proved in full for every history (C26_crossfade, C26_transition, C26_real with the constructor's ramps); the clause that initFilters makes the given filters active is false of the code after an odd number of changes (C26_init_filters_refuted), and filter indices in the upper half are accepted (C26_filter_index_refuted). C26_real uses the axioms of Reals."
  },
  {
   "property": "C27",
   "status": "partial",
   "theorems": [
    "C27_filter_routing_map",
    "C27_filter_count_refuted",
    "C27_sparse_map",
    "C27_sparse_remove_refuted",
    "C27_sparse_scalar_index_refuted"
   ],
   "note": "FilterRoutingList and SparseGainRoutingList refine finite maps over every history of add/remove/construct/parse/lookup; a failed parse changes nothing. Assumed of the parsed documents: no undefined size combination. Refuted for the rest: fromJson with fewer filters than entries reads out of bounds and with more silently drops them; SparseGainRoutingList::removeRouting(input,output) and the scalar entry index do not mean what they document."
  },
  {
   "property": "C28",
   "status": "proved",
   "theorems": [
    "C28_schedule",
    "C28_hierarchy"
   ],
   "note": "For all hierarchies and all flat connection tables with known senders (C28_schedule), and composed with the integrity checks and placeholder resolution (C28_hierarchy, under the single-sender condition of C30). A cycle always leads to std::invalid_argument."
  },
  {
   "property": "C29",
   "status": "partial",
   "theorems": [
    "C29_hierarchy_transparent",
    "C29_isolated_loop_refuted"
   ],
   "note": "Full characterisation for all hierarchies that pass the audio integrity check. Refuted part: a loop through composite ports on which no endpoint depends is accepted silently (C29_isolated_loop_refuted)."
  },
  {
   "property": "C30",
   "status": "partial",
   "theorems": [
    "C30_terminates",
    "C30_hierarchy_transparent_partial",
    "C30_isolated_loop_refuted",
    "C30_several_senders_refuted"
   ],
   "note": "Proved for flows in which no inner port has several senders; termination for every map. Refuted otherwise: an inner port with two senders keeps only the first (C30_several_senders_refuted); isolated loops are accepted."
  },
  {
   "property": "C31",
   "status": "partial",
   "theorems": [
    "C31_audio_check_iff_partial",
    "C31_parameter_check_iff",
    "C31_sample_types_refuted"
   ],
   "note": "Audio and parameter checks characterised by an iff for all hierarchies. The sample type clause is refuted: integrity_checking.cpp line 173 compares the receive port's type with itself."
  },
  {
   "property": "C32",
   "status": "partial",
   "theorems": [
    "C32_layout_partial",
    "C32_hierarchy_partial",
    "C32_atomic_partial",
    "C32_mixed_atomic_refuted",
    "C32_type_mismatch_refuted",
    "C32_complex_refuted"
   ],
   "note": "Proved for every flow whose connected ports have the same (non-complex) sample type and whose sample size divides the alignment; refuted for atomic flows with ports of different sample types, for connections between different sample types (accepted by the integrity check) and for complex types that need a routing component."
  },
  {
   "property": "C33",
   "status": "partial",
   "theorems": [
    "C33_flat_partial",
    "C33_layout_independent_partial",
    "C33_hierarchy_partial",
    "C33_atomic_partial",
    "C33_double_routing_refuted",
    "C33_external_type_refuted"
   ],
   "note": "Both process() functions evaluate every component exactly once on the values of its connected senders, for every flat flow, every checked hierarchy and every atomic flow, with arbitrary component behaviours incl. exceptions; the result does not depend on alignment, layout or inserted components when unconnected components are independent. Hypotheses: external ports of type float (refuted otherwise, C33_external_type_refuted), matching non-complex sample types of connected ports (as C32), pool alignment a multiple of 16 samples for channels that are copied (refuted for double, C33_double_routing_refuted)."
  },
  {
   "property": "C34",
   "status": "partial",
   "theorems": [
    "C34_block_time",
    "C34_before_initialisation_refuted"
   ],
   "note": "Proved for every history after initialisation; the counter is indeterminate before the AudioSignalFlow is constructed (C34_before_initialisation_refuted)."
  },
  {
   "property": "C35",
   "status": "partial",
   "theorems": [
    "C35_profiler",
    "C35_empty_mean_refuted",
    "C35_flow"
   ],
   "note": "Proved for every history at profiler and flow level; the documented NaN mean of zero iterations is refuted (C35_empty_mean_refuted). Arithmetic over exact rationals."
  },
  {
   "property": "C36",
   "status": "partial",
   "theorems": [
    "C36_scene_updates_over_blocks_refuted",
    "C36_scene_updates_in_one_block_refuted",
    "C36_scene_snapshots_refuted",
    "C36_scene_block_effect_partial",
    "C36_scene_block_any_messages_partial",
    "C36_scene_single_messages_partial"
   ],
   "note": "The property is false of the code: refuted across blocks, within one block and for full-scene messages. Proved instead: exact effect of each block."
  },
  {
   "property": "C37",
   "status": "partial",
   "theorems": [
    "C37_in_order",
    "C37_exact",
    "C37_drains",
    "C37_embedded_nul_refuted",
    "C37_synchronous"
   ],
   "note": "Order, exactly-once, at most one outstanding operation, no dangling buffer and draining proved for all interleavings; messages with an embedded NUL are truncated in asynchronous mode (C37_embedded_nul_refuted)."
  },
  {
   "property": "C38",
   "status": "partial",
   "theorems": [
    "C38_in_order",
    "C38_error_refuted"
   ],
   "note": "Proved for all interleavings without receive errors; a receive error forwards an empty message (C38_error_refuted)."
  },
  {
   "property": "C39",
   "status": "partial",
   "theorems": [
    "C39_blocked_refuted",
    "C39_accepted_partial",
    "C39_routing_list_recovers_partial",
    "C39_filter_check",
    "C39_routing_check",
    "C39_empty_filter_refuted",
    "C39_fir_blocked_refuted"
   ],
   "note": "Refuted: a rejected filter or routing message is never consumed and blocks the component forever (C39_blocked_refuted, C39_fir_blocked_refuted); an empty filter message is undefined. The partial theorems state what holds of accepted messages and rejected routing lists."
  },
  {
   "property": "C40",
   "status": "partial",
   "theorems": [
    "C40_signal_routing",
    "C40_initial_routing",
    "C40_invalid_index_refuted",
    "C40_initial_control_port_refuted"
   ],
   "note": "Every history of routing calls, control updates and blocks refines a connection relation, from either setup(). Excluded and refuted: the input marker cInvalidIndex is accepted and then read out of bounds; setup() with initial routing drops the requested control input."
  },
  {
   "property": "C41",
   "status": "proved",
   "theorems": [
    "C41_routing_map",
    "C41_parse",
    "C41_whitespace_separator_refuted"
   ],
   "note": "Every history refines a partial map from outputs to inputs, including getOutput; parse() is characterised by an independent grammar. The additional theorem C41_whitespace_separator_refuted concerns a source comment, not the property."
  },
  {
   "property": "C42",
   "status": "partial",
   "theorems": [
    "C42_routing",
    "C42_accepted_partial",
    "C42_channel_range_refuted",
    "C42_missing_labels_refuted"
   ],
   "note": "Refuted as stated: object channel index equal to the channel count is emitted and makes SignalRouting reject the update; missing labels throw. Proved: emitted routings are exactly requested ones, one per loudspeaker; acceptance downstream if all channels are in range."
  },
  {
   "property": "C43",
   "status": "partial",
   "theorems": [
    "C43_published",
    "C43_best_face_partial",
    "C43_best_face_refuted",
    "C43_suppressed_refuted"
   ],
   "note": "Refuted (C43_best_face_refuted: a smaller face id with an older time stamp is ignored; C43_suppressed_refuted: face id UINT_MAX can suppress a valid position). Strongest true variant: C43_best_face_partial (messages in time order or of one face) and C43_published."
  },
  {
   "property": "C44",
   "status": "partial",
   "theorems": [
    "C44_object_vector",
    "C44_fill_strong",
    "C44_aliasing_refuted"
   ],
   "note": "Every history of insert/at/remove/clear/assign/fill/update refines a finite map; fill is strongly exception safe. Excluded and refuted: arguments referring into the vector itself (insert(at(id)), self-assign)."
  },
  {
   "property": "C45",
   "status": "partial",
   "theorems": [
    "C45_exact",
    "C45_overlap_add_partial",
    "C45_long_period_refuted",
    "C45_overlap_add_refuted",
    "C45_hop_checked"
   ],
   "note": "Exact output proved for any number of frames per period (C45_exact); it is the overlap-add for one frame per period (C45_overlap_add_partial); with several frames per period samples are lost (C45_overlap_add_refuted), and a period longer than the transform overruns the buffer (C45_long_period_refuted)."
  },
  {
   "property": "C46",
   "status": "proved",
   "theorems": [
    "C46_next_aligned_size",
    "C46_matrix_layout",
    "C46_aligned_array_allocation",
    "C46_power_of_two_test",
    "C46_check_alignment"
   ],
   "note": "Alignment arithmetic, matrix layout, AlignedArray allocation."
  },
  {
   "property": "C47",
   "status": "proved",
   "theorems": [
    "C47_stable",
    "C47_bounded_output",
    "C47_dc_gain",
    "C47_nyquist_gain",
    "C47_centre_gain",
    "C47_response_exists",
    "C47_allpass",
    "C47_complementary",
    "C47_boost_cut",
    "C47_zero_gain",
    "C47_list",
    "C47_default",
    "C47_unchecked_frequency_refuted"
   ],
   "note": "All filter types over exact reals; bounded output is proved for the whole biquad component. A cut-off frequency at or beyond Nyquist is accepted unchecked (C47_unchecked_frequency_refuted), outside the claim's range."
  },
  {
   "property": "C48",
   "status": "proved",
   "theorems": [
    "C48_rotation",
    "C48_listener_motion"
   ],
   "note": ""
  },
  {
   "property": "C49",
   "status": "partial",
   "theorems": [
    "C49_constant_target_reached_eventually_partial",
    "C49_exact_course",
    "C49_distance_geometric",
    "C49_short_transitions_exact",
    "C49_refuted"
   ],
   "note": "False of the code: every block restarts the transition from the current gain, the target is approached geometrically (refuted); exact course, geometric distance and eventual exactness (equality threshold) proved."
  },
  {
   "property": "C50",
   "status": "partial",
   "theorems": [
    "C50_compensation",
    "C50_virtual_refuted",
    "C50_coincident_refuted"
   ],
   "note": "Refuted for arrays with virtual loudspeakers (out-of-bounds writes, C50_virtual_refuted) and when all loudspeakers coincide with the listener (division by zero). Proved in full otherwise, with the physical meaning of gains and delays."
  },
  {
   "property": "C51",
   "status": "partial",
   "theorems": [
    "C51_output_is_scaled_input",
    "C51_target_reached",
    "C51_transition_starts_at_last_gain_partial",
    "C51_running_transition_jumps_refuted"
   ],
   "note": "False for an update during a running transition (refuted: the gain jumps to the previous target); output law, target and starts from finished transitions proved."
  },
  {
   "property": "C52",
   "status": "partial",
   "theorems": [
    "C52_euler_rotation",
    "C52_euler_roundtrip",
    "C52_euler_represents",
    "C52_gimbal_lock_refuted",
    "C52_rotation_vector",
    "C52_rotation_vector_roundtrip",
    "C52_normalise",
    "C52_constructor_normalise_refuted"
   ],
   "note": "Rotation semantics and round trips proved; false in gimbal lock (C52_gimbal_lock_refuted) and for the constructor's normalise flag, which is ignored (C52_constructor_normalise_refuted)."
  },
  {
   "property": "C53",
   "status": "partial",
   "theorems": [
    "C53_position_angle",
    "C53_quaternion_angle_refuted",
    "C53_quaternion_angle_partial"
   ],
   "note": "Position angle proved. The quaternion angle is refuted (C53_quaternion_angle_refuted: square root of the dot product); C53_quaternion_angle_partial states what holds of the computed value."
  },
  {
   "property": "C54",
   "status": "partial",
   "theorems": [
    "C54_position",
    "C54_position_ends",
    "C54_opposite_refuted",
    "C54_quaternion",
    "C54_equal_refuted"
   ],
   "note": "Proved for non-degenerate arguments; C54_equal_refuted: equal orientations give 0/0; C54_opposite_refuted: opposite positions divide by zero."
  },
  {
   "property": "C55",
   "status": "partial",
   "theorems": [
    "C55_json_roundtrip",
    "C55_json_ypr_partial",
    "C55_json_ypr_refuted",
    "C55_json_ambiguous",
    "C55_json_defaults"
   ],
   "note": "Proved for the quaternion and rotation vector formats and for YPR outside gimbal lock; C55_json_ypr_refuted in gimbal lock."
  },
  {
   "property": "C56",
   "status": "partial",
   "theorems": [
    "C56_hop_checked",
    "C56_frames_partial",
    "C56_zero_padding_refuted",
    "C56_long_window_refuted",
    "C56_long_hop_refuted"
   ],
   "note": "Proved for transform sizes up to window length plus period; larger transform sizes throw in the constructor (C56_zero_padding_refuted); longer windows than the transform overrun a buffer, hop sizes beyond the window throw in process()."
  },
  {
   "property": "C57",
   "status": "partial",
   "theorems": [
    "C57_round_trip",
    "C57_hann_cola",
    "C57_reconstruction",
    "C57_normalisation_pairs",
    "C57_default_normalisation_refuted",
    "C57_fft_instance"
   ],
   "note": "Reconstruction, constant overlap-add and the inverse normalisation pairs proved over exact reals; the default normalisations of the two components are not inverse to each other (C57_default_normalisation_refuted)."
  },
  {
   "property": "C58",
   "status": "partial",
   "theorems": [
    "C58_direction_partial",
    "C58_normalised_partial",
    "C58_distance_partial",
    "C58_triangulation_partial",
    "C58_triplet_order_partial",
    "C58_at_listener_refuted",
    "C58_degenerate_refuted",
    "C58_listener_off_plane_refuted",
    "C58_infinite_array_refuted",
    "C58_rerouting",
    "C58_virtual_direction_partial"
   ],
   "note": "Direction, triplet choice, nonnegativity, unit power, distance invariance and independence of the triplet order are proved for every 3D array and every planar 2D array whose triplets are not coplanar with the listener (unit power: source not at the listener); with virtual loudspeakers, if their coefficients render them from their directions. Refuted for a source at the listener (silence), degenerate triplets, 2D arrays with the listener off the plane, and infinite arrays with a displaced listener. Exact real arithmetic."
  },
  {
   "property": "C59",
   "status": "partial",
   "theorems": [
    "C59_minimum_energy_partial",
    "C59_pair_partial",
    "C59_pair_hf_partial",
    "C59_axis",
    "C59_negative_limit_refuted",
    "C59_pair_polarity_refuted",
    "C59_pair_hf_refuted",
    "C59_median_refuted"
   ],
   "note": "Matching along the axis, level, limit and unique minimum energy are proved for three or more loudspeakers that differ along the axis; matching, limits and level for two loudspeakers (in the mode HF: for the squared gains); the axis for all orientations. Refuted: large negative gains are not limited, the polarity for two loudspeakers depends on their order, the mode HF takes square roots of negative gains, loudspeakers in the median plane divide zero by zero. Exact real arithmetic."
  },
  {
   "property": "C60",
   "status": "partial",
   "theorems": [
    "C60_direction_partial",
    "C60_vbap_partial",
    "C60_2D_refuted",
    "C60_near_sign_refuted",
    "C60_threshold_refuted"
   ],
   "note": "Proved for 3D arrays with the default threshold: construction succeeds, gains are nonnegative, recreate enclosed directions, vanish otherwise, and equal those of VBAP for enclosed sources. Refuted of the code: 2D arrays (read at an invalid third index), sign of the third gain near a boundary, effect of a new threshold."
  },
  {
   "property": "C61",
   "status": "partial",
   "theorems": [
    "C61_scene_partial",
    "C61_defined_partial",
    "C61_hf_power_partial",
    "C61_listener_refuted",
    "C61_diffuseness_refuted",
    "C61_vbip_refuted"
   ],
   "note": "Proved for any sequence of blocks: the outputs are those of the last object vector with the listener known in that block, zero before; no failure with three or more spread loudspeakers; high frequency power at most one. Refuted: listener changes without new objects are not rendered, initial interaural axis, diffuseness ignored, high frequency gains are amplitude gains rather than intensity gains."
  },
  {
   "property": "C62",
   "status": "partial",
   "theorems": [
    "C62_scene_partial",
    "C62_levels_partial",
    "C62_direction_partial",
    "C62_defined_partial",
    "C62_degrees_refuted",
    "C62_high_frequency_refuted",
    "C62_outside_refuted",
    "C62_label_refuted",
    "C62_channel_refuted",
    "C62_listener_refuted",
    "C62_every_loudspeaker_named"
   ],
   "note": "Proved for scenes whose channels exist and are used by one object: outputs, levels, directions (LF gains and squared HF gains) after any history, and absence of failures for enclosed sources and known labels. Refuted of the code: degrees of plane waves taken as radians, NaN for sources with a negative gain, exception outside the array, unknown labels and channels out of range (UB), listener change without new objects ignored."
  },
  {
   "property": "C63",
   "status": "partial",
   "theorems": [
    "C63_loudspeakers",
    "C63_names_partial",
    "C63_virtual_loudspeakers",
    "C63_routing_partial",
    "C63_triplets_partial",
    "C63_subwoofers",
    "C63_weights_partial",
    "C63_consistent",
    "C63_accepted_partial",
    "C63_valid_targets",
    "C63_defined_partial",
    "C63_fresh",
    "C63_reload_throws",
    "C63_padded_refuted",
    "C63_virtual_route_refuted",
    "C63_reload_refuted",
    "C63_assign_refuted",
    "C63_virtual_channel_refuted",
    "C63_subwoofer_channel_refuted"
   ],
   "note": "Loudspeakers, virtual loudspeakers, subwoofers and consistency hold for every accepted document; names, triplets, routing and weights need ids without surrounding blanks, routing, weights and freedom from UB need routes and subwoofers that name regular loudspeakers; accepted exactly if valid under these. Without them refuted, as are loading twice, assignment of equalisers, the channel of a virtual loudspeaker and channel zero."
  },
  {
   "property": "C64",
   "status": "partial",
   "theorems": [
    "C64_safe",
    "C64_step",
    "C64_tree",
    "C64_ports",
    "C64_new_component",
    "C64_new_top_level",
    "C64_delete_component",
    "C64_new_port",
    "C64_delete_port",
    "C64_set_width",
    "C64_find",
    "C64_find_port",
    "C64_connect",
    "C64_connect_all",
    "C64_connect_named",
    "C64_connect_parameter",
    "C64_connect_parameter_named",
    "C64_connections_partial",
    "C64_full_name",
    "C64_full_name_unique_partial",
    "C64_clock",
    "C64_find_refuted",
    "C64_named_channels_refuted",
    "C64_dangling_refuted",
    "C64_width_refuted",
    "C64_full_name_refuted",
    "C64_full_name_top_refuted",
    "C64_clock_refuted",
    "C64_port_outlives_refuted"
   ],
   "note": "Proved for all programs that use existing objects and delete ports before their component: no undefined behaviour, tree and port lists consistent, names unique, exact conditions and effects of every construction, deletion, lookup and connection, full names, shared clock. Refuted for the code: lookup of children named \"this\" or \"\", channel checks for connections by name, connections referring to existing ports and channels, uniqueness of full names with colons, separate clocks of separate trees, ports outliving components."
  },
  {
   "property": "C65",
   "status": "partial",
   "theorems": [
    "C65_round_trip_partial",
    "C65_update_partial",
    "C65_encode",
    "C65_position",
    "C65_consistent",
    "C65_forgets",
    "C65_errors",
    "C65_extent_refuted",
    "C65_round_trip_refuted",
    "C65_decoded_refuted",
    "C65_extended",
    "C65_registered"
   ],
   "note": "Round trip proved for faithful objects (hypotheses in MsgSpec); refuted for sources with extent, unassigned channels, infinite lock, tiny gains, labels with spaces and digits of the late reverberation. Encoding, consistency, positions, errors and independence of old content hold for all inputs. Float conversions, JSON and FloatSequence are parameters."
  },
  {
   "property": "C66",
   "status": "partial",
   "theorems": [
    "C66_texts_expand",
    "C66_only_such_texts_accepted",
    "C66_refused",
    "C66_items",
    "C66_ends_iff",
    "C66_ends",
    "C66_never_ends",
    "C66_exact",
    "C66_print",
    "C66_print_refuted",
    "C66_endless_refuted",
    "C66_decimal_refuted"
   ],
   "note": "Proved for IEEE arithmetic of any precision: expansion, acceptance, refusal, exact ranges, conditions for the end of ranges, printing. Partial because refuted in part: ranges whose increment is absorbed never end, decimal ranges may lack their last element, and the empty list is printed as a text that is not read. The terminal qi::float_ and the number formatting of streams are parameters. An increment below epsilon throws a char const pointer."
  },
  {
   "property": "C67",
   "status": "partial",
   "theorems": [
    "C67_outputs",
    "C67_late_parameters",
    "C67_refused",
    "C67_setup",
    "C67_late_constructor",
    "C67_late_constructor_defaults_refuted",
    "C67_refused_without_effect_refuted",
    "C67_largest_identifier_refuted"
   ],
   "note": "Outputs, routing, channel assignment, late parameter messages and refusals proved for all configurations and histories. Partial because a block refused for too many reflections changes the shared panning gains and sends messages, the identifier UINT_MAX is silently not rendered, and the default arguments of the LateReverb constructor always throw (all three refuted by witness)."
  },
  {
   "property": "C68",
   "status": "partial",
   "theorems": [
    "C68_biquad",
    "C68_biquad_order_refuted",
    "C68_setup",
    "C68_envelope",
    "C68_envelope_bound",
    "C68_filter",
    "C68_silence",
    "C68_queue",
    "C68_backlog",
    "C68_out_of_range",
    "C68_follows",
    "C68_skipped_refuted",
    "C68_negative_refuted",
    "C68_renderer_default_refuted"
   ],
   "note": "The noise, envelope, filter, queue and end-to-end statements are proved in full. Partial because parts of the documented behaviour are false of the code: filterBiquad takes past values in the opposite order, a refused band leaves the sum of the preceding bands, negative onset or attack times are undefined behaviour, and with the default of the renderer (one update per block) the queue grows without bound."
  },
  {
   "property": "C69",
   "status": "partial",
   "theorems": [
    "C69_parameters",
    "C69_parameter_access",
    "C69_parameter_set",
    "C69_refines",
    "C69_transition",
    "C69_bank_latent",
    "C69_real",
    "C69_component",
    "C69_component_hangs_refuted",
    "C69_limits_refuted",
    "C69_zero_interpolants_refuted"
   ],
   "note": "The convolution, transition, latency of bank changes and component hold for all runs with ids and indices within both limits. Refuted with witnesses: the two limits are swapped in the constructor; zero interpolants are accepted and lead to undefined behaviour; a refused message makes process() loop for ever."
  },
  {
   "property": "C70",
   "status": "partial",
   "theorems": [
    "C70_layouts",
    "C70_formats",
    "C70_run",
    "C70_final",
    "C70_other_formats",
    "C70_device",
    "C70_device_refuted",
    "C70_construct",
    "C70_one_direction_refuted",
    "C70_restart_refuted"
   ],
   "note": "Transfer, life cycle and construction are proved for all runs with the format float32. Refuted with witnesses: device selection by name and direction, restart after stop, streams with one direction only. Other formats: proved that no callback is ever called."
  },
  {
   "property": "C71",
   "status": "partial",
   "theorems": [
    "C71_ports",
    "C71_default",
    "C71_unindexed",
    "C71_overflow",
    "C71_overflow_refuted",
    "C71_construct",
    "C71_leak",
    "C71_leak_refuted",
    "C71_run",
    "C71_server",
    "C71_failed_start",
    "C71_short_name",
    "C71_unique_refuted",
    "C71_autoconnect_refuted",
    "C71_inherited_refuted",
    "C71_colon_refuted",
    "C71_failed_start_refuted",
    "C71_destroy_refuted"
   ],
   "note": "Names, construction, life cycle, ports, connections and block transfer are proved for all configurations and call sequences. Refuted with witnesses: rejection of too many names, uniqueness, per-direction autoconnect, external ports per entry, names with a colon, cleanup after failed constructor or start, destructor."
  },
  {
   "property": "C72",
   "status": "partial",
   "theorems": [
    "C72_construct",
    "C72_integrity",
    "C72_tracking",
    "C72_tracking_subwoofers",
    "C72_parameters",
    "C72_compatible",
    "C72_runs",
    "C72_output",
    "C72_tracking_refuted",
    "C72_tracking_compensated"
   ],
   "note": "Accepted configurations, integrity, schedule and output signals are proved for all configurations without tracking. With tracking the statement is refuted: every such flow fails the integrity check (listener input of the AllRAD calculator unconnected), subwoofer signals are lost, and output equalisation with subwoofers throws. Neither loudspeakers nor subwoofers: undefined behaviour."
  },
  {
   "property": "C73",
   "status": "partial",
   "theorems": [
    "C73_construct",
    "C73_output",
    "C73_output_actual",
    "C73_initial",
    "C73_past",
    "C73_assign",
    "C73_assign_refuted",
    "C73_interrupt_refuted",
    "C73_interrupt_later_refuted"
   ],
   "note": "The documented behaviour is proved for all transitions that do not interrupt one in progress (C73_output). For interrupting ones it is refuted (C73_interrupt_refuted, C73_interrupt_later_refuted) and what the code does instead is proved for all inputs (C73_output_actual). Late messages are not ignored but throw in every block (C73_past). Assignment of messages with different numbers of objects and loudspeakers throws (C73_assign_refuted)."
  },
  {
   "property": "C74",
   "status": "partial",
   "theorems": [
    "C74_names",
    "C74_offset_count",
    "C74_no_files",
    "C74_unreadable",
    "C74_documented",
    "C74_consecutive",
    "C74_actual",
    "C74_not_first",
    "C74_overlap_refuted",
    "C74_descending_refuted",
    "C74_disjoint_refuted",
    "C74_size_refuted",
    "C74_blank_refuted",
    "C74_truncated_refuted"
   ],
   "note": "Documented behaviour proved for all inputs whose files are in order (in particular without offsets); for other offsets the documented behaviour is refuted and the behaviour of the code is characterised: C74_actual if the first file has the smallest offset, C74_not_first if a later file has a smaller one."
  },
  {
   "property": "C75",
   "status": "partial",
   "theorems": [
    "C75_construct",
    "C75_output",
    "C75_safe",
    "C75_rejected",
    "C75_list_settles",
    "C75_gains",
    "C75_points_ignored",
    "C75_interrupted_refuted",
    "C75_both_refuted",
    "C75_removed_refuted",
    "C75_added_refuted",
    "C75_stale_refuted",
    "C75_points_refuted",
    "C75_gain_size_refuted",
    "C75_gain_size_stuck_refuted",
    "C75_rejected_gains_refuted"
   ],
   "note": "Output, safety, rejection and settling are proved for all histories. Smoothness is refuted for interrupted transitions, for a list and gains in the same block, for removed and for reappearing routings and after stale gains; routing points are ignored; gain vectors of another size lead to undefined behaviour or to permanent failure; a rejected list leaves gains behind."
  },
  {
   "property": "C76",
   "status": "partial",
   "theorems": [
    "C76_mex_construct",
    "C76_mex_signal_if_status_zero",
    "C76_mex_signal_refuted",
    "C76_mex_no_channels_refuted",
    "C76_max_block",
    "C76_max_messages",
    "C76_python",
    "C76_python_stride_refuted",
    "C76_max_exception_refuted",
    "C76_max_length_refuted"
   ],
   "note": "Validation, the Max transfer and the Python binding are proved exactly. The Matlab wrapper interprets the result true of process() as an error: proved for every flow that process() throws after the first block and leaves the output zero; the transfer is proved right if success were status 0. Errors in Max leave perform() as an uncaught std::string; a wrong block length is reported but processed; strides that are not multiples of 4 read wrong samples."
  },
  {
   "property": "C77",
   "status": "partial",
   "theorems": [
    "C77_refines",
    "C77_convolution",
    "C77_ratio_guard",
    "C77_tristate",
    "C77_tristate_size_refuted",
    "C77_order_refuted",
    "C77_length_refuted",
    "C77_negative_refuted"
   ],
   "note": "Convolution is proved for arbitrary arithmetic and all class constants. Refuted: setNumFIRsamples() accepts lengths beyond the buffer (a coefficient is then applied to future samples), setUpsampleRatio() accepts everything before the length is set and all negative ratios (out-of-bounds reads), tristate filters beyond 64 are written out of bounds."
  },
  {
   "property": "C78",
   "status": "partial",
   "theorems": [
    "C78_core",
    "C78_core_runs",
    "C78_graph",
    "C78_outcome",
    "C78_wiring",
    "C78_flat",
    "C78_hierarchy_partial",
    "C78_atomic",
    "C78_count_refuted",
    "C78_twice_refuted",
    "C78_no_receiver_refuted"
   ],
   "note": "Graph, outcome, wiring and atomic case hold for all inputs. The hierarchical version assumes, as C30, that no inner port has two senders. Receiver count, effect of the receiver check and no-throw after the integrity check are refuted."
  },
  {
   "property": "C79",
   "status": "proved",
   "theorems": [
    "C79_construct",
    "C79_total",
    "C79_decodes",
    "C79_incomplete",
    "C79_range",
    "C79_high_order",
    "C79_allrad",
    "C79_allrad_rejects",
    "C79_order_refuted",
    "C79_wrap_refuted",
    "C79_virtual_refuted"
   ],
   "note": "Decoding, construction and error behaviour are proved for all histories; the three claims that are false of the code are refuted with witnesses, and C79_high_order shows that every object of a higher order reads out of bounds."
  },
  {
   "property": "C80",
   "status": "proved",
   "theorems": [
    "C80_gains"
   ],
   "note": "Complete characterisation of the output and of the rejected sizes."
  },
  {
   "property": "C81",
   "status": "partial",
   "theorems": [
    "C81_add_float",
    "C81_add_complex",
    "C81_add_inplace_float",
    "C81_add_inplace_complex",
    "C81_add_constant_float",
    "C81_add_constant_complex",
    "C81_add_constant_inplace_float",
    "C81_add_constant_inplace_complex",
    "C81_multiply_float",
    "C81_multiply_complex",
    "C81_multiply_inplace_float",
    "C81_multiply_inplace_complex",
    "C81_multiply_constant_float",
    "C81_multiply_constant_complex",
    "C81_multiply_constant_inplace_float",
    "C81_multiply_constant_inplace_complex",
    "C81_multiply_add_float",
    "C81_multiply_add_complex",
    "C81_multiply_add_inplace_float",
    "C81_multiply_add_inplace_complex",
    "C81_multiply_constant_add_float",
    "C81_multiply_constant_add_complex",
    "C81_multiply_constant_add_inplace_float",
    "C81_multiply_constant_add_inplace_complex",
    "C81_alignment_refuted",
    "C81_rounding_refuted"
   ],
   "note": "All kernels are proved to compute the elementwise function and to agree with the reference where that holds; C81_alignment_refuted and C81_rounding_refuted show where full agreement with the reference is false of the code."
  },
  {
   "property": "C82",
   "status": "partial",
   "theorems": [
    "C82_detection_partial",
    "C82_own_function",
    "C82_supported",
    "C82_initialise",
    "C82_success",
    "C82_uninitialise_partial",
    "C82_sse3_refuted",
    "C82_uninitialise_refuted",
    "C82_executable_refuted",
    "C82_call_multiply_float",
    "C82_call_multiply_double",
    "C82_call_multiply_complex",
    "C82_call_multiply_add_float",
    "C82_call_multiply_add_double",
    "C82_call_multiply_add_complex",
    "C82_call_ramp_scaling"
   ],
   "note": "Proved: own function and type, instruction sets available, selection of the best version, independence of the results. Refuted: uninitialiseLibrary() resets all functions (vectorMultiplyAddInplace<double> is forgotten), detection of SSE3 (wrong bit, result unused), operating system support of AVX registers."
  },
  {
   "property": "C83",
   "status": "proved",
   "theorems": [
    "C83_invariant",
    "C83_counts",
    "C83_accepted",
    "C83_contents",
    "C83_gains",
    "C83_errors",
    "C83_reload",
    "C83_failed_load_refuted",
    "C83_replaces_refuted"
   ],
   "note": "Full statement proved; two plausible stronger expectations (a failing load leaves the object unchanged, a load replaces the configuration) are refuted."
  },
  {
   "property": "C84",
   "status": "proved",
   "theorems": [
    "C84_ids",
    "C84_hash",
    "C84_history",
    "C84_requested",
    "C84_registrar",
    "C84_shared_refuted",
    "C84_libraries",
    "C84_declared_refuted",
    "C84_missing",
    "C84_protocols",
    "C84_all_or_nothing"
   ],
   "note": "C84_shared_refuted: if two registrars contain the same type, the end of one removes it for both. C84_declared_refuted: BiquadCoefficientListParameter is declared, but not registered by the library."
  },
  {
   "property": "C85",
   "status": "partial",
   "theorems": [
    "C85_compare",
    "C85_interpolation_refuted",
    "C85_construct",
    "C85_declared",
    "C85_declared_refuted",
    "C85_protocol",
    "C85_assign",
    "C85_assign_refuted",
    "C85_list_size_refuted",
    "C85_swap",
    "C85_swap_refuted",
    "C85_setup",
    "C85_setup_refuted"
   ],
   "note": "The full statement is false of the code: C85_interpolation_refuted, C85_declared_refuted, C85_assign_refuted, C85_list_size_refuted, C85_swap_refuted, C85_setup_refuted give the exceptions. The other theorems prove it for all other types, with exact outcomes."
  },
  {
   "property": "C86",
   "status": "partial",
   "theorems": [
    "C86_safe",
    "C86_delivers",
    "C86_format",
    "C86_unique",
    "C86_sticky",
    "C86_blob_refuted",
    "C86_empty_bundle_refuted"
   ],
   "note": "Exceptions with witnesses: C86_blob_refuted (the length field of a blob wraps around in getArgSize(), popBlob() then assigns an invalid range), C86_empty_bundle_refuted (valid OSC, rejected). Everything else is proved for all byte sequences."
  },
  {
   "property": "C87",
   "status": "partial",
   "theorems": [
    "C87_setup",
    "C87_values",
    "C87_safe",
    "C87_malformed",
    "C87_default_refuted",
    "C87_independent_refuted"
   ],
   "note": "C87_default_refuted: popInt32() etc. overwrite the defaults by zero, which is sent. C87_independent_refuted: `continue` after a negative number skips the float and double outputs as well."
  },
  {
   "property": "C88",
   "status": "partial",
   "theorems": [
    "C88_vector",
    "C88_vector_only",
    "C88_matrix",
    "C88_matrix_only",
    "C88_commas",
    "C88_comment_refuted",
    "C88_vector_comment",
    "C88_audio",
    "C88_audio_vector",
    "C88_audio_rejected",
    "C88_audio_refuted"
   ],
   "note": "The statement holds except for the refuted parts: comments in a matrix end at the next semicolon, comments in a vector end at the end of the text (not of the line), and truncated audio files are accepted, because the exception is constructed but not thrown, so that the result contains uninitialised memory. The number parser is a parameter with laws (instance: decimal integers)."
  },
  {
   "property": "C89",
   "status": "partial",
   "theorems": [
    "C89_fft",
    "C89_exact",
    "C89_unique",
    "C89_lists",
    "C89_libraries",
    "C89_delay_line",
    "C89_double_refuted",
    "C89_interfaces",
    "C89_path",
    "C89_path_unique",
    "C89_path_refuted"
   ],
   "note": "Refuted parts: the algorithms are registered for float only, so that every MultichannelDelayLine<double> is rejected; the search path is split at spaces as well, so that directories with spaces in their names are rejected although they exist."
  },
  {
   "property": "C90",
   "status": "partial",
   "theorems": [
    "C90_construct",
    "C90_integrity",
    "C90_audio",
    "C90_parameters",
    "C90_tracking",
    "C90_runs",
    "C90_infrastructure",
    "C90_runs_parameters",
    "C90_tracking_refuted"
   ],
   "note": "Proved for all configurations without tracking, including resolution through the hierarchy, the parameter infrastructure and the run (C33, C78). Partial: with tracking the claim is refuted of the code (C90_tracking, C90_tracking_refuted): TrackingReceiver.messageOutput is not connected to the input of TrackingPositionDecoder. Exceptions of the constructors of the components are not modelled."
  },
  {
   "property": "C91",
   "status": "partial",
   "theorems": [
    "C91_outcome",
    "C91_get",
    "C91_positional",
    "C91_tokens",
    "C91_quote",
    "C91_separators_refuted",
    "C91_escape",
    "C91_file_refuted"
   ],
   "note": "Outcome, precedence, reading and the round trip of option files are proved for all inputs. Partial: three claims are refuted of the code: an invalid option file throws (C91_file_refuted), repeated separators yield empty words (C91_separators_refuted), positional options have no effect (C91_positional). The boost functions are modelled from their documentation and sources as known, since boost is not part of the repository."
  },
  {
   "property": "C92",
   "status": "partial",
   "theorems": [
    "C92_eq_element",
    "C92_biquad_element",
    "C92_eq_list",
    "C92_biquad_list",
    "C92_eq_written",
    "C92_json",
    "C92_biquad_assign",
    "C92_xml_list_refuted",
    "C92_json_text_refuted",
    "C92_xml_text_refuted",
    "C92_assign_refuted"
   ],
   "note": "Reading of XML elements and lists, the XML round trip of single parameters and the JSON round trips of lists are proved for all inputs. Partial: four claims are refuted of the code (C92_xml_list_refuted, C92_json_text_refuted, C92_xml_text_refuted, C92_assign_refuted). C92_biquad_list assumes that the elements biquad contain no elements of that name. C92_json assumes the laws of the JSON library listed for C65."
  },
  {
   "property": "C93",
   "status": "partial",
   "theorems": [
    "C93_construct",
    "C93_baseline",
    "C93_flow",
    "C93_tracking",
    "C93_channels_refuted"
   ],
   "note": "Proved: exact outcome of the constructor, equality with the baseline renderer for equal numbers of inputs and outputs without tracking. Partial: refuted of the code for different numbers of channels (C93_channels_refuted: ChannelRange(0, numberOfInputs) at the output) and with tracking (C93_tracking)."
  },
  {
   "property": "C94",
   "status": "proved",
   "theorems": [
    "C94_set",
    "C94_default",
    "C94_reset",
    "C94_nested"
   ],
   "note": "For Intel processors; elsewhere the functions do nothing and return a default state."
  },
  {
   "property": "C95",
   "status": "partial",
   "theorems": [
    "C95_console",
    "C95_end_of_input_refuted",
    "C95_configuration",
    "C95_diffusion",
    "C95_diffusion_table",
    "C95_diffusion_undefined",
    "C95_matrix_convolver_calls",
    "C95_matrix_convolver_exit",
    "C95_matrix_convolver_rejected",
    "C95_matrix_convolver_status",
    "C95_matrix_convolver_routings",
    "C95_baseline_calls",
    "C95_baseline_exit",
    "C95_baseline_status",
    "C95_baseline_loudspeakers_refuted",
    "C95_information_refuted",
    "C95_exception_refuted",
    "C95_option_file_refuted",
    "C95_baseline_exception_refuted"
   ],
   "note": "Order of calls, exit status, configuration and filters are proved. Refuted: restoring on early returns and (baseline renderer) after exceptions, exceptions of parse() in the matrix convolver, more than 64 loudspeakers, end of input."
  },
  {
   "property": "C96",
   "status": "partial",
   "theorems": [
    "C96_exclusive",
    "C96_progress",
    "C96_completes",
    "C96_finalise",
    "C96_wrapper",
    "C96_wrapper_exception_refuted",
    "C96_initialise"
   ],
   "note": "Exclusion, progress and finalisation are proved for all schedules. Refuted for Wrapper's constructor when it throws after the module was loaded."
  },
  {
   "property": "C97",
   "status": "partial",
   "theorems": [
    "C97_load",
    "C97_matrix",
    "C97_matrix_rejected",
    "C97_from_matrix",
    "C97_round_trip",
    "C97_vector",
    "C97_vector_rejected",
    "C97_pointer_partial",
    "C97_pointer_refuted",
    "C97_vector_pointer"
   ],
   "note": "Conversions and round trips are proved for all arrays. The pointer check is proved for sizes below 2^63 and refuted from 2^63 on, where the cast to ssize_t makes it succeed."
  }
 ]
}