C01 Channel_Props.chan_fifo: Closed under the global context
C01 Channel_Props.chan_nth_recv: Closed under the global context
C01 Channel_Props.chan_shape_checked: Closed under the global context
C02 Channel_Props.chan_safe: Closed under the global context
C02 Channel_Props.chan_no_overwrite: Closed under the global context
C02 Channel_Props.chan_no_slot_conflict: Closed under the global context
C03 Channel_Props.chan_recv_returns: Closed under the global context
C03 Channel_Props.chan_send_returns: Closed under the global context
C03 Channel_Props.chan_no_deadlock: Closed under the global context
C04 Channel_Props.chan_recv_probe_exact: Closed under the global context
C04 Channel_Props.chan_recv_probe_stable: Closed under the global context
C04 Channel_Props.chan_recv_probe_sound: Closed under the global context
C04 Channel_Props.chan_peek_next: Closed under the global context
C04 Channel_Props.chan_send_probe_sound: Closed under the global context
C04 Channel_Props.chan_send_probe_complete_refuted: Closed under the global context
C06 Channel_Props.chan_join_send_keeps_data: Closed under the global context
C06 Channel_Props.chan_join_terminates: Closed under the global context
C06 Channel_Props.chan_join_idempotent: Closed under the global context
C05 Selector_Props.select_sound: Closed under the global context
C05 Selector_Props.select_wakes_size1_partial: Closed under the global context
C05 Selector_Props.select_lost_wakeup_refuted: Closed under the global context
C05 Selector_Props.select_kills_service_thread_refuted: Closed under the global context
C07 Runtime_Return.run_returns_complete: Closed under the global context
C07 Runtime_Return.responses_fifo: Closed under the global context
C07 Runtime_Props.run_exact: Closed under the global context
C07 Runtime_Props.time_step_counts: Closed under the global context
C07 Runtime_Props.run_one_done: Closed under the global context
C07 Runtime_Props.run_ends_in_host: Closed under the global context
C07 Runtime_Props3.run_completes: Closed under the global context
C08 Runtime_Props.lockstep_time: Closed under the global context
C08 Runtime_Props.lockstep_phase: Closed under the global context
C08 Runtime_Props.same_commands: Closed under the global context
C09 Runtime_Guards.phases_from_guards: Closed under the global context
C09 Runtime_Guards.functions_from_guards: Closed under the global context
C09 Runtime_Props.phase_order: Closed under the global context
C09 Runtime_Props.requests_served: Closed under the global context
C09 Runtime_Props.phases_of_a_step: Closed under the global context
C09 Runtime_Props.pre_mgmt_requests_learning: Closed under the global context
C10 Runtime_Props3.resume_completes_partial: Closed under the global context
C10 Runtime_Props.run_exact: Closed under the global context
C10 Runtime_Props4.pause_then_run_hangs_refuted: Closed under the global context
C10 Runtime_Props4.pause_then_run_skips_refuted: Closed under the global context
C10 Runtime_Props4.pause_races_completion_refuted: Closed under the global context
C11 Runtime_Props2.stop_at_most_once: Closed under the global context
C11 Runtime_Props2.terminated_all_stopped: Closed under the global context
C11 Runtime_Props2.terminated_nothing_after: Closed under the global context
C11 Runtime_Props2.stop_answered: Closed under the global context
C11 Runtime_Props2.stop_terminates: Closed under the global context
C11 Runtime_Props4.stop_races_completion_refuted: Closed under the global context
C12 Runtime_Guards.exception_in_any_phase: Closed under the global context
C12 Runtime_Props2.error_no_more_phases: Closed under the global context
C12 Runtime_Props2.error_reported: Closed under the global context
C12 Runtime_Props4.pause_after_error_hangs_refuted: Closed under the global context
C13 GetSet_Props.getset_exact_partial: Closed under the global context
C13 GetSet_Props.getset_never_stuck_partial: Closed under the global context
C13 GetSet_Props.set_touches_only_target: Closed under the global context
C13 GetSet_Props.set_oversized_stops_process_refuted: Closed under the global context
C13 GetSet_Props.get_float_hangs_refuted: Closed under the global context
C14 GetSet_Props.get_after_set_partial: Closed under the global context
C14 GetSet_Props.get_after_set_fortran_refuted: Closed under the global context
C14 GetSet_Props.get_after_set_string_refuted: Closed under the global context
C14 GetSet_Props.set_after_zero_fails_refuted: Closed under the global context
C15 Async_Props.async_first_run_partial: Closed under the global context
C15 Async_Props.async_first_run_equiv_partial: Closed under the global context
C15 Async_Props.async_second_run_exact: Closed under the global context
C15 Async_Props.async_second_run_refuted: Closed under the global context
C15 Async_Props.async_shorter_run_hangs_refuted: Closed under the global context
C15 Async_Props.async_not_equiv_refuted: Closed under the global context
C16 PyPorts_Props.inport_recv_sum: Closed under the global context
C16 PyPorts_Props.inport_recv_consumes_one: Closed under the global context
C16 PyPorts_Props.inport_recv_waits_only_for_missing: Closed under the global context
C16 PyPorts_Props.inport_unconnected_zeros: Closed under the global context
C16 PyPorts_Props.inport_probe_exact: Closed under the global context
C17 PyPorts_Props.inport_peek_value_partial: Closed under the global context
C17 PyPorts_Props.inport_peek_consumes_refuted: Closed under the global context
C17 PyPorts_Props.inport_peek_is_recv_refuted: Closed under the global context
C18 PyPorts_Props.sparse_delivery_partial: Closed under the global context
C18 PyPorts_Props.sparse_delivery_all_large: Closed under the global context
C18 PyPorts_Props.sparse_small_destination_refuted: Closed under the global context
C19 PyPorts_Props.refport_program_order: Closed under the global context
C19 PyPorts_Props.refport_read_value: Closed under the global context
C19 PyPorts_Props.refport_read_your_write: Closed under the global context
C19 PyPorts_Props.refport_commands_aligned: Closed under the global context
C19 PyPorts_Props.refport_no_deadlock: Closed under the global context
C20 VPorts_Props.virtual_ports_rearrange_partial: Closed under the global context
C20 VPorts_Props.transpose_rearranges: Closed under the global context
C20 VPorts_Props.transpose_undone: Closed under the global context
C20 VPorts_Props.reshape_rearranges: Closed under the global context
C20 VPorts_Props.transpose_negative_axes_not_undone_refuted: Closed under the global context
C20 VPorts_Props.transpose_repeated_axes_accepted_refuted: Closed under the global context
C21 Connect_Props.connections_consistent_partial: Closed under the global context
C21 Connect_Props.failed_call_changes_nothing_partial: Closed under the global context
C21 Connect_Props.connect_adds_exactly: Closed under the global context
C21 Connect_Props.connect_from_adds_exactly: Closed under the global context
C21 Connect_Props.connect_repeated_port_refuted: Closed under the global context
C21 Connect_Props.connect_short_configs_refuted: Closed under the global context
C21 Connect_Props.concat_with_itself_refuted: Closed under the global context
C22 VPorts_Props.concat_accepts_compatible: Closed under the global context
C22 VPorts_Props.concat_accepts_exactly: Closed under the global context
C22 VPorts_Props.concat_exact_partial: Closed under the global context
C22 VPorts_Props.concat_incompatible_accepted_refuted: Closed under the global context
C22 VPorts_Props.concat_negative_axis_refuted: Closed under the global context
C23 Process_Props.alias_get: Closed under the global context
C23 Process_Props.alias_set: Closed under the global context
C23 Process_Props.alias_set_get: Closed under the global context
C23 Process_Props.alias_accepted_iff: Closed under the global context
C23 Process_Props.alias_shape_preserved: Closed under the global context
C23 Process_Props.alias_validated_iff: Closed under the global context
C23 Process_Props.alias_chain_ends: Closed under the global context
C23 Process_Props.alias_get_defined: Closed under the global context
C24 Process_Props.ids_unique: Closed under the global context
C24 Process_Props.params_history: Closed under the global context
C24 Process_Props.params_never_overwritten: Closed under the global context
C24 Process_Props.params_new_key: Closed under the global context
C24 Process_Props.params_get: Closed under the global context
C24 Process_Props.ids_reused_after_reset: Closed under the global context
C54 Connect_Props2.get_dst_ports_exact: Closed under the global context
C54 Connect_Props2.src_dst_agree_partial: Closed under the global context
C54 Connect_Props2.src_dst_disagree_refuted: Closed under the global context
C55 Process_Props.collection_loop_partial: Closed under the global context
C55 Process_Props.collection_break_refuted: Closed under the global context
C55 Process_Props.collection_nested_refuted: Closed under the global context
C25 Network_Props.find_processes_exact: Closed under the global context
C25 Network_Props.find_processes_same_network: Closed under the global context
C25 Network_Props.find_processes_total: Closed under the global context
C26 Groups_Dag.is_dag_accepts_dag: Closed under the global context
C26 Groups_Dag.is_dag_exactly: Closed under the global context
C26 Groups_Dag.is_dag_correct_partial: Closed under the global context
C26 Groups_Dag.is_dag_total: Closed under the global context
C26 Groups_Dag.is_dag_self_loop_refuted: Closed under the global context
C27 Groups_Props2.proc_groups_exact_partial: Closed under the global context
C27 Groups_Props2.flatten_node_total: Closed under the global context
C27 Groups_Props2.proc_groups_lost_refuted: Closed under the global context
C27 Groups_Props2.large_group_refuted: Closed under the global context
C28 Network_Props.channel_map_exact_partial: Closed under the global context
C28 Network_Props.channel_map_dangling_virtual_refuted: Closed under the global context
C28 Network_Props.channel_map_parallel_merged_refuted: Closed under the global context
C29 Select_Props.select_offered_and_runnable: Closed under the global context
C29 Select_Props.select_exception_partial: Closed under the global context
C29 Select_Props.select_best_leaf_partial: Closed under the global context
C29 Select_Props.select_single: Closed under the global context
C29 Select_Props.select_sub_first: Closed under the global context
C29 Select_Props.select_sub_tagged_partial: Closed under the global context
C29 Select_Props.select_sub_index_error_refuted: Closed under the global context
C29 Select_Props.select_sub_tag_ignored_refuted: Closed under the global context
C29 Select_Props.select_exception_no_models_refuted: Closed under the global context
C30 SyncDomain_Props.sync_domain_unique: Closed under the global context
C30 SyncDomain_Props.sync_domain_compatible_partial: Closed under the global context
C30 SyncDomain_Props.runtime_service_unique: Closed under the global context
C30 SyncDomain_Props.sync_domain_name_clash_refuted: Closed under the global context
C31 Mapper_Props.mapper_total: Closed under the global context
C31 Mapper_Props.mapper_every_address: Closed under the global context
C31 Mapper_Props.mapper_core_in_range: Closed under the global context
C31 Mapper_Props.mapper_consistent: Closed under the global context
C31 Mapper_Props.mapper_injective_partial: Closed under the global context
C31 Mapper_Props.mapper_mixed_generations_refuted: Closed under the global context
C32 Lif_Props.lif_state_in_range: Closed under the global context
C32 Lif_Props.lif_current_exact: Closed under the global context
C32 Lif_Props.lif_voltage_exact: Closed under the global context
C32 Lif_Props.lif_u_not_signed_24_refuted: Closed under the global context
C33 Lif_Props.lif_spike_iff_partial: Closed under the global context
C33 Lif_Props.lif_decays_to_zero: Closed under the global context
C33 Lif_Props.lif_vth_set_ignored_refuted: Closed under the global context
C33 Lif_Props.lif_vth_set_demo_refuted: Closed under the global context
C34 Lif_Props.lif_refractory_partial: Closed under the global context
C34 Lif_Props.lif_not_refractory_integrates: Closed under the global context
C34 Lif_Props.lif_refractory_negative_threshold_refuted: Closed under the global context
C35 Sdn_Props.delta_sigma_tracks: Closed under the global context
C35 Sdn_Props.delta_sigma_tracks_units: Closed under the global context
C35 Sdn_Props.delta_sigma_cum_error_partial: Closed under the global context
C35 Sdn_Props.delta_sigma_cum_error_refuted: Closed under the global context
C36 Sdn_Props.encoder_conserves: Closed under the global context
C36 Sdn_Props.encoder_tracks: Closed under the global context
C36 Sdn_Props.encoder_clipped_partial: Closed under the global context
C36 Sdn_Props.encoder_catches_up: Closed under the global context
C36 Sdn_Props.encoder_one_bit_refuted: Closed under the global context
C56 Lif_Props.tern_lif_spike_iff_partial: Closed under the global context
C56 Lif_Props.tern_lif_state_in_range: Closed under the global context
C56 Lif_Props.tern_lif_swapped_thresholds_refuted: Closed under the global context
C57 Lif_Props.lif_reset_forgets: Closed under the global context
C57 Lif_Props.lif_reset_otherwise: Closed under the global context
C58 Sdn_Props.sigma_delta_fixed_partial: Closed under the global context
C58 Sdn_Props.sigma_delta_corrected: Closed under the global context
C58 Sdn_Props.sigma_delta_fixed_tracks_inputs_partial: Closed under the global context
C58 Sdn_Props.sigma_delta_corrected_tracks_inputs: Closed under the global context
C58 Sdn_Props.sigma_delta_fixed_drift_refuted: Closed under the global context
C37 Codec_Props.sparse_roundtrip: Closed under the global context
C37 Codec_Props.sparse_indices_in_range: Closed under the global context
C37 Codec_Props.packed_4_roundtrip: Closed under the global context
C37 Codec_Props.delta_sparse_8_roundtrip_partial: Closed under the global context
C37 Codec_Props.decoded_signed: Closed under the global context
C37 Codec_Props.delta_sparse_8_first_255_refuted: Closed under the global context
C37 Codec_Props.delta_sparse_8_negative_refuted: Closed under the global context
C37 Codec_Props.delta_sparse_8_long_gap_refuted: Closed under the global context
C38 Bits_Props.bitcheck_flag_exact: Closed under the global context
C38 Bits_Props.bitcheck_int64_refuted: Closed under the global context
C39 Bits_Props.clip_weights_range: Closed under the global context
C39 Bits_Props.clip_weights_learning_range: Closed under the global context
C39 Bits_Props.truncate_weights_precision: Closed under the global context
C39 Bits_Props.truncate_weights_towards_zero_partial: Closed under the global context
C39 Bits_Props.truncate_weights_mixed: Closed under the global context
C39 Bits_Props.truncate_weights_mixed_magnitude_refuted: Closed under the global context
C39 Bits_Props.truncate_keeps_range: Closed under the global context
C42 Bits_Props.signed_clamp_wraps: Closed under the global context
C42 Bits_Props.signed_clamp_unique: Closed under the global context
C59 Bits_Props.determine_sign_mode_correct: Closed under the global context
C59 Bits_Props.optimize_weights_lossless_partial: Closed under the global context
C59 Bits_Props.optimize_weights_255_refuted: Closed under the global context
C59 Bits_Props.optimize_weights_9_bits_refuted: Closed under the global context
C43 Io_Props.ring_sink_holds: Closed under the global context
C43 Io_Props.ring_source_sends: Closed under the global context
C43 Io_Props.ring_source_to_sink: Closed under the global context
C44 Io_Props.read_samples: Closed under the global context
C45 Io_Props.state_loader_presents: Closed under the global context
C45 Io_Props.spike_loader_presents: Closed under the global context
C46 IoPolicy_Props.policy_lossless: Closed under the global context
C46 IoPolicy_Props.policy_outcomes: Closed under the global context
C46 IoPolicy_Props.policy_blocking_all: Closed under the global context
C46 IoPolicy_Props.policy_capacity: Closed under the global context
C46 IoPolicy_Props.policy_drop_full_partial: Closed under the global context
C46 IoPolicy_Props.policy_drop_never_blocks: Closed under the global context
C46 IoPolicy_Props.policy_zeros_never_blocks: Closed under the global context
C46 IoPolicy_Props.policy_blocking_returns: Closed under the global context
C46 IoPolicy_Demo.policy_drop_spurious_refuted: Closed under the global context
C40 Conn_Props.dense_first_output: Closed under the global context
C40 Conn_Props.dense_sends_weighted_sum: Closed under the global context
C40 Conn_Props.bitacc_sends_shifted_sum_partial: Closed under the global context
C40 Conn_Props.bitacc_sends_scaled_sum: Closed under the global context
C40 Conn_Props.bitacc_int32_accumulator_refuted: Closed under the global context
C40 Conn_Props.np_shift_scale: Closed under the global context
C40 Conn_Props.np_shift_floor: Closed under the global context
C40 Conn_Props.delay_step_outputs: Closed under the global context
C40 Conn_Props.delay_dense_delivers_partial: Closed under the global context
C40 Conn_Props.delay_dense_default: Closed under the global context
C40 Conn_Props.delay_bitacc_delivers_partial: Closed under the global context
C40 Conn_Props.delay_bitacc_negative_exp: Closed under the global context
C40 Conn_Props.delay_dense_small_max_delay_refuted: Closed under the global context
C40 Conn_Props.delay_sparse_eq_dense: Closed under the global context
C40 Conn_Props.conv_in_time_delivers: Closed under the global context
C41 Conv_Props.output_shape_counts: Closed under the global context
C41 Conv_Props.output_shape_none: Closed under the global context
C41 Conv_Props.conv_scipy_is_convolution: Closed under the global context
C41 Conv_Props.conv_to_sparse_is_convolution: Closed under the global context
C41 Conv_Props.conv_to_sparse_agrees_with_conv: Closed under the global context
C41 Conv_Props.conv_to_sparse_in_range: Closed under the global context
C41 Conv_Props.conv_to_sparse_hwcn_partial: Closed under the global context
C41 Conv_Props.conv_to_sparse_hwcn_refuted: Closed under the global context
C41 Conv_Props.conv_to_sparse_nchw_refuted: Closed under the global context
C60 Conn_Props.bitacc_weights_prepared_partial: Closed under the global context
C60 Conn_Props.bitacc_weights_set_later_refuted: Closed under the global context
C50 Clp_Props.novelty_exact: Closed under the global context
C50 Clp_Props.novelty_single: Closed under the global context
C51 Clp_Props.allocator_ids_partial: Closed under the global context
C51 Clp_Props.allocator_unique: Closed under the global context
C51 Clp_Props.allocator_bound_refuted: Closed under the global context
C52 Clp_Props.readout_keeps_labels: Closed under the global context
C52 Clp_Props.winner_is_last_first_active: Closed under the global context
C52 Clp_Props.readout_exact_partial: Closed under the global context
C52 Clp_Props.readout_no_winner_refuted: Closed under the global context
C53 Clp_Props.spiker_exact: Closed under the global context
C47 Learning_Props.learning_step_range: Closed under the global context
C47 Learning_Props.learning_range_partial: Closed under the global context
C47 Learning_Props.learning_tag_range_partial: Closed under the global context
C47 Learning_Props.learning_tag_range_refuted: Closed under the global context
C48 Learning_Props.within_epoch_step: Closed under the global context
C48 Learning_Props.learning_only_at_epoch_ends: Closed under the global context
C48 Learning_Props.learning_at_epoch_end: Closed under the global context
C48 Learning_Props.decimation_exact: Closed under the global context
C48 Learning_Props.epoch_spike_times: Closed under the global context
C49 Learning_Props.trace_decay_monotone: Closed under the global context
C49 Learning_Props.trace_impulse_monotone: Closed under the global context
C49 Learning_Props.traces_seven_bits_partial: Closed under the global context
C49 Learning_Props.traces_seven_bits_refuted: Closed under the global context
C49 Learning_Props.graded_add_saturates_partial: Closed under the global context
C49 Learning_Props.graded_overwrites_half: Closed under the global context
C49 Learning_Props.graded_add_saturates_refuted: Closed under the global context
C61 Learning_Props.product_exact_partial: Closed under the global context
C61 Learning_Props.rule_adds_products_partial: Closed under the global context
C61 Learning_Props.rule_accumulator_bounds: Closed under the global context
C61 Learning_Props.learned_value_partial: Closed under the global context
C61 Learning_Props.product_exact_refuted: Closed under the global context
C62 Learning_Props.no_event_no_change: Closed under the global context
C62 Learning_Props.dependency_iff_event: Closed under the global context
C63 Learning_Props.synaptic_rounding_spec: Closed under the global context
C63 Learning_Props.impulse_rounding_exact_partial: Closed under the global context
C63 Learning_Props.impulse_rounding_unbiased_refuted: Closed under the global context
C64 Learning_Props.rule_sees_traces_at_events: Closed under the global context
C64 Learning_Props.traces_after_epoch: Closed under the global context
C64 Learning_Props.trace_dynamics_single_spike_partial: Closed under the global context
C64 Learning_Props.trace_dynamics_single_post_spike_partial: Closed under the global context
C64 Learning_Props.trace_dynamics_two_spikes_refuted: Closed under the global context
C65 Rule_Props.rule_means_what_it_says_partial: Closed under the global context
C65 Rule_Props.rule_accepted_iff: Closed under the global context
C65 Rule_Props.rule_decimation: Closed under the global context
C65 Rule_Props2.learning_rule_period: Closed under the global context
C65 RuleSpaces_Props.learning_rule_period_spaces: Closed under the global context
C65 Rule_Props2.active_traces_exact: Closed under the global context
C65 Rule_Props2.grammar_is_arithmetic: Closed under the global context
C65 Rule_Props2.parse_unfold: Closed under the global context
C65 Rule_Props2.sample_rule_ok: Closed under the global context
C65 Rule_Props2.every_accepted_expression_is_right_refuted: Closed under the global context
C65 Rule_Props2.silently_miscompiled: Closed under the global context
C65 Rule_Props2.bracketed_dependency_dropped: Closed under the global context
C65 Rule_Props2.unknown_names_accepted: Closed under the global context
C65 Rule_Props2.large_literal_rounded: Closed under the global context
C65 Rule_Props2.spaced_period_lost: Closed under the global context
C66 Rf_Props.rf_state_24_bits: Closed under the global context
C66 Rf_Props.rf_rotates: Closed under the global context
C66 Rf_Props.rf_spike_iff: Closed under the global context
C66 Rf_Props.rf_no_consecutive_spikes: Closed under the global context
C66 Rf_Props.rf_float_no_consecutive_spikes: Closed under the global context
C67 Rf_Props.iz_spike_iff: Closed under the global context
C67 Rf_Props.iz_below_threshold: Closed under the global context
C67 Rf_Props.iz_state_24_bits: Closed under the global context
C67 Rf_Props.iz_no_spike_after_spike: Closed under the global context
C68 Rf_Props.rfzero_rotates_partial: Closed under the global context
C68 Rf_Props.rfzero_overflow_refuted: Closed under the global context
C68 Rf_Props.rfzero_overflow_reachable_refuted: Closed under the global context
C69 Atrlif_Props.atrlif_step_partial: Closed under the global context
C69 Atrlif_Props.atrlif_in_range: Closed under the global context
C69 Atrlif_Props.atrlif_recovers: Closed under the global context
C69 Atrlif_Props.atrlif_initial_theta_refuted: Closed under the global context
C69 Atrlif_Props.atrlif_full_decay_refuted: Closed under the global context
C69 Atrlif_Props.atrlif_int_decay_overflow_refuted: Closed under the global context
C69 Atrlif_Props.atrlif_refractoriness_24_bits_refuted: Closed under the global context
C70 Graded_Props.graded_vec_forwards: Closed under the global context
C70 Graded_Props.graded_relu_forwards: Closed under the global context
C70 Graded_Props.graded_vec_no_memory: Closed under the global context
C71 Graded_Props.prod_neuron_exact_partial: Closed under the global context
C71 Graded_Props.prod_neuron_overflow_refuted: Closed under the global context
C71 Graded_Props.graded_product_partial: Closed under the global context
C71 Graded_Props.graded_product_of_ones_refuted: Closed under the global context
C72 Graded_Props.identity_connection_delivers: Closed under the global context
C72 Graded_Props.identity_connection_25_bits_refuted: Closed under the global context
C73 Graded_Props2.normalize_net_computes: Closed under the global context
C73 Graded_Props2.normalize_net_steady_partial: Closed under the global context
C73 Graded_Props2.normalize_net_single_step_refuted: Closed under the global context
C73 Graded_Props2.norm_squares_overflow_refuted: Closed under the global context
C74 Graded_Sqrt.inv_sqrt_close_partial: Closed under the global context
C74 Graded_Sqrt.inv_sqrt_zero: Closed under the global context
C74 Graded_Sqrt.inv_sqrt_fp_base_refuted: Closed under the global context
C75 Graded_Props2.output_vec_exact: Closed under the global context
C75 Graded_Props2.output_vec_24_bits: Closed under the global context
C75 Graded_Props2.input_to_output_partial: Closed under the global context
C75 Graded_Props2.input_vec_caller_changed_refuted: Closed under the global context
C76 Connect_Typed.connections_well_typed_partial: Closed under the global context
C76 Connect_Typed.chains_keep_kind: Closed under the global context
C76 Connect_Typed.reference_ports_refuse: Closed under the global context
C76 Connect_Accepts.connect_accepts_exactly: Closed under the global context
C76 Connect_Accepts.connect_from_accepts_exactly: Closed under the global context
C76 Connect_Typed.reference_one_to_one_refuted: Closed under the global context
C76 Connect_Typed.virtual_direction_refuted: Closed under the global context
C77 NetAlg_Props.network_sum_connects_partial: Closed under the global context
C77 NetAlg_Props.networks_connected_once: Closed under the global context
C77 NetAlg_Props.network_shared_sum_refuted: Closed under the global context
C77 NetAlg_Props.network_sum_of_sums_refuted: Closed under the global context
C78 RuleApply_Props.rule_text_applied_partial: Closed under the global context
C78 RuleApply_Props.rule_text_learned_partial: Closed under the global context
C78 RuleApply_Props.rule_two_traces_scaled_refuted: Closed under the global context
C79 Stdp_Props.parameter_acts: Closed under the global context
C79 Stdp_Props.parameter_order_refuted: Closed under the global context
C79 Stdp_Props.stdp_is_stdp: Closed under the global context
C79 Stdp_Props.stdp_accepted_iff: Closed under the global context
C79 Stdp_Props.stdp_small_parameters: Closed under the global context
C79 Stdp_Props.stdp_learned_partial: Closed under the global context
C79 Stdp_Props.rstdp_is_rstdp: Closed under the global context
C79 Stdp_Props.eligibility_tau_refuted: Closed under the global context
C80 RuleWide_Props.rule_text_contributes_partial: Closed under the global context
C80 RuleWide_Props.contribution_bounds: Closed under the global context
C80 RuleWide_Props.rule_text_learned_wide_partial: Closed under the global context
C80 RuleWide_Props.rstdp_weight: Closed under the global context
C81 Exec_Props.network_computes_equations: Closed under the global context
C81 Exec_Props.equations_deterministic: Closed under the global context
C81 Exec_Props.feedback_deadlocks: Closed under the global context
C81 Exec_Props.run_completes_iff: Closed under the global context
C81 Exec_Layers.alternating_network_no_feedback: Closed under the global context
C81 Exec_Layers.recurrent_network_runs: Closed under the global context
C81 Exec_Layers.direct_recurrence_deadlocks: Closed under the global context
C81 Exec_Layers.pipeline_end_to_end: Closed under the global context
C81 Exec_Layers.pipeline_spikes: Closed under the global context
C82 Monitor_Props.monitor_records: Closed under the global context
C82 Monitor_Props.monitor_records_var: Closed under the global context
C82 Monitor_Props.monitor_one_probe: Closed under the global context
C82 Monitor_Props.monitor_records_last: Closed under the global context
C82 Monitor_Props.monitor_two_targets_rejected: Closed under the global context
C83 FloatLearn_Props.float_learning_follows_equations_partial: Closed under the global context
C83 FloatLearn_Props.float_traces_follow_dynamics_partial: Closed under the global context
C83 FloatLearn_Props.float_trace_any_spikes: Closed under the global context
C83 FloatLearn_Props.float_trace_at_most_ideal: Closed under the global context
C83 FloatLearn_Props.float_graded_trace: Closed under the global context
C83 FloatLearn_Props.float_rule_usable_iff: Closed under the global context
C83 FloatLearn_Props.float_zero_tau_ruins: Closed under the global context
C83 FloatLearn_Props.float_rule_sees_future_spikes: Closed under the global context
C83 FloatLearn_Props.float_overwrite_decays_payload: Closed under the global context
C83 FloatLearn_Props.float_refuses_coincidence: Closed under the global context
C83 FloatLearn_Props.float_spaced_period_lost: Closed under the global context
C84 Factor3_Props.three_factor_shows_received: Closed under the global context
C84 Factor3_Props.three_factor_pre_side: Closed under the global context
C84 Factor3_Props.three_factor_follows_equations_partial: Closed under the global context
C84 Factor3_Props.three_factor_attenuation: Closed under the global context
C84 Factor3_Props.three_factor_sees_later_signals_refuted: Closed under the global context
C84 Factor3_Props.rstdp_follows_recurrence: Closed under the global context
C84 Factor3_Props.three_factor_fixed_shows_received: Closed under the global context
C84 Factor3_Props.three_factor_fixed_pre_side: Closed under the global context
C84 Factor3_Props.three_factor_fixed_sees_signal: Closed under the global context
C84 Factor3_Props.three_factor_fixed_punishment_lost: Closed under the global context
C84 Factor3_Props.three_factor_fixed_signal_cut: Closed under the global context
C85 Life_Props.lifecycle_answers_partial: Closed under the global context
C85 Life_Props.lifecycle_returns_partial: Closed under the global context
C85 Life_Props.driven_from_any_process: Closed under the global context
C85 Life_Props.wait_returns_early_refuted: Closed under the global context
C85 Life_Props.get_reads_response_refuted: Closed under the global context
C85 Life_Props.run_after_stop_never_returns: Closed under the global context
C85 Life_Props.run_minus_one_stops_refuted: Closed under the global context
C85 Life_Props.run_negative_never_ends: Closed under the global context
C85 Life_Props.late_connection_refuted: Closed under the global context
C86 AsyncSvc_Props.async_calls_complete_partial: Closed under the global context
C86 AsyncSvc_Props.async_calls_terminate: Closed under the global context
C86 AsyncSvc_Props.async_calls_synchronise: Closed under the global context
C86 AsyncSvc_Props.async_stop_hangs_refuted: Closed under the global context
C86 AsyncSvc_Props.async_pause_hangs_refuted: Closed under the global context
C86 AsyncSvc_Props.async_pause_request_sticks_refuted: Closed under the global context
C86 AsyncSvc_Props.async_stop_raises_refuted: Closed under the global context
C86 AsyncSvc_Props.async_two_requests_refuted: Closed under the global context
C87 ClpNet_Props.clp_rule_text: Closed under the global context
C87 ClpNet_Props.clp_presentation_partial: Closed under the global context
C87 ClpNet_Props.clp_idle_between: Closed under the global context
C87 ClpNet_Props.clp_raises_only_when_full: Closed under the global context
C87 ClpNet_Props.clp_recognition_is_permanent: Closed under the global context
C87 ClpNet_Props.clp_learns_in_one_shot_partial: Closed under the global context
C87 ClpNet_Props.prototype_lif_step: Closed under the global context
C87 ClpNet_Props.clp_zero_features_are_not_learned: Closed under the global context
C87 ClpNet_Props.clp_large_overlaps_are_not_recognised: Closed under the global context
C87 ClpNet_Props.clp_spacing_is_needed: Closed under the global context
C87 ClpNet_Props.clp_full_raises: Closed under the global context
C88 Kahn_Props.schedule_does_not_matter: Closed under the global context
C88 Kahn_Props.fair_schedules_agree: Closed under the global context
C88 Kahn_Props.loihi_schedule_does_not_matter: Closed under the global context
C88 Kahn_Props.probe_depends_on_schedule: Closed under the global context
C88 Kahn_Props.select_depends_on_schedule: Closed under the global context
C88 Kahn_Props.request_in_last_step_depends_on_schedule: Closed under the global context
C89 Build_Props.construct_iff: Closed under the global context
C89 Build_Props.construct_starts_partial: Closed under the global context
C89 Build_Props.scalar_arrays_are_refused: Closed under the global context
C89 Build_Props.numbers_are_not_converted: Closed under the global context
C89 Build_Props.precision_replaces_var: Closed under the global context
C89 Build_Props.direction_is_not_checked: Closed under the global context
C89 Build_Props.config_of_second_port_is_refused: Closed under the global context
C89 Build_Props.get_before_run_is_not_broadcast: Closed under the global context
C90 S4d_Props.s4d_computes_the_response_of_the_linear_system: Closed under the global context
C90 S4d_Props.s4d_superposition: Closed under the global context
C90 S4d_Props.s4d_time_invariant: Closed under the global context
C90 S4d_Props.s4d_documented_equations_refuted: Closed under the global context
C90 S4d_Props.s4d_outputs_twice_the_next_documented_activation: Closed under the global context
C91 S4d_Props.sigma_s4d_delta_within_threshold: Closed under the global context
C91 S4d_Props.sigma_s4d_delta_exact_without_threshold: Closed under the global context
C91 S4d_Props.sigma_s4d_delta_cumulative_within_twice_the_threshold: Closed under the global context
C91 S4d_Props.sigma_s4d_delta_cumulative_threshold_refuted: Closed under the global context
C91 S4d_Props.sigma_s4d_delta_tracks_a_signal: Closed under the global context
C91 S4d_Props.sigma_s4d_delta_tracks_a_signal_stable: Closed under the global context
C91 S4d_Props.s4d_layer_follows: Closed under the global context
C91 S4d_Props.s4d_layer_silent_for_two_steps: Closed under the global context
C91 S4d_Props.s4d_layer_connections: Closed under the global context
C91 S4d_Props.sigma_s4d_delta_complex_parameters_refuted: Closed under the global context
C91 S4d_Props.s4d_layer_binary_messages_refuted: Closed under the global context
C91 S4d_Props.sigma_s4d_delta_state_exp_refuted: Closed under the global context
C92 LSparse_Props.learning_sparse_learns_as_dense_partial: Closed under the global context
C92 LSparse_Props.learning_sparse_same_traces: Closed under the global context
C92 LSparse_Props.learning_sparse_no_new_synapses: Closed under the global context
C92 LSparse_Props.learning_sparse_truncated_weights_never_learn: Closed under the global context
C92 LSparse_Props.learning_sparse_truncation_refuted: Closed under the global context
C92 LSparse_Props.learning_sparse_learns_as_dense_float_partial: Closed under the global context
C92 LSparse_Props.learning_sparse_no_new_synapses_float: Closed under the global context
C92 LSparse_Props.learning_sparse_default_tags_never_learn: Closed under the global context
C92 LSparse_Props.learning_sparse_default_tags_refuted: Closed under the global context
C93 Watchdog_Props.watchdog_messages_true: Closed under the global context
C93 Watchdog_Props.watchdog_reports_blocked_calls: Closed under the global context
C93 Watchdog_Props.watchdog_one_message_per_timeout: Closed under the global context
C93 Watchdog_Props.watchdog_stop_waits_for_calls: Closed under the global context
C93 Watchdog_Props.watchdog_stop_returns: Closed under the global context
C93 Watchdog_Props.watchdog_silent_after_stop: Closed under the global context
C93 Watchdog_Props.watchdog_threads_accumulate: Closed under the global context
C93 Watchdog_Props.watchdog_duplicate_messages_refuted: Closed under the global context
C93 Watchdog_Props.watchdog_stop_hangs_refuted: Closed under the global context
C94 Decor_Module.module_attributes: Closed under the global context
C94 Decor_Module.one_process_per_lineage: Closed under the global context
C94 Decor_Module.single_inheritance_lineage: Closed under the global context
C94 Decor_Module.candidates_exactly: Closed under the global context
C94 Decor_Props.tag_appends: Closed under the global context
C94 Decor_Props.requires_appends: Closed under the global context
C94 Decor_Props.implements_sets: Closed under the global context
C94 Decor_Props.late_tag_reaches_descendants: Closed under the global context
C94 Decor_Props.decorator_accepts_exactly: Closed under the global context
C94 Decor_Props.other_classes_untouched: Closed under the global context
C94 Decor_Props.parents_are_not_descendants: Closed under the global context
C94 Decor_Props.child_inherits: Closed under the global context
C94 Decor_Props.several_bases: Closed under the global context
C94 Decor_Module.process_never_changes: Closed under the global context
C94 Decor_Module.protocol_never_changes: Closed under the global context
C94 Decor_Module.decorators_example: Closed under the global context
C94 Decor_Module.two_parents_additivity_refuted: Closed under the global context
C94 Decor_Module.two_parents_process_changes_refuted: Closed under the global context
C94 Decor_Module.late_tag_misses_child_refuted: Closed under the global context
C94 Decor_Module.tuple_of_resources_refuted: Closed under the global context
C94 Decor_Module.alternatives_not_selected_refuted: Closed under the global context
C94 Decor_Module.refused_implements_half_done_refuted: Closed under the global context
C94 Decor_Module.body_bypasses_check_refuted: Closed under the global context
C95 Retune_Props.retuned_connection_follows_its_parameters: Closed under the global context
C95 Retune_Props.float_follows_its_parameters: Closed under the global context
C95 Retune_Props.float_settings_are_built: Closed under the global context
C95 Retune_Props.fixed_settings_are_built: Closed under the global context
C95 Retune_Props.connection_created_iff: Closed under the global context
C95 Retune_Props.first_set_falls_back_to_stored_values: Closed under the global context
C95 Retune_Props.rule_refused_iff: Closed under the global context
C95 Retune_Props.number_refused_iff_negative: Closed under the global context
C95 Retune_Props.state_never_refused: Closed under the global context
C95 Retune_Props.other_period_refused: Closed under the global context
C95 Retune_Props.float_late_change_acts_on_whole_epoch: Closed under the global context
C95 Retune_Props.fixed_late_change_acts_on_whole_epoch: Closed under the global context
C95 Retune_Props2.float_setting_weights_keeps_parameters: Closed under the global context
C95 Retune_Props2.integers_fit: Closed under the global context
C95 Retune_Props2.rules_cannot_be_added: Closed under the global context
C95 Retune_Props2.rules_cannot_be_removed: Closed under the global context
C95 Retune_Props2.fixed_setting_weights_keeps_parameters_refuted: Closed under the global context
C95 Retune_Props2.setting_weights_changes_traces: Closed under the global context
C95 Retune_Props2.can_be_retuned_refuted: Closed under the global context
C96 IoReset_Props.reset_sets_exactly_when_due: Closed under the global context
C96 IoReset_Props.single_reset_trajectory: Closed under the global context
C96 IoReset_Props.read_samples_exactly_when_due: Closed under the global context
C96 IoReset_Props.reset_phase_leaves_nothing: Closed under the global context
C96 IoReset_Props.reset_phase_goes_on: Closed under the global context
C96 IoReset_Props.reset_interval_zero_refused: Closed under the global context
C96 IoReset_Props2.reset_and_read_race_refuted: Closed under the global context
C96 IoReset_Props2.reset_fraction_refuted: Closed under the global context
C97 SaveLoad_Props.ids_survive_save_and_load: Closed under the global context
C97 SaveLoad_Props.loaded_network_works: Closed under the global context
C97 SaveLoad_Props.load_returns_what_was_saved: Closed under the global context
C97 SaveLoad_Props.load_same_name: Closed under the global context
C97 SaveLoad_Props.load_refuses_other_files: Closed under the global context
C97 SaveLoad_Props.assigning_changes_one_var: Closed under the global context
C97 SaveLoad_Props.objects_stay: Closed under the global context
C97 SaveLoad_Props2.loaded_with_new_refuted: Closed under the global context
C97 SaveLoad_Props2.original_with_copy_refuted: Closed under the global context
C97 SaveLoad_Props2.load_adds_extension_refuted: Closed under the global context
C98 RefPhase_Props.management_read_is_current: Closed under the global context
C98 RefPhase_Props.reads_return_the_answers: Closed under the global context
C98 RefPhase_Props.served_in_order: Closed under the global context
C98 RefPhase_Props.read_flushes_writes: Closed under the global context
C98 RefPhase_Props.write_and_wait_is_applied: Closed under the global context
C98 RefPhase_Props.served_between_code: Closed under the global context
C98 RefPhase_Props.read_outside_management_blocks: Closed under the global context
C98 RefPhase_Live.deadlock_needs_a_reason: Closed under the global context
C98 RefPhase_Live.ordered_accesses_never_deadlock: Closed under the global context
C98 RefPhase_Live.phases_take_finitely_many_steps: Closed under the global context
C98 RefPhase_Demo.write_without_wait_refuted: Closed under the global context
C98 RefPhase_Demo.read_in_spiking_phase_refuted: Closed under the global context
C98 RefPhase_Demo.management_reads_never_block_refuted: Closed under the global context
C99 Wire_Total.inport_value_partial: Closed under the global context
C99 Wire_Props.inport_receives_partial: Closed under the global context
C99 Wire_Total.wire_succeeds: Closed under the global context
C99 Wire_Refs.refport_wired_partial: Closed under the global context
C99 Wire_Total.total_pointwise: Closed under the global context
C99 Wire_Demo.joined_on_the_way_refuted: Closed under the global context
C99 Wire_Demo.joined_before_reshape_refuted: Closed under the global context
C99 Wire_Demo.two_ways_refuted: Closed under the global context
C99 Wire_Demo.unconnected_reshaped_refuted: Closed under the global context
C99 Wire_Demo.dangling_virtual_refuted: Closed under the global context
C99 Wire_Demo.equal_ids_refuted: Closed under the global context
C99 Wire_Demo.second_refport_refuted: Closed under the global context
C100 Cache_Props.cache_written: Closed under the global context
C100 Cache_Props.cache_transparent_partial: Closed under the global context
C100 Cache_Props.fresh_compiles: Closed under the global context
C100 Cache_Props.fresh_reads: Closed under the global context
C100 Cache_Props2.cached_compiles_iff: Closed under the global context
C100 Cache_Props2.cached_starts_iff: Closed under the global context
C100 Cache_Props.cached_start_names: Closed under the global context
C100 Cache_Props.cached_models: Closed under the global context
C100 Cache_Props.cached_reads: Closed under the global context
C100 Cache_Props2.cached_ports: Closed under the global context
C100 Cache_Props2.new_ids_drop_functions: Closed under the global context
C100 Cache_Props2.new_ids_no_reads: Closed under the global context
C100 Cache_Props2.first_program_wins: Closed under the global context
C100 Cache_Props2.interrupted_dump_stays: Closed under the global context
C100 Cache_Props2.uncached_ignores_file: Closed under the global context
C100 Cache_Demo.changed_value_ignored_refuted: Closed under the global context
C100 Cache_Demo.old_value_is_read: Closed under the global context
C100 Cache_Demo.other_variable_is_read: Closed under the global context
C100 Cache_Demo.shifted_process_ids_hang: Closed under the global context
C100 Cache_Demo.same_session_refuted: Closed under the global context
C100 Cache_Demo.added_process_refuted: Closed under the global context
C101 Slurm_Props.available_iff: Closed under the global context
C101 Slurm_Props.boards_listed: Closed under the global context
C101 Slurm_Props.partitions_listed: Closed under the global context
C101 Slurm_Props.no_controller_no_lists: Closed under the global context
C101 Slurm_Props.set_board_ok_iff: Closed under the global context
C101 Slurm_Props.set_board_effect: Closed under the global context
C101 Slurm_Props.set_partition_ok_iff: Closed under the global context
C101 Slurm_Props.set_partition_effect: Closed under the global context
C101 Slurm_Props.clearing_succeeds: Closed under the global context
C101 Slurm_Props2.enable_exact: Closed under the global context
C101 Slurm_Props2.disable_exact: Closed under the global context
C101 Slurm_Props2.slurm_host_iff: Closed under the global context
C101 Slurm_Props2.slurm_host_success: Closed under the global context
C101 Slurm_Props2.slurm_host_failure: Closed under the global context
C101 Slurm_Props2.ethernet_host_iff: Closed under the global context
C101 Slurm_Props2.ethernet_host_effect: Closed under the global context
C101 Slurm_Props2.query_changes_nothing: Closed under the global context
C101 Slurm_Props2.switch_exclusive: Closed under the global context
C101 Slurm_Props2.last_partition_wins: Closed under the global context
C101 Slurm_Props2.last_host_wins: Closed under the global context
C101 Slurm_Props2.host_matches_partial: Closed under the global context
C101 Slurm_Props2.newline_no_lists: Closed under the global context
C101 Slurm_Props2.newline_no_choice: Closed under the global context
C101 Slurm_Demo.choice_demo: Closed under the global context
C101 Slurm_Demo.second_partition_refused_refuted: Closed under the global context
C101 Slurm_Demo.partition_states_refuted: Closed under the global context
C101 Slurm_Demo.host_matches_refuted: Closed under the global context
C101 Slurm_Demo.optional_none_refuted: Closed under the global context
C101 Slurm_Demo.no_sinfo_refuted: Closed under the global context
C101 Slurm_Demo.newline_demo_refuted: Closed under the global context
C101 Slurm_Demo.second_answer_fails_refuted: Closed under the global context
C101 Slurm_Demo.board_stays_refuted: Closed under the global context
C102 Startup_Props.fine_run_and_stop: Closed under the global context
C102 Startup_Props.constructor_error_reported: Closed under the global context
C102 Startup_Props.constructor_error_replaced: Closed under the global context
C102 Startup_Props.constructor_failure_hangs: Closed under the global context
C102 Startup_Props.errors_reported_partial: Closed under the global context
C102 Startup_Props.error_elsewhere_hangs: Closed under the global context
C102 Startup_Props2.unreadable_error_replaced: Closed under the global context
C102 Startup_Props2.large_error_hangs: Closed under the global context
C102 Startup_Props2.outcome_decided: Closed under the global context
C102 Startup_Props2.stop_after_error_never_over: Closed under the global context
C102 Startup_Props2.stop_after_failed_start_never_returns: Closed under the global context
C102 Startup_Props2.executions_bounded: Closed under the global context
C103 Hier_Props.found_is_held: Closed under the global context
C103 Hier_Props.found_all_partial: Closed under the global context
C103 Hier_Props.found_last: Closed under the global context
C103 Hier_Props.elaboration_fails_iff: Closed under the global context
C103 Hier_Props.self_holding_never_compiles: Closed under the global context
C103 Hier_Props.leaves_exact: Closed under the global context
C103 Hier_Props.elaborated_exact: Closed under the global context
C103 Hier_Props.built_once: Closed under the global context
C103 Hier_Props.model_classes: Closed under the global context
C103 Hier_Props.parents_exact: Closed under the global context
C103 Hier_Props.is_sub_proc_exact: Closed under the global context
C103 Hier_Props.members_exact: Closed under the global context
C103 Hier_Props.resolve_exact: Closed under the global context
C103 Hier_Props2.folded_view_outermost: Closed under the global context
C103 Hier_Props2.folded_instances_differ: Closed under the global context
C103 Hier_Props2.folded_view_order_independent: Closed under the global context
C103 Hier_Props2.propagation_ends_iff: Closed under the global context
C104 Mnist_Props.dataset_is_published: Closed under the global context
C104 Mnist_Props2.pixels_and_labels: Closed under the global context
C104 Mnist_Props.retry_succeeds_partial: Closed under the global context
C104 Mnist_Props.offline_afterwards: Closed under the global context
C104 Mnist_Props.leftovers_irrelevant: Closed under the global context
C104 Mnist_Props.url_error_iff: Closed under the global context
C104 Mnist_Props2.killed_while_saving: Closed under the global context
C104 Mnist_Props2.broken_for_good: Closed under the global context
C104 Mnist_Props2.other_suffix_never: Closed under the global context
C104 Mnist_Props2.other_suffix_saved_elsewhere: Closed under the global context
C104 Mnist_Props2.bad_first_answer: Closed under the global context
C105 ConvProc_Props.conv_constructed_iff: Closed under the global context
C105 ConvProc_Props.conv_output_shape: Closed under the global context
C105 ConvProc_Props.conv_process_convolves_partial: Closed under the global context
C105 ConvProc_Props.conv_fits: Closed under the global context
C105 ConvProc_Props.weight_parameters_ignored: Closed under the global context
C105 ConvProc_Props.many_groups: Closed under the global context
C105 ConvProc_Props.groups_128_silent: Closed under the global context
C105 ConvProc_Props.too_few_channels_raise: Closed under the global context
C105 ConvProc_Props.more_channels_ignored: Closed under the global context
C105 ConvProc_Demo.convolves_refuted: Closed under the global context
C105 ConvProc_Demo.always_runs_refuted: Closed under the global context
C105 ConvProc_Demo.clamped_refuted: Closed under the global context
C105 ConvProc_Demo.modulo_refuted: Closed under the global context
C105 ConvProc_Demo.exponent_refuted: Closed under the global context
C106 Raster_Props.raster_new_figure: Closed under the global context
C106 Raster_Props.raster_on_current_partial: Closed under the global context
C106 Raster_Props.raster_no_current: Closed under the global context
C106 Raster_Props.other_figure_untouched: Closed under the global context
C106 Raster_Props.raster_raises_iff: Closed under the global context
C106 Raster_Props.refused_without_trace: Closed under the global context
C106 Raster_Props.stride_0_leaves_a_figure: Closed under the global context
C106 Raster_Props.negative_stride_empty: Closed under the global context
C106 Raster_Props.default_stride_needs_six: Closed under the global context
C106 Raster_Demo.shows_on_the_given_figure_refuted: Closed under the global context
C106 Raster_Demo.default_suits_refuted: Closed under the global context
C106 Raster_Demo.errors_leave_no_trace_refuted: Closed under the global context
C107 RfAlg_Props.rf_pair_connects_partial: Closed under the global context
C107 RfAlg_Props.rf_one_network: Closed under the global context
C107 RfAlg_Props.rf_only_its_ports: Closed under the global context
C107 RfAlg_Props.rf_pair_raises: Closed under the global context
C107 RfAlg_Props.rf_further_elements_ignored: Closed under the global context
C107 RfAlg_Props.rf_sum_is_split: Closed under the global context
C107 RfAlg_Props.rf_chain_raises: Closed under the global context
C107 RfAlg_Props.rf_sum_connects_refuted: Closed under the global context
C107 RfAlg_Props.rf_sum_reaches_refuted: Closed under the global context
C107 RfAlg_Props.rf_all_or_nothing_refuted: Closed under the global context
C108 ChanUpd_Props.updated_exactly: Closed under the global context
C108 ChanUpd_Props.payload_shared: Closed under the global context
C108 ChanUpd_Props.closed_network_unchanged_partial: Closed under the global context
C108 ChanUpd_Props.add_port_pairs_refuted: Closed under the global context
C108 ChanUpd_Props.only_compiled_pairs_refuted: Closed under the global context
C108 ChanUpd_Props.own_payload_refuted: Closed under the global context
