{
 "claims": [
  {
   "property": "C01",
   "status": "proved",
   "theorems": [
    "chan_fifo",
    "chan_nth_recv",
    "chan_shape_checked"
   ],
   "note": "prefix property for every interleaving of the four threads, any capacity > 0"
  },
  {
   "property": "C02",
   "status": "proved",
   "theorems": [
    "chan_safe",
    "chan_no_overwrite",
    "chan_no_slot_conflict"
   ],
   "note": "every reachable state; no queue.Full, no over-release, no overlapping slot access"
  },
  {
   "property": "C03",
   "status": "proved",
   "theorems": [
    "chan_recv_returns",
    "chan_send_returns",
    "chan_no_deadlock"
   ],
   "note": "on every schedule of the service threads and the blocked user"
  },
  {
   "property": "C04",
   "status": "proved",
   "theorems": [
    "chan_recv_probe_exact",
    "chan_recv_probe_stable",
    "chan_recv_probe_sound",
    "chan_peek_next",
    "chan_send_probe_sound",
    "chan_send_probe_complete_refuted"
   ],
   "note": "all claims of the statement proved; additionally the converse for CspSendPort.probe (False only when full) is refuted: the ack thread transiently holds the semaphore"
  },
  {
   "property": "C06",
   "status": "proved",
   "theorems": [
    "chan_join_send_keeps_data",
    "chan_join_terminates",
    "chan_join_idempotent"
   ],
   "note": ""
  },
  {
   "property": "C05",
   "status": "partial",
   "theorems": [
    "select_sound",
    "select_wakes_size1_partial",
    "select_lost_wakeup_refuted",
    "select_kills_service_thread_refuted"
   ],
   "note": "soundness/priority proved for every n and capacity; wake-up proved for capacity 1; for capacity >= 2 the lost wake-up is a reachable state, and clearing the observer can kill the service thread (real races in the code)"
  },
  {
   "property": "C07",
   "status": "proved",
   "theorems": [
    "run_returns_complete",
    "responses_fifo",
    "run_exact",
    "time_step_counts",
    "run_one_done",
    "run_ends_in_host",
    "run_completes"
   ],
   "note": "all schedules, any number of processes and steps"
  },
  {
   "property": "C08",
   "status": "proved",
   "theorems": [
    "lockstep_time",
    "lockstep_phase",
    "same_commands"
   ],
   "note": ""
  },
  {
   "property": "C09",
   "status": "proved",
   "theorems": [
    "phases_from_guards",
    "functions_from_guards",
    "phase_order",
    "requests_served",
    "phases_of_a_step",
    "pre_mgmt_requests_learning"
   ],
   "note": ""
  },
  {
   "property": "C10",
   "status": "partial",
   "theorems": [
    "resume_completes_partial",
    "run_exact",
    "pause_then_run_hangs_refuted",
    "pause_then_run_skips_refuted",
    "pause_races_completion_refuted"
   ],
   "note": "resume proved when the pause was seen by the service and answered while running; the full statement is false: the service forgets the number of steps, and a pause racing with completion confuses the client (refuted)"
  },
  {
   "property": "C11",
   "status": "proved",
   "theorems": [
    "stop_at_most_once",
    "terminated_all_stopped",
    "terminated_nothing_after",
    "stop_answered",
    "stop_terminates",
    "stop_races_completion_refuted"
   ],
   "note": "service and process side proved for every moment of the request; in addition: the client-side stop() may itself raise when racing with completion (refuted)"
  },
  {
   "property": "C12",
   "status": "proved",
   "theorems": [
    "exception_in_any_phase",
    "error_no_more_phases",
    "error_reported",
    "pause_after_error_hangs_refuted"
   ],
   "note": "service and process side; additionally a client pause() after an error hangs (refuted)"
  },
  {
   "property": "C13",
   "status": "partial",
   "theorems": [
    "getset_exact_partial",
    "getset_never_stuck_partial",
    "set_touches_only_target",
    "set_oversized_stops_process_refuted",
    "get_float_hangs_refuted"
   ],
   "note": "proved for every schedule, channel capacity, number of services/processes and program of well-formed requests; false for requests with more items than the array has elements (leftovers are executed as commands) and for gets of Python floats (hang)"
  },
  {
   "property": "C14",
   "status": "partial",
   "theorems": [
    "get_after_set_partial",
    "get_after_set_fortran_refuted",
    "get_after_set_string_refuted",
    "set_after_zero_fails_refuted"
   ],
   "note": "proved for ints, C-ordered arrays, full-length strings and sparse matrices without stored zeros; refuted for Fortran-ordered arrays, shorter strings and sparse matrices with stored zeros"
  },
  {
   "property": "C15",
   "status": "partial",
   "theorems": [
    "async_first_run_partial",
    "async_first_run_equiv_partial",
    "async_second_run_exact",
    "async_second_run_refuted",
    "async_shorter_run_hangs_refuted",
    "async_not_equiv_refuted"
   ],
   "note": "first run proved exact and equivalent for models without learning/pre-management; later runs execute only the difference, the same run executes nothing, a shorter run never ends; learning models differ"
  },
  {
   "property": "C16",
   "status": "proved",
   "theorems": [
    "inport_recv_sum",
    "inport_recv_consumes_one",
    "inport_recv_waits_only_for_missing",
    "inport_unconnected_zeros",
    "inport_probe_exact"
   ],
   "note": ""
  },
  {
   "property": "C17",
   "status": "partial",
   "theorems": [
    "inport_peek_value_partial",
    "inport_peek_consumes_refuted",
    "inport_peek_is_recv_refuted"
   ],
   "note": "peek() is implemented as recv(): it returns the right value but always consumes; the property is false"
  },
  {
   "property": "C18",
   "status": "partial",
   "theorems": [
    "sparse_delivery_partial",
    "sparse_delivery_all_large",
    "sparse_small_destination_refuted"
   ],
   "note": "holds when no earlier destination has a smaller buffer than needed; otherwise false (in-place resize)"
  },
  {
   "property": "C19",
   "status": "proved",
   "theorems": [
    "refport_program_order",
    "refport_read_value",
    "refport_read_your_write",
    "refport_commands_aligned",
    "refport_no_deadlock"
   ],
   "note": ""
  },
  {
   "property": "C20",
   "status": "partial",
   "theorems": [
    "virtual_ports_rearrange_partial",
    "transpose_rearranges",
    "transpose_undone",
    "reshape_rearranges",
    "transpose_negative_axes_not_undone_refuted",
    "transpose_repeated_axes_accepted_refuted"
   ],
   "note": "every chain of reshape/flatten/transpose ports with axes that are a permutation of 0..n-1; with negative axes (accepted by the API) the reverse direction is wrong; ConcatPort has no transformation function (NotImplementedError)"
  },
  {
   "property": "C21",
   "status": "partial",
   "theorems": [
    "connections_consistent_partial",
    "failed_call_changes_nothing_partial",
    "connect_adds_exactly",
    "connect_from_adds_exactly",
    "connect_repeated_port_refuted",
    "connect_short_configs_refuted",
    "concat_with_itself_refuted"
   ],
   "note": "every program of calls that never lists a port twice in one call and gives one or enough configurations; otherwise false"
  },
  {
   "property": "C22",
   "status": "partial",
   "theorems": [
    "concat_accepts_compatible",
    "concat_accepts_exactly",
    "concat_exact_partial",
    "concat_incompatible_accepted_refuted",
    "concat_negative_axis_refuted"
   ],
   "note": "compatible lists of any length are accepted with the right shape; rejection of incompatible ones proved for two ports; with three or more ports only the last two shapes are compared (concat_accepts_exactly: accepted exactly then)"
  },
  {
   "property": "C23",
   "status": "proved",
   "theorems": [
    "alias_get",
    "alias_set",
    "alias_set_get",
    "alias_accepted_iff",
    "alias_shape_preserved",
    "alias_validated_iff",
    "alias_chain_ends",
    "alias_get_defined"
   ],
   "note": ""
  },
  {
   "property": "C24",
   "status": "proved",
   "theorems": [
    "ids_unique",
    "params_history",
    "params_never_overwritten",
    "params_new_key",
    "params_get",
    "ids_reused_after_reset"
   ],
   "note": "ids per session (reset_server() starts a new one)"
  },
  {
   "property": "C54",
   "status": "partial",
   "theorems": [
    "get_dst_ports_exact",
    "src_dst_agree_partial",
    "src_dst_disagree_refuted"
   ],
   "note": "under the same conditions as C21"
  },
  {
   "property": "C55",
   "status": "partial",
   "theorems": [
    "collection_loop_partial",
    "collection_break_refuted",
    "collection_nested_refuted"
   ],
   "note": "complete, non-nested loops; the iterator position is shared, so nested loops never end and a loop left early makes the next one skip members"
  },
  {
   "property": "C25",
   "status": "proved",
   "theorems": [
    "find_processes_exact",
    "find_processes_same_network",
    "find_processes_total"
   ],
   "note": "for every order of set iteration; total when the recursion limit exceeds the number of processes (a longer chain raises RecursionError); connections built without duplicates as in C21"
  },
  {
   "property": "C26",
   "status": "partial",
   "theorems": [
    "is_dag_accepts_dag",
    "is_dag_exactly",
    "is_dag_correct_partial",
    "is_dag_total",
    "is_dag_self_loop_refuted"
   ],
   "note": "correct on graphs without self-loops; with self-loops the exact set of wrong answers is proved (is_dag_exactly): graphs whose paths all end in one node with an edge to itself and that have no other cycle"
  },
  {
   "property": "C27",
   "status": "partial",
   "theorems": [
    "proc_groups_exact_partial",
    "flatten_node_total",
    "proc_groups_lost_refuted",
    "large_group_refuted"
   ],
   "note": "proved when the expanded network is weakly connected (and a group is smaller than the recursion limit); components without connection to the rest vanish"
  },
  {
   "property": "C28",
   "status": "partial",
   "theorems": [
    "channel_map_exact_partial",
    "channel_map_dangling_virtual_refuted",
    "channel_map_parallel_merged_refuted"
   ],
   "note": "exact once per pair of ports; an unconnected virtual port counts as destination, and parallel connections of the same two ports share one channel"
  },
  {
   "property": "C29",
   "status": "partial",
   "theorems": [
    "select_offered_and_runnable",
    "select_exception_partial",
    "select_best_leaf_partial",
    "select_single",
    "select_sub_first",
    "select_sub_tagged_partial",
    "select_sub_index_error_refuted",
    "select_sub_tag_ignored_refuted",
    "select_exception_no_models_refuted"
   ],
   "note": "the tag search over sub-process models indexes a filtered list with positions of the unfiltered one, a single sub model is returned whatever its tag, and exceptions are ignored without models"
  },
  {
   "property": "C30",
   "status": "partial",
   "theorems": [
    "sync_domain_unique",
    "sync_domain_compatible_partial",
    "runtime_service_unique",
    "sync_domain_name_clash_refuted"
   ],
   "note": "exactly-one-domain and one-service proved unconditionally; compatibility if no custom domain carries a name the compiler generates"
  },
  {
   "property": "C31",
   "status": "partial",
   "theorems": [
    "mapper_total",
    "mapper_every_address",
    "mapper_core_in_range",
    "mapper_consistent",
    "mapper_injective_partial",
    "mapper_mixed_generations_refuted"
   ],
   "note": "distinctness proved for executables of one chip generation; with both generations two processes can get one physical core. The C-builder part of map_cores is not modelled"
  },
  {
   "property": "C32",
   "status": "proved",
   "theorems": [
    "lif_state_in_range",
    "lif_current_exact",
    "lif_voltage_exact",
    "lif_u_not_signed_24_refuted"
   ],
   "note": "the range of u is (-2^23, 2^23]: the value 2^23 itself is reached, so u is not a signed 24-bit number"
  },
  {
   "property": "C33",
   "status": "partial",
   "theorems": [
    "lif_spike_iff_partial",
    "lif_decays_to_zero",
    "lif_vth_set_ignored_refuted",
    "lif_vth_set_demo_refuted"
   ],
   "note": "proved for the threshold at the first step; a later Var.set of vth is ignored by the fixed-point models"
  },
  {
   "property": "C34",
   "status": "partial",
   "theorems": [
    "lif_refractory_partial",
    "lif_not_refractory_integrates",
    "lif_refractory_negative_threshold_refuted"
   ],
   "note": "proved (for any arithmetic, so also IEEE floats) if the reset potential 0 does not exceed vth"
  },
  {
   "property": "C35",
   "status": "partial",
   "theorems": [
    "delta_sigma_tracks",
    "delta_sigma_tracks_units",
    "delta_sigma_cum_error_partial",
    "delta_sigma_cum_error_refuted"
   ],
   "note": "proved for cum_error=False; with cumulative error the bound is twice the threshold. Fixed-point models, integers without int32 overflow; float rounding not modelled"
  },
  {
   "property": "C36",
   "status": "partial",
   "theorems": [
    "encoder_conserves",
    "encoder_tracks",
    "encoder_clipped_partial",
    "encoder_catches_up",
    "encoder_one_bit_refuted"
   ],
   "note": "clipping proved for two or more bits; with num_bits=1 nothing is clipped"
  },
  {
   "property": "C56",
   "status": "partial",
   "theorems": [
    "tern_lif_spike_iff_partial",
    "tern_lif_state_in_range",
    "tern_lif_swapped_thresholds_refuted"
   ],
   "note": "for vth_lo <= vth_hi, which is only checked for scalars"
  },
  {
   "property": "C57",
   "status": "proved",
   "theorems": [
    "lif_reset_forgets",
    "lif_reset_otherwise"
   ],
   "note": ""
  },
  {
   "property": "C58",
   "status": "partial",
   "theorems": [
    "sigma_delta_fixed_partial",
    "sigma_delta_corrected",
    "sigma_delta_fixed_tracks_inputs_partial",
    "sigma_delta_corrected_tracks_inputs",
    "sigma_delta_fixed_drift_refuted"
   ],
   "note": "proved for state_exp = 0 and, for the corrected model, for every state_exp up to one unit 2^state_exp; the plain model drifts without bound for state_exp > 0"
  },
  {
   "property": "C37",
   "status": "partial",
   "theorems": [
    "sparse_roundtrip",
    "sparse_indices_in_range",
    "packed_4_roundtrip",
    "delta_sparse_8_roundtrip_partial",
    "decoded_signed",
    "delta_sparse_8_first_255_refuted",
    "delta_sparse_8_negative_refuted",
    "delta_sparse_8_long_gap_refuted"
   ],
   "note": "sparse and packed-4 exact; delta-sparse-8 exact up to signs if the first nonzero index is not 255 and gaps are below 65025; the three exceptions are refuted by examples"
  },
  {
   "property": "C38",
   "status": "proved",
   "theorems": [
    "bitcheck_flag_exact",
    "bitcheck_int64_refuted"
   ],
   "note": "exact for 32-bit values; outside the statement: 64-bit values are cast to 32 bits before the check"
  },
  {
   "property": "C39",
   "status": "partial",
   "theorems": [
    "clip_weights_range",
    "clip_weights_learning_range",
    "truncate_weights_precision",
    "truncate_weights_towards_zero_partial",
    "truncate_weights_mixed",
    "truncate_weights_mixed_magnitude_refuted",
    "truncate_keeps_range"
   ],
   "note": "truncation of mixed weights rounds down, so negative ones grow in magnitude; everything else as stated"
  },
  {
   "property": "C42",
   "status": "proved",
   "theorems": [
    "signed_clamp_wraps",
    "signed_clamp_unique"
   ],
   "note": ""
  },
  {
   "property": "C59",
   "status": "partial",
   "theorems": [
    "determine_sign_mode_correct",
    "optimize_weights_lossless_partial",
    "optimize_weights_255_refuted",
    "optimize_weights_9_bits_refuted"
   ],
   "note": "proved unless a mixed matrix contains 255, which zeroes the whole matrix; odd mixed matrices are assigned 9 bits"
  },
  {
   "property": "C43",
   "status": "proved",
   "theorems": [
    "ring_sink_holds",
    "ring_source_sends",
    "ring_source_to_sink"
   ],
   "note": ""
  },
  {
   "property": "C44",
   "status": "proved",
   "theorems": [
    "read_samples"
   ],
   "note": ""
  },
  {
   "property": "C45",
   "status": "proved",
   "theorems": [
    "state_loader_presents",
    "spike_loader_presents"
   ],
   "note": ""
  },
  {
   "property": "C46",
   "status": "partial",
   "theorems": [
    "policy_lossless",
    "policy_outcomes",
    "policy_blocking_all",
    "policy_capacity",
    "policy_drop_full_partial",
    "policy_drop_never_blocks",
    "policy_zeros_never_blocks",
    "policy_blocking_returns",
    "policy_drop_spurious_refuted"
   ],
   "note": "everything but \"exactly\": an item can be dropped although the buffer has room, when the port's own service thread is just probing; proved that drops happen only when full otherwise"
  },
  {
   "property": "C40",
   "status": "partial",
   "theorems": [
    "dense_first_output",
    "dense_sends_weighted_sum",
    "bitacc_sends_shifted_sum_partial",
    "bitacc_sends_scaled_sum",
    "bitacc_int32_accumulator_refuted",
    "np_shift_scale",
    "np_shift_floor",
    "delay_step_outputs",
    "delay_dense_delivers_partial",
    "delay_dense_default",
    "delay_bitacc_delivers_partial",
    "delay_bitacc_negative_exp",
    "delay_dense_small_max_delay_refuted",
    "delay_sparse_eq_dense",
    "conv_in_time_delivers"
   ],
   "note": "proved for every delay matrix when max_delay is at least the largest delay (which the default guarantees); a smaller user-given max_delay is accepted and silently drops the slower synapses; Dense and Sparse accumulate graded int32 messages in int32, so with a negative weight_exp the sum can overflow before it is scaled down"
  },
  {
   "property": "C41",
   "status": "partial",
   "theorems": [
    "output_shape_counts",
    "output_shape_none",
    "conv_scipy_is_convolution",
    "conv_to_sparse_is_convolution",
    "conv_to_sparse_agrees_with_conv",
    "conv_to_sparse_in_range",
    "conv_to_sparse_hwcn_partial",
    "conv_to_sparse_hwcn_refuted",
    "conv_to_sparse_nchw_refuted"
   ],
   "note": "proved for the default NWHC order; HWCN is right only if the number of output rows equals the number of output channels; NCHW permutes the kernel axes wrongly"
  },
  {
   "property": "C60",
   "status": "partial",
   "theorems": [
    "bitacc_weights_prepared_partial",
    "bitacc_weights_set_later_refuted"
   ],
   "note": "weights set after the first time step are used without clipping and truncation"
  },
  {
   "property": "C50",
   "status": "proved",
   "theorems": [
    "novelty_exact",
    "novelty_single"
   ],
   "note": ""
  },
  {
   "property": "C51",
   "status": "partial",
   "theorems": [
    "allocator_ids_partial",
    "allocator_unique",
    "allocator_bound_refuted"
   ],
   "note": "ids first, first+1, ... each exactly once (below the int32 limit); nothing bounds them by the number of prototypes"
  },
  {
   "property": "C52",
   "status": "partial",
   "theorems": [
    "readout_keeps_labels",
    "winner_is_last_first_active",
    "readout_exact_partial",
    "readout_no_winner_refuted"
   ],
   "note": "proved for readouts started without labels; with user-given initial labels, a user label arriving before any inference is compared with prototype 0"
  },
  {
   "property": "C53",
   "status": "proved",
   "theorems": [
    "spiker_exact"
   ],
   "note": ""
  },
  {
   "property": "C47",
   "status": "partial",
   "theorems": [
    "learning_step_range",
    "learning_range_partial",
    "learning_tag_range_partial",
    "learning_tag_range_refuted"
   ],
   "note": "proved for weights and tag_2; tag_1 can reach -257, one below its nine-bit range"
  },
  {
   "property": "C48",
   "status": "proved",
   "theorems": [
    "within_epoch_step",
    "learning_only_at_epoch_ends",
    "learning_at_epoch_end",
    "decimation_exact",
    "epoch_spike_times"
   ],
   "note": "recorded pre-spike times for all graded-spike modes except ADD_WITHOUT_SATURATION, which records overflows only by design"
  },
  {
   "property": "C49",
   "status": "partial",
   "theorems": [
    "trace_decay_monotone",
    "trace_impulse_monotone",
    "traces_seven_bits_partial",
    "traces_seven_bits_refuted",
    "graded_add_saturates_partial",
    "graded_overwrites_half",
    "graded_add_saturates_refuted"
   ],
   "note": "proved for regular impulses and saturating addition, and for payloads up to 254 in the other modes; payload 255 gives 128; the decay is any function with 0 <= f(v) <= v"
  },
  {
   "property": "C61",
   "status": "partial",
   "theorems": [
    "product_exact_partial",
    "rule_adds_products_partial",
    "rule_accumulator_bounds",
    "learned_value_partial",
    "product_exact_refuted"
   ],
   "note": "proved when the widths of the factors sum to at most 27 bits; beyond that the int32 accumulator can overflow and flip the sign of the update"
  },
  {
   "property": "C62",
   "status": "proved",
   "theorems": [
    "no_event_no_change",
    "dependency_iff_event"
   ],
   "note": ""
  },
  {
   "property": "C63",
   "status": "partial",
   "theorems": [
    "synaptic_rounding_spec",
    "impulse_rounding_exact_partial",
    "impulse_rounding_unbiased_refuted"
   ],
   "note": "synaptic variables round up iff random < fraction; impulses compare an 8-bit fraction with a 7-bit random number, so fractions of one half or more always round up"
  },
  {
   "property": "C64",
   "status": "partial",
   "theorems": [
    "rule_sees_traces_at_events",
    "traces_after_epoch",
    "trace_dynamics_single_spike_partial",
    "trace_dynamics_single_post_spike_partial",
    "trace_dynamics_two_spikes_refuted"
   ],
   "note": "proved for neurons with at most one spike per epoch; with more, the impulses of the earlier spikes are added without the decay since the spike and then decayed over the whole epoch. One random number is used for a whole epoch"
  },
  {
   "property": "C65",
   "status": "partial",
   "theorems": [
    "rule_means_what_it_says_partial",
    "rule_accepted_iff",
    "rule_decimation",
    "learning_rule_period",
    "learning_rule_period_spaces",
    "active_traces_exact",
    "grammar_is_arithmetic",
    "parse_unfold",
    "sample_rule_ok",
    "every_accepted_expression_is_right_refuted",
    "silently_miscompiled",
    "bracketed_dependency_dropped",
    "unknown_names_accepted",
    "large_literal_rounded",
    "spaced_period_lost"
   ],
   "note": "proved for the documented grammar and scaling constants below 2^54; other accepted expressions such as x0*(-w), x0*(2*x1), x0*((x1+2)), y0*(x0) are compiled to something else without an error; 'u 3' with a space loses its period"
  },
  {
   "property": "C66",
   "status": "proved",
   "theorems": [
    "rf_state_24_bits",
    "rf_rotates",
    "rf_spike_iff",
    "rf_no_consecutive_spikes",
    "rf_float_no_consecutive_spikes"
   ],
   "note": "the fixed-point model for 16-bit inputs; the absence of consecutive spikes also for the floating-point model, over any arithmetic"
  },
  {
   "property": "C67",
   "status": "proved",
   "theorems": [
    "iz_spike_iff",
    "iz_below_threshold",
    "iz_state_24_bits",
    "iz_no_spike_after_spike"
   ],
   "note": "fixed-point model"
  },
  {
   "property": "C68",
   "status": "partial",
   "theorems": [
    "rfzero_rotates_partial",
    "rfzero_overflow_refuted",
    "rfzero_overflow_reachable_refuted"
   ],
   "note": "proved for a state below 2^16 in magnitude; beyond, the int32 products of the 24-bit state with the 15-bit decay constants overflow and flip the sign"
  },
  {
   "property": "C69",
   "status": "partial",
   "theorems": [
    "atrlif_step_partial",
    "atrlif_in_range",
    "atrlif_recovers",
    "atrlif_initial_theta_refuted",
    "atrlif_full_decay_refuted",
    "atrlif_int_decay_overflow_refuted",
    "atrlif_refractoriness_24_bits_refuted"
   ],
   "note": "proved for decays given as floats (numpy float products are exact below 2^53); with an integer delta the int32 product overflows; the initial theta is ignored and the refractoriness leaves its 24 bits"
  },
  {
   "property": "C70",
   "status": "proved",
   "theorems": [
    "graded_vec_forwards",
    "graded_relu_forwards",
    "graded_vec_no_memory"
   ],
   "note": "GradedVec, GradedReluVec: every history of int32 vectors, every threshold"
  },
  {
   "property": "C71",
   "status": "partial",
   "theorems": [
    "prod_neuron_exact_partial",
    "prod_neuron_overflow_refuted",
    "graded_product_partial",
    "graded_product_of_ones_refuted"
   ],
   "note": "exact while the full product fits the 32-bit type of the messages; 24-bit factors whose scaled product fits 24 bits can still overflow; the a * b network has a hidden threshold of 1 which drops products of magnitude 1"
  },
  {
   "property": "C72",
   "status": "proved",
   "theorems": [
    "identity_connection_delivers",
    "identity_connection_25_bits_refuted"
   ],
   "note": "exact for all messages in [-2^24, 2^24), which contains the 24-bit range of graded spikes"
  },
  {
   "property": "C73",
   "status": "partial",
   "theorems": [
    "normalize_net_computes",
    "normalize_net_steady_partial",
    "normalize_net_single_step_refuted",
    "norm_squares_overflow_refuted"
   ],
   "note": "the network multiplies the vector of step t+1 with the inverse norm of step t; a vector is normalised by its own norm if presented for two steps; the squares of values above 2^15 overflow int32"
  },
  {
   "property": "C74",
   "status": "partial",
   "theorems": [
    "inv_sqrt_close_partial",
    "inv_sqrt_zero",
    "inv_sqrt_fp_base_refuted"
   ],
   "note": "all 24-bit inputs, within 1% and 3 units, for 12 fractional bits; the fp_base given by the user is ignored"
  },
  {
   "property": "C75",
   "status": "partial",
   "theorems": [
    "output_vec_exact",
    "output_vec_24_bits",
    "input_to_output_partial",
    "input_vec_caller_changed_refuted"
   ],
   "note": "24-bit values arrive exactly; InputVec scales the array of its caller in place"
  },
  {
   "property": "C76",
   "status": "partial",
   "theorems": [
    "connections_well_typed_partial",
    "chains_keep_kind",
    "reference_ports_refuse",
    "connect_accepts_exactly",
    "connect_from_accepts_exactly",
    "reference_one_to_one_refuted",
    "virtual_direction_refuted"
   ],
   "note": "shapes, classes of direct connections and data/reference kind through any chain proved for every program of calls, including failing ones; connect(x) and connect_from(x) of a single port are accepted exactly under the stated conditions; the 1:1 restriction of RefPorts and VarPorts is not enforced, and through a virtual port an InPort can feed an OutPort"
  },
  {
   "property": "C77",
   "status": "partial",
   "theorems": [
    "network_sum_connects_partial",
    "networks_connected_once",
    "network_shared_sum_refuted",
    "network_sum_of_sums_refuted"
   ],
   "note": "proved for sums built by adding one term at a time on either side; adding to a named sum changes it for all its users, and the sum of two sums is a plain list which << refuses"
  },
  {
   "property": "C78",
   "status": "partial",
   "theorems": [
    "rule_text_applied_partial",
    "rule_text_learned_partial",
    "rule_two_traces_scaled_refuted"
   ],
   "note": "proved for rules whose products have factors of at most 11 bits together (one trace, or one synaptic variable, with constants and events), whole-number constants inside sums and no saturation of factors and accumulator; products with more bits, such as x1*y1, are scaled down by 2^(bits-11) by the 15-bit accumulator"
  },
  {
   "property": "C79",
   "status": "partial",
   "theorems": [
    "parameter_acts",
    "parameter_order_refuted",
    "stdp_is_stdp",
    "stdp_accepted_iff",
    "stdp_small_parameters",
    "stdp_learned_partial",
    "rstdp_is_rstdp",
    "eligibility_tau_refuted"
   ],
   "note": "for parameters below 2^27; in fixed point for STDPLoihi while no factor or sum saturates; the rounding is not monotone (2.9 acts as 4, 3 as 3), learning_rate*A below 2^-7 is refused, and eligibility_trace_decay_tau is a decay rate, not the time constant of its documentation"
  },
  {
   "property": "C80",
   "status": "partial",
   "theorems": [
    "rule_text_contributes_partial",
    "contribution_bounds",
    "rule_text_learned_wide_partial",
    "rstdp_weight"
   ],
   "note": "while no factor, contribution or sum saturates, and for whole constants inside sums; beyond 27 bits the 32-bit accumulator overflows (C64)"
  },
  {
   "property": "C81",
   "status": "proved",
   "theorems": [
    "network_computes_equations",
    "equations_deterministic",
    "feedback_deadlocks",
    "run_completes_iff",
    "alternating_network_no_feedback",
    "recurrent_network_runs",
    "direct_recurrence_deadlocks",
    "pipeline_end_to_end",
    "pipeline_spikes"
   ],
   "note": "for dense ports in the spiking phase; probe(), sparse ports, reference ports and messages in other phases are not part of this model (C09, C17-C19)"
  },
  {
   "property": "C82",
   "status": "proved",
   "theorems": [
    "monitor_records",
    "monitor_records_var",
    "monitor_one_probe",
    "monitor_records_last",
    "monitor_two_targets_rejected"
   ],
   "note": "a refused probe() after a successful one also makes the Monitor impossible to build. The read of a Var in the management phase is represented by a value handed over at the end of the step (C19)"
  },
  {
   "property": "C83",
   "status": "partial",
   "theorems": [
    "float_learning_follows_equations_partial",
    "float_traces_follow_dynamics_partial",
    "float_trace_any_spikes",
    "float_trace_at_most_ideal",
    "float_graded_trace",
    "float_rule_usable_iff",
    "float_zero_tau_ruins",
    "float_rule_sees_future_spikes",
    "float_overwrite_decays_payload",
    "float_refuses_coincidence",
    "float_spaced_period_lost"
   ],
   "note": "proved, in exact arithmetic, for at most one spike per neuron and epoch, regular impulses and traces with a time constant; refuted otherwise: with two spikes a rule sees a trace before the spike that raises it, x1 in OVERWRITE mode decays the payload for the whole epoch, a rule that refers to a trace with the default time constant 0 makes its variable NaN from the second epoch on (float_zero_tau_ruins), and rules with x0 or y0 beyond the first event of a product (x0*y0, accepted by the fixed-point connection) are refused"
  },
  {
   "property": "C84",
   "status": "partial",
   "theorems": [
    "three_factor_shows_received",
    "three_factor_pre_side",
    "three_factor_follows_equations_partial",
    "three_factor_attenuation",
    "three_factor_sees_later_signals_refuted",
    "rstdp_follows_recurrence",
    "three_factor_fixed_shows_received",
    "three_factor_fixed_pre_side",
    "three_factor_fixed_sees_signal",
    "three_factor_fixed_punishment_lost",
    "three_factor_fixed_signal_cut"
   ],
   "note": "the rules use, for every event of an epoch, the signal received in the last step of the epoch (attenuated by at most t/65535), not the one at the event: refuted by three_factor_sees_later_signals_refuted, proved in this form for at most one pre-synaptic spike per neuron and epoch; in fixed point a negative signal (punishment) is seen as 0 from the post-synaptic spike of the epoch on"
  },
  {
   "property": "C85",
   "status": "partial",
   "theorems": [
    "lifecycle_answers_partial",
    "lifecycle_returns_partial",
    "driven_from_any_process",
    "wait_returns_early_refuted",
    "get_reads_response_refuted",
    "run_after_stop_never_returns",
    "run_minus_one_stops_refuted",
    "run_negative_never_ends",
    "late_connection_refuted"
   ],
   "note": "proved for all histories in which a run that does not block is waited for before the next run or stop, and nothing is run or read after stop; refuted otherwise: after two runs in a row without waiting, wait() returns early and get() returns zeros; run() after stop() hangs; negative numbers of steps are taken for commands; a process connected after the first run is left out, or detaches the old runtime"
  },
  {
   "property": "C86",
   "status": "partial",
   "theorems": [
    "async_calls_complete_partial",
    "async_calls_terminate",
    "async_calls_synchronise",
    "async_stop_hangs_refuted",
    "async_pause_hangs_refuted",
    "async_pause_request_sticks_refuted",
    "async_stop_raises_refuted",
    "async_two_requests_refuted"
   ],
   "note": "proved for all histories in which, in each run, either all processes return by themselves (and the run is waited for) or all run until the pause or stop command, with requests only at the end; refuted otherwise: stop() and pause() hang once one process has finished while another runs until told, a pause request is repeated after every later run (get() then returns no data and the next run raises), stop() right after an unwaited run raises, and simultaneous stop and pause requests make run() raise"
  },
  {
   "property": "C87",
   "status": "partial",
   "theorems": [
    "clp_rule_text",
    "clp_presentation_partial",
    "clp_idle_between",
    "clp_raises_only_when_full",
    "clp_recognition_is_permanent",
    "clp_learns_in_one_shot_partial",
    "prototype_lif_step",
    "clp_zero_features_are_not_learned",
    "clp_large_overlaps_are_not_recognised",
    "clp_spacing_is_needed",
    "clp_full_raises"
   ],
   "note": "proved for overlaps below 2^17 and, for the recognition after one presentation, for a squared length that exceeds the threshold by the losses of trace resolution and decay; refuted: a feature that is zero in a novel pattern is stored with its value in an earlier pattern, overlaps of 2^17 and more wrap around in the 24-bit membrane so that a pattern is not recognised and stored twice, and with t_wait+3 steps between two patterns the prototype of the first stores the second"
  },
  {
   "property": "C88",
   "status": "proved",
   "theorems": [
    "schedule_does_not_matter",
    "fair_schedules_agree",
    "loihi_schedule_does_not_matter",
    "probe_depends_on_schedule",
    "select_depends_on_schedule",
    "request_in_last_step_depends_on_schedule"
   ],
   "note": "also for networks where nobody probes a channel while a message is coming or waits for two channels on both of which a message is coming; outside the statement, refuted: probe, several writers to the same Var, a pause requested by a process in the last step of a run; get/set, joining of channels and asynchronous networks are not part of this model"
  },
  {
   "property": "C89",
   "status": "partial",
   "theorems": [
    "construct_iff",
    "construct_starts_partial",
    "scalar_arrays_are_refused",
    "numbers_are_not_converted",
    "precision_replaces_var",
    "direction_is_not_checked",
    "config_of_second_port_is_refused",
    "get_before_run_is_not_broadcast"
   ],
   "note": "proved (values over exact numbers, names of Vars that do not clash with the attribute in which a precision is kept); refuted: array Vars of shape () are refused, the direction of declared ports is not checked, a connection config on the only connection of the second OutPort is refused, a Var named _x_p is overwritten by the precision of x, and Var.get() before the first run is not broadcast"
  },
  {
   "property": "C90",
   "status": "proved",
   "theorems": [
    "s4d_computes_the_response_of_the_linear_system",
    "s4d_superposition",
    "s4d_time_invariant",
    "s4d_documented_equations_refuted",
    "s4d_outputs_twice_the_next_documented_activation"
   ],
   "note": "exact complex numbers (no rounding); the equations of the documentation (act_k = C s_k) are refuted: the output is twice the real part of their activation of the next step"
  },
  {
   "property": "C91",
   "status": "proved",
   "theorems": [
    "sigma_s4d_delta_within_threshold",
    "sigma_s4d_delta_exact_without_threshold",
    "sigma_s4d_delta_cumulative_within_twice_the_threshold",
    "sigma_s4d_delta_cumulative_threshold_refuted",
    "sigma_s4d_delta_tracks_a_signal",
    "sigma_s4d_delta_tracks_a_signal_stable",
    "s4d_layer_follows",
    "s4d_layer_silent_for_two_steps",
    "s4d_layer_connections",
    "sigma_s4d_delta_complex_parameters_refuted",
    "s4d_layer_binary_messages_refuted",
    "sigma_s4d_delta_state_exp_refuted"
   ],
   "note": "exact rationals; outside the statement, refuted: complex parameters lose their imaginary parts, a layer with num_message_bits = 0 forwards ones, state_exp scales the threshold of the floating-point model, with cum_error the threshold itself is not a bound"
  },
  {
   "property": "C92",
   "status": "partial",
   "theorems": [
    "learning_sparse_learns_as_dense_partial",
    "learning_sparse_same_traces",
    "learning_sparse_no_new_synapses",
    "learning_sparse_truncated_weights_never_learn",
    "learning_sparse_truncation_refuted",
    "learning_sparse_learns_as_dense_float_partial",
    "learning_sparse_no_new_synapses_float",
    "learning_sparse_default_tags_never_learn",
    "learning_sparse_default_tags_refuted"
   ],
   "note": "proved for sign mode MIXED; in fixed point for weights that survive the truncation of the first step: the others are deleted for good, while LearningDense learns them; in floating point for variables stored together with those their rules read: tags that are not given are stored nowhere and never learned. Rules that multiply w, d or t with spikes or traces (the code multiplies them as matrices) are not modelled"
  },
  {
   "property": "C93",
   "status": "proved",
   "theorems": [
    "watchdog_messages_true",
    "watchdog_reports_blocked_calls",
    "watchdog_one_message_per_timeout",
    "watchdog_stop_waits_for_calls",
    "watchdog_stop_returns",
    "watchdog_silent_after_stop",
    "watchdog_threads_accumulate",
    "watchdog_duplicate_messages_refuted",
    "watchdog_stop_hangs_refuted"
   ],
   "note": "discrete time of any granularity, atomic operations on the manager's events and queues; outside the statement, refuted: calls in quick succession can be reported twice at once (the thread of an earlier call has not noticed its end), and stop() hangs as long as a monitored call is blocked; the monitors keep one thread object for every call ever made"
  },
  {
   "property": "C94",
   "status": "proved",
   "theorems": [
    "module_attributes",
    "one_process_per_lineage",
    "single_inheritance_lineage",
    "candidates_exactly",
    "tag_appends",
    "requires_appends",
    "implements_sets",
    "late_tag_reaches_descendants",
    "decorator_accepts_exactly",
    "other_classes_untouched",
    "parents_are_not_descendants",
    "child_inherits",
    "several_bases",
    "process_never_changes",
    "protocol_never_changes",
    "decorators_example",
    "two_parents_additivity_refuted",
    "two_parents_process_changes_refuted",
    "late_tag_misses_child_refuted",
    "tuple_of_resources_refuted",
    "alternatives_not_selected_refuted",
    "refused_implements_half_done_refuted",
    "body_bypasses_check_refuted"
   ],
   "note": "Python's C3 linearisation and attribute lookup are part of the model; outside the statement, refuted: additivity with two parents (the second parent's tags, resources and process are lost), a tuple of alternatives (documented, raises TypeError), alternatives are invisible to the run configurations, a refused @implements may have set the process, a class body bypasses the check"
  },
  {
   "property": "C95",
   "status": "proved",
   "theorems": [
    "retuned_connection_follows_its_parameters",
    "float_follows_its_parameters",
    "float_settings_are_built",
    "fixed_settings_are_built",
    "connection_created_iff",
    "first_set_falls_back_to_stored_values",
    "rule_refused_iff",
    "number_refused_iff_negative",
    "state_never_refused",
    "other_period_refused",
    "float_late_change_acts_on_whole_epoch",
    "fixed_late_change_acts_on_whole_epoch",
    "float_setting_weights_keeps_parameters",
    "integers_fit",
    "rules_cannot_be_added",
    "rules_cannot_be_removed",
    "fixed_setting_weights_keeps_parameters_refuted",
    "setting_weights_changes_traces",
    "can_be_retuned_refuted"
   ],
   "note": "outside the statement, refuted: on a fixed-point connection created with a fractional impulse or time constant, setting any Var (even the weights) truncates it; two rules with a period u<k> cannot be moved to another period by setting them to the new texts; the delivery of the value to the process is C13/C14, what follows the end of a process is C12"
  },
  {
   "property": "C96",
   "status": "proved",
   "theorems": [
    "reset_sets_exactly_when_due",
    "single_reset_trajectory",
    "read_samples_exactly_when_due",
    "reset_phase_leaves_nothing",
    "reset_phase_goes_on",
    "reset_interval_zero_refused",
    "reset_and_read_race_refuted",
    "reset_fraction_refuted"
   ],
   "note": "on the transport model of C19; that the phase is entered when a guard asks for it is C09; outside the statement: a Reset and a Read due in the same step race (both outcomes constructed), and a fractional reset_value loses its fraction"
  },
  {
   "property": "C97",
   "status": "proved",
   "theorems": [
    "ids_survive_save_and_load",
    "loaded_network_works",
    "load_returns_what_was_saved",
    "load_same_name",
    "load_refuses_other_files",
    "assigning_changes_one_var",
    "objects_stay",
    "loaded_with_new_refuted",
    "original_with_copy_refuted",
    "load_adds_extension_refuted"
   ],
   "note": "outside the statement, refuted: a loaded process together with one created in the loading session, or with its own original: ids clash, one of them never gets a command and get/set go to the other; load(name) does not add '.pickle' although its docstring says so. Pickle itself is taken to copy objects faithfully; the executable stored with the processes and sub processes/ports are not modelled"
  },
  {
   "property": "C98",
   "status": "proved",
   "theorems": [
    "management_read_is_current",
    "reads_return_the_answers",
    "served_in_order",
    "read_flushes_writes",
    "write_and_wait_is_applied",
    "served_between_code",
    "read_outside_management_blocks",
    "deadlock_needs_a_reason",
    "ordered_accesses_never_deadlock",
    "phases_take_finitely_many_steps",
    "write_without_wait_refuted",
    "read_in_spiking_phase_refuted",
    "management_reads_never_block_refuted"
   ],
   "note": "outside the statement, refuted: a write without wait() may reach the owner only after its run_spk of the next step (documented as non-deterministic); a read in run_spk may be answered by luck if the owner is still in the previous management phase; two processes reading each other's Var in the same phase deadlock. Which phase follows which answers is C09; pause/stop requested by a process and errors are not modelled"
  },
  {
   "property": "C99",
   "status": "partial",
   "theorems": [
    "inport_value_partial",
    "inport_receives_partial",
    "wire_succeeds",
    "refport_wired_partial",
    "total_pointwise",
    "joined_on_the_way_refuted",
    "joined_before_reshape_refuted",
    "two_ways_refuted",
    "unconnected_reshaped_refuted",
    "dangling_virtual_refuted",
    "equal_ids_refuted",
    "second_refport_refuted"
   ],
   "note": "Proved for every program of calls and every grouping, when ways with virtual ports are joined only at the InPort (ways without them may be joined anywhere, as in hierarchical processes), there is one way from each OutPort, and ids are distinct; for RefPorts when the connection is one to one and unbranched. The refutations show networks accepted by connect() in which the English statement is false: ways joined at a port in between (all rearrangements applied to the last source, none to the others), two ways between the same ports (one array, once), an unconnected port behind a reshape and a dangling virtual port (compile error), equal ids (recv raises), a second RefPort at a VarPort (never served)."
  },
  {
   "property": "C100",
   "status": "partial",
   "theorems": [
    "cache_written",
    "cache_transparent_partial",
    "fresh_compiles",
    "fresh_reads",
    "cached_compiles_iff",
    "cached_starts_iff",
    "cached_start_names",
    "cached_models",
    "cached_reads",
    "cached_ports",
    "new_ids_drop_functions",
    "new_ids_no_reads",
    "first_program_wins",
    "interrupted_dump_stays",
    "uncached_ignores_file",
    "changed_value_ignored_refuted",
    "old_value_is_read",
    "other_variable_is_read",
    "shifted_process_ids_hang",
    "same_session_refuted",
    "added_process_refuted"
   ],
   "note": "Proved: the cache is written exactly for distinct names without 'Process_'; a later program with the same names, ids, Vars, models and port functions (but any parameters and connections) gets the executable it would get without a cache; exactly which later programs compile and start, and exactly what Var.get() answers in them. The full claim is false of the code: a changed initial value is ignored, Vars are confused when ids have shifted, a program created again in the same session can read no Var and loses its reshape ports, an added process prevents the start, and an interrupted dump makes the directory unusable."
  },
  {
   "property": "C101",
   "status": "partial",
   "theorems": [
    "available_iff",
    "boards_listed",
    "partitions_listed",
    "no_controller_no_lists",
    "set_board_ok_iff",
    "set_board_effect",
    "set_partition_ok_iff",
    "set_partition_effect",
    "clearing_succeeds",
    "enable_exact",
    "disable_exact",
    "slurm_host_iff",
    "slurm_host_success",
    "slurm_host_failure",
    "ethernet_host_iff",
    "ethernet_host_effect",
    "query_changes_nothing",
    "switch_exclusive",
    "last_partition_wins",
    "last_host_wins",
    "host_matches_partial",
    "newline_no_lists",
    "newline_no_choice",
    "choice_demo",
    "second_partition_refused_refuted",
    "partition_states_refuted",
    "host_matches_refuted",
    "optional_none_refuted",
    "no_sinfo_refuted",
    "newline_demo_refuted",
    "second_answer_fails_refuted",
    "board_stays_refuted"
   ],
   "note": "Proved for every output and history: what the lists contain, exactly when each call succeeds, exactly which variables it changes, SLURM/NOSLURM exclusive, partition() and loihi.host are those of the last successful choice; the environment agrees with loihi.host as long as no choice of a host fails. False of the code: with newline-terminated output (as sinfo prints it) nothing can be listed or chosen (IndexError), only the first line of a board or partition is looked at, is_available raises without sinfo, and a failed choice leaves SLURM, LOIHI_GEN and BOARD changed while loihi.host still names the earlier host."
  },
  {
   "property": "C102",
   "status": "partial",
   "theorems": [
    "fine_run_and_stop",
    "constructor_error_reported",
    "constructor_error_replaced",
    "constructor_failure_hangs",
    "errors_reported_partial",
    "error_elsewhere_hangs",
    "unreadable_error_replaced",
    "large_error_hangs",
    "outcome_decided",
    "stop_after_error_never_over",
    "stop_after_failed_start_never_returns",
    "executions_bounded"
   ],
   "note": "Proved for every program and every interleaving: a network without failures runs, stops and leaves no system process; the first constructor exception that can be pickled is raised by run(); if every domain has a process that raises and none that is blocked, run() raises RuntimeError with the number of exceptions that can be pickled; which result run() gives does not depend on the interleaving; every execution is finite. False of the code, with theorems that say so: run() never returns if one domain raises and another is fine, if a process waits for data of one that has raised, if the exception does not fit in the pipe, or if a constructor raises an exception that cannot be pickled or leaves with SystemExit; an exception that pickle cannot read again is replaced by another; an unpicklable one is not counted; stop() after a reported error never returns."
  },
  {
   "property": "C103",
   "status": "partial",
   "theorems": [
    "found_is_held",
    "found_all_partial",
    "found_last",
    "elaboration_fails_iff",
    "self_holding_never_compiles",
    "leaves_exact",
    "elaborated_exact",
    "built_once",
    "model_classes",
    "parents_exact",
    "is_sub_proc_exact",
    "members_exact",
    "resolve_exact",
    "folded_view_outermost",
    "folded_instances_differ",
    "folded_view_order_independent",
    "propagation_ends_iff"
   ],
   "note": "Proved for every network and depth: the compiled processes are exactly the leaves inside the network, each once with its model; expansion fails exactly if processes are nested deeper than the recursion limit; parents, members and is_sub_proc_of are those of the hierarchy; the folded view is that of the outermost folded process, whatever the order of the set. A process is found exactly if the model holds it in an attribute or a dataclass field and no two have the same name. False of the code, with theorems that say so: a process in a list or dict is not found - it is silently not compiled, or a TypeError if a found one is connected to it; of two processes of the same class in dataclass objects only the last is found; a model that stores the process it implements never compiles (the code compares the attribute with a class); a process under two attribute names has its model built twice; a None in exception_proc_model_map leaves the process out silently."
  },
  {
   "property": "C104",
   "status": "partial",
   "theorems": [
    "dataset_is_published",
    "pixels_and_labels",
    "retry_succeeds_partial",
    "offline_afterwards",
    "leftovers_irrelevant",
    "url_error_iff",
    "killed_while_saving",
    "broken_for_good",
    "other_suffix_never",
    "other_suffix_saved_elsewhere",
    "bad_first_answer"
   ],
   "note": "Proved for every content, network and history: with mirrors that fail or give the published files, a MnistDataset that is constructed holds the published data, in whatever history; after a history without a kill every attempt in which each file is had from the first mirror that answers succeeds, and none after it needs the network; what is left in the temp directory never matters; URLError exactly if all mirrors of some file fail so while the files before were had. False of the code, with theorems that say so: a process killed while the data file is saved (and only then) leaves a file on which every later attempt fails; a lost connection, or an answer that is not the file, ends the attempt although other mirrors would give it; a data path not ending in .npy never works and downloads each time, because numpy.save adds the suffix."
  },
  {
   "property": "C105",
   "status": "partial",
   "theorems": [
    "conv_constructed_iff",
    "conv_output_shape",
    "conv_process_convolves_partial",
    "conv_fits",
    "weight_parameters_ignored",
    "many_groups",
    "groups_128_silent",
    "too_few_channels_raise",
    "more_channels_ignored",
    "convolves_refuted",
    "always_runs_refuted",
    "clamped_refuted",
    "modulo_refuted",
    "exponent_refuted"
   ],
   "note": "Proved for every Conv with up to 127 groups and weights with a channel for each input channel of a group: zeros in the first step, then exactly the convolution of the step before (floating point), or it modulo 2^24 as a signed number while it fits 32 bits (fixed point); construction and output shape. False of the code, with theorems that say so: groups is kept as int8, so with 128 (or any such) groups the process sends zeros for ever, with 130 it raises in its first step; the channels of the weights are not checked: too few raise in the first step, more are ignored; weight_exp and num_weight_bits make no difference; fixed-point values wrap instead of being clamped. Float rounding is not modelled."
  },
  {
   "property": "C106",
   "status": "partial",
   "theorems": [
    "raster_new_figure",
    "raster_on_current_partial",
    "raster_no_current",
    "other_figure_untouched",
    "raster_raises_iff",
    "refused_without_trace",
    "stride_0_leaves_a_figure",
    "negative_stride_empty",
    "default_stride_needs_six",
    "shows_on_the_given_figure_refuted",
    "default_suits_refuted",
    "errors_leave_no_trace_refuted"
   ],
   "note": "Proved: a new figure shows exactly the raster with its labels, the figures before unchanged; a given figure is returned, and the raster is added to the current axes of pyplot's current figure, all else unchanged; exactly when an error is raised, and that pyplot is then as before (except stride 0). False of the code, with theorems that say so: a given figure that is not pyplot's current one is returned as it was and the spikes are drawn on another figure (a further one is made if there is none); with a negative stride nothing is drawn; with stride 0 the error leaves an empty figure behind; with fewer than 6 neurons the default stride is refused."
  },
  {
   "property": "C107",
   "status": "partial",
   "theorems": [
    "rf_pair_connects_partial",
    "rf_one_network",
    "rf_only_its_ports",
    "rf_pair_raises",
    "rf_further_elements_ignored",
    "rf_sum_is_split",
    "rf_chain_raises",
    "rf_sum_connects_refuted",
    "rf_sum_reaches_refuted",
    "rf_all_or_nothing_refuted"
   ],
   "note": "Proved: the pair and the single network are connected as written, nothing is disconnected and no other InPort is touched; when a statement raises and what it has connected then. False of the code, with theorems that say so: a sum is a list, so y << (a + b) connects the summands to the two InPorts (in the order of the list) instead of adding them, and every summand after the second is not connected at all; a tuple's third element is ignored; y << x has the value None, so y << x << z raises after connecting x; a statement that raises half-way keeps its first connection. Shapes are not modelled."
  },
  {
   "property": "C108",
   "status": "partial",
   "theorems": [
    "updated_exactly",
    "payload_shared",
    "closed_network_unchanged_partial",
    "add_port_pairs_refuted",
    "only_compiled_pairs_refuted",
    "own_payload_refuted"
   ],
   "note": "Proved for every network, group and channel map: exactly which entries there are afterwards and with which payload; in a network whose chains of connections begin and end at non-virtual ports of compiled processes, no entry is added. False of the code, with theorems that say so: a port connected to a port of a hierarchical process that leads nowhere gets an entry, though that process is not compiled (the map was made without it); all entries for a group share one Payload object; add_port_pairs adds nothing (fromkeys makes another map)."
  }
 ]
}