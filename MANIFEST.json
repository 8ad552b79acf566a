{
 "claims": [
  {
   "property": "C01",
   "status": "proved",
   "theorems": [
    "C01_binary64_roundtrip",
    "C01_binary64_default",
    "C01_binary64_monotone",
    "C01_binary64_rejects",
    "C01_encode_accepts",
    "C01_encode_rejects",
    "C01_roundtrip",
    "C01_decode_zero_Tcod",
    "C01_binary64_roundtrip_refuted"
   ],
   "note": "exact arithmetic proved; binary64: exactness refuted, error bound, monotonicity and range proved for all floats (Flocq)"
  },
  {
   "property": "C02",
   "status": "proved",
   "theorems": [
    "C02_queue_history"
   ],
   "note": "generic in the time type; instances for R, Q and binary64 without NaN"
  },
  {
   "property": "C03",
   "status": "proved",
   "theorems": [
    "C03_cancelable_queue"
   ],
   "note": "generic in the time type"
  },
  {
   "property": "C04",
   "status": "proved",
   "theorems": [
    "C04_sparse_is_dense",
    "C04_needs_reset_below_threshold_refuted"
   ],
   "note": "exact arithmetic; the need for Vreset<Vt is shown by a refutation"
  },
  {
   "property": "C05",
   "status": "proved",
   "theorems": [
    "C05_order_irrelevant",
    "C05_binary64_order_refuted"
   ],
   "note": "exact arithmetic; binary64 refutation"
  },
  {
   "property": "C06",
   "status": "proved",
   "theorems": [
    "C06_any_conservation",
    "C06_binary64_no_overdue",
    "C06_delivery",
    "C06_exactly_once",
    "C06_arrival_step",
    "C06_binary64_delivery",
    "C06_binary64_once"
   ],
   "note": "refinement of the operational simulator to the recurrence of Trace.v; conservation in any arithmetic; no overdue event in binary64; in binary64 every step of a run delivers exactly the events whose (rounded) time has come, each at one step only"
  },
  {
   "property": "C07",
   "status": "proved",
   "theorems": [
    "C07_any_logs",
    "C07_binary64_increasing",
    "C07_spike_log"
   ],
   "note": "refinement over R; step-ordered logs in any arithmetic; strictly increasing times in binary64"
  },
  {
   "property": "C08",
   "status": "proved",
   "theorems": [
    "C08_any_prefix",
    "C08_binary64_steps",
    "C08_binary64_last_step_refuted",
    "C08_longer_extends"
   ],
   "note": "over R for any two orders; in any arithmetic for the same order; binary64 step count within one, last step can be lost (refuted)"
  },
  {
   "property": "C09",
   "status": "proved",
   "theorems": [
    "C09_split_refuted",
    "C09_clock_restarts_refuted"
   ],
   "note": "the property is false of the code: two refutations"
  },
  {
   "property": "C10",
   "status": "proved",
   "theorems": [
    "C10_rejects_out_of_range",
    "C10_input_value"
   ],
   "note": ""
  },
  {
   "property": "C11",
   "status": "proved",
   "theorems": [
    "C11_time_shift"
   ],
   "note": ""
  },
  {
   "property": "C12",
   "status": "proved",
   "theorems": [
    "C12_modules_do_not_interfere"
   ],
   "note": ""
  },
  {
   "property": "C13",
   "status": "proved",
   "theorems": [
    "C13_decode_output_error",
    "C13_decode_output_none",
    "C13_decode_output_value",
    "C13_count_spikes"
   ],
   "note": ""
  },
  {
   "property": "C14",
   "status": "proved",
   "theorems": [
    "C14_any_total",
    "C14_binary64_steps",
    "C14_binary64_steps_fail",
    "C14_simulate_total",
    "C14_conditions_needed"
   ],
   "note": "totality under wf, and a witness for each condition; in any arithmetic from any reachable state"
  },
  {
   "property": "C15",
   "status": "proved",
   "theorems": [
    "C15_closed_form_gate",
    "C15_closed_form_no_gate",
    "C15_distance_to_ode"
   ],
   "note": ""
  },
  {
   "property": "C16",
   "status": "proved",
   "theorems": [
    "C16_fast_forward_solves_ode",
    "C16_fast_forward_composes",
    "C16_gate2_refuted"
   ],
   "note": "proved for gate in {0,1}; refuted for gate=2"
  },
  {
   "property": "C17",
   "status": "proved",
   "theorems": [
    "C17_membrane_is_fast_forward",
    "C17_first_crossing",
    "C17_excitatory",
    "C17_sound",
    "C17_non_monotone_refuted"
   ],
   "note": "first crossing for monotone trajectories; soundness for all; a missed crossing refuted otherwise"
  },
  {
   "property": "C18",
   "status": "proved",
   "theorems": [
    "C18_neuron_uids",
    "C18_module_uids"
   ],
   "note": ""
  },
  {
   "property": "C19",
   "status": "proved",
   "theorems": [
    "C19_flatten",
    "C19_members",
    "C19_own_first",
    "C19_once",
    "C19_cycle_raises"
   ],
   "note": ""
  },
  {
   "property": "C20",
   "status": "proved",
   "theorems": [
    "C20_binary64_constant",
    "C20_constant",
    "C20_signed_constant"
   ],
   "note": "over R, and in binary64 (all floats in the stated ranges) within (dt + 2^-30)/Tcod"
  },
  {
   "property": "C21",
   "status": "proved",
   "theorems": [
    "C21_flip_train",
    "C21_flip_value"
   ],
   "note": ""
  },
  {
   "property": "C22",
   "status": "proved",
   "theorems": [
    "C22_binary64_memory",
    "C22_memory",
    "C22_memory_reuse"
   ],
   "note": "over R; in binary64 within (4 dt + 2^-30)/Tcod for values with x*Tcod + 2^-14 <= Tcod"
  },
  {
   "property": "C23",
   "status": "proved",
   "theorems": [
    "C23_binary64_inverting_memory",
    "C23_inverting_memory"
   ],
   "note": "over R within (3 dt + 0.01)/Tcod; in binary64 within (4 dt + 0.01 + 2^-13)/Tcod"
  },
  {
   "property": "C24",
   "status": "proved",
   "theorems": [
    "C24_signed_memory",
    "C24_other_sign_reuse_refuted"
   ],
   "note": ""
  },
  {
   "property": "C25",
   "status": "proved",
   "theorems": [
    "C25_subtractor",
    "C25_subtractor_small_negative_lost",
    "C25_subtractor_coarse_both"
   ],
   "note": ""
  },
  {
   "property": "C26",
   "status": "proved",
   "theorems": [
    "C26_synchronizer",
    "C26_synchronizer_waits",
    "C26_synchronizer_early_release_refuted"
   ],
   "note": "proved for 1<=N<=316; refuted for every N>=317"
  },
  {
   "property": "C27",
   "status": "proved",
   "theorems": [
    "C27_scalar_multiplier",
    "C27_scalar_multiplier_reuse"
   ],
   "note": ""
  },
  {
   "property": "C28",
   "status": "proved",
   "theorems": [
    "C28_linear_combinator",
    "C28_linear_combinator_grid",
    "C28_adder",
    "C28_small_negative_refuted",
    "C28_binary64_nine_inputs_refuted"
   ],
   "note": "exact arithmetic: any N, coefficients, signs and arrival times, error stated; exact on the time grid; AdderNetwork instance; binary64 refuted for N=9; a negative sum within 1/100 time unit of 0 is lost (C28_small_negative_refuted)"
  },
  {
   "property": "C29",
   "status": "proved",
   "theorems": [
    "C29_exponential",
    "C29_exponential_reuse"
   ],
   "note": ""
  },
  {
   "property": "C30",
   "status": "proved",
   "theorems": [
    "C30_log",
    "C30_log_of_zero",
    "C30_log_reuse"
   ],
   "note": ""
  },
  {
   "property": "C31",
   "status": "proved",
   "theorems": [
    "C31_multiplier",
    "C31_multiplier_grid",
    "C31_zero",
    "C31_second_factor_one_refuted",
    "C31_first_factor_one_refuted",
    "C31_binary64_second_factor_one_refuted"
   ],
   "note": "operands in (0,1) and zero operands proved; an operand equal to 1 refuted (general theorem and a binary64 run)"
  },
  {
   "property": "C32",
   "status": "proved",
   "theorems": [
    "C32_trace"
   ],
   "note": ""
  },
  {
   "property": "C33",
   "status": "proved",
   "theorems": [
    "C33_compile_preserves_graph",
    "C33_division_not_compiled"
   ],
   "note": "all programs over the operators, shared nodes included; Div refused; plug labels, additional_info strings not modelled"
  },
  {
   "property": "C34",
   "status": "proved",
   "theorems": [
    "C34_range_guard",
    "C34_plan_loads"
   ],
   "note": "real arithmetic; max_range > 0"
  },
  {
   "property": "C35",
   "status": "proved",
   "theorems": [
    "C35_add",
    "C35_sub",
    "C35_mul",
    "C35_neg",
    "C35_scalar_div_any",
    "C35_number_div_scalar_refuted"
   ],
   "note": "proved for all operators except number/Scalar, which is refuted"
  },
  {
   "property": "C36",
   "status": "proved",
   "theorems": [
    "C36_one_prediction_per_neuron",
    "C36_prediction_is_current",
    "C36_clock_is_last_hit",
    "C36_time_monotone",
    "C36_spike_log",
    "C36_progress",
    "C36_simulate",
    "C36_spikes_are_crossings"
   ],
   "note": "invariant over all reachable states of the loop; non-negative delays"
  },
  {
   "property": "C37",
   "status": "proved",
   "theorems": [
    "C37_t0_ignored",
    "C37_input_value_refuted"
   ],
   "note": "the property is false of the code: t0 is ignored, spikes always at 0"
  },
  {
   "property": "C38",
   "status": "proved",
   "theorems": [
    "C38_gate_updates_refuted"
   ],
   "note": "the property is false of the code: refuted in every reachable state with a gate hit"
  },
  {
   "property": "C39",
   "status": "proved",
   "theorems": [
    "C39_value",
    "C39_monotone",
    "C39_errors",
    "C39_energy",
    "C39_human_readable"
   ],
   "note": "real arithmetic; number formatting not modelled"
  },
  {
   "property": "C40",
   "status": "proved",
   "theorems": [
    "C40_build_array",
    "C40_negative_index_refuted",
    "C40_chronogram_is_potential",
    "C40_single_neuron_refuted"
   ],
   "note": "array reconstruction and its meaning for simulation logs; negative indices and single-neuron plots refuted"
  },
  {
   "property": "C41",
   "status": "proved",
   "theorems": [
    "C41_topology",
    "C41_internal_hidden",
    "C41_groups",
    "C41_boxes"
   ],
   "note": "tree-shaped hierarchies; edge labels (formatted floats) not modelled"
  },
  {
   "property": "C42",
   "status": "proved",
   "theorems": [
    "C42_agree_gate_open",
    "C42_gate_closed_refuted"
   ],
   "note": "proved with gate open; refuted with gate closed"
  },
  {
   "property": "C43",
   "status": "proved",
   "theorems": [
    "C43_hits_delivered_once",
    "C43_counters"
   ],
   "note": ""
  },
  {
   "property": "C44",
   "status": "proved",
   "theorems": [
    "C44_spike_estimation",
    "C44_spike_usage",
    "C44_print_depth_refuted"
   ],
   "note": "estimate and usage totals proved; print_depth refuted"
  },
  {
   "property": "C45",
   "status": "proved",
   "theorems": [
    "C45_neuron_module"
   ],
   "note": ""
  },
  {
   "property": "C46",
   "status": "proved",
   "theorems": [
    "C46_signed_multiplier",
    "C46_signed_multiplier_grid",
    "C46_zero_refuted"
   ],
   "note": "operands in (0,1), all sign combinations proved; a zero operand refuted (general theorem)"
  },
  {
   "property": "C47",
   "status": "proved",
   "theorems": [
    "C47_script",
    "C47_calls_only_extend"
   ],
   "note": ""
  },
  {
   "property": "C48",
   "status": "proved",
   "theorems": [
    "C48_signed_multiplier_norm",
    "C48_signed_multiplier_norm_grid",
    "C48_zero"
   ],
   "note": "Error bounds (2+10f)dt/Tcod + f dt/10 (off grid), (2+4f)dt/Tcod + f dt/10 (on grid); the product must stay 10 dt + (dt/10)Tcod above 0 off grid. factor > 0 and (3+3 factor) dt <= Tmin."
  },
  {
   "property": "C49",
   "status": "proved",
   "theorems": [
    "C49_compiled_expression",
    "C49_exact_sums",
    "C49_small_negative_refuted"
   ],
   "note": "Whole pipeline: program -> compile_computation -> init_with_plan -> simulate -> decode_output, for every expression DAG of + - * (division is rejected, C33), every set iteration order, 1/dt an integer, max_range <= 100. The inductive specification E2ESpec.accurate lists range and error per node kind. Outside: products with an operand that is inexact around 0, operands exactly at the range bound of a product. Tiny negative sums: C49_small_negative_refuted."
  },
  {
   "property": "C50",
   "status": "proved",
   "theorems": [
    "C50_divide",
    "C50_divide_any",
    "C50_larger_numerator",
    "C50_divide_by_one_refuted",
    "C50_zero_numerator_refuted"
   ],
   "note": "divide (operands on the time grid, any two arrival times) and divide_any (any operands, same arrival time) over R, for dt dividing 1 and Tmin; the two refuted theorems show where the documented domain fails (numerator 0, denominator exactly 1)."
  },
  {
   "property": "C51",
   "status": "proved",
   "theorems": [
    "C51_regular_product",
    "C51_strassen_product",
    "C51_binary64_strassen_refuted",
    "C51_sum_mat",
    "C51_demo"
   ],
   "note": "regular_matmul and sum_mat in any arithmetic; Strassen over R, with a binary64 counterexample where its result is wrong by 1 on an entry equal to 1. The simulation of the compiled product is covered by C49, whose error bound is too coarse to be useful at this size."
  },
  {
   "property": "C52",
   "status": "proved",
   "theorems": [
    "C52_rest_is_fresh",
    "C52_rounds",
    "C52_zero_product_refuted",
    "C52_log_of_zero_refuted"
   ],
   "note": "C52_rest_is_fresh (two rounds) and C52_rounds (any number) for every network over R; concrete networks: C29_exponential_reuse, C27_scalar_multiplier_reuse, C30_log_reuse, C22 cycles. C52_zero_product_refuted / C52_log_of_zero_refuted: two library networks that do not come back to rest (binary64 runs)."
  },
  {
   "property": "C53",
   "status": "proved",
   "theorems": [
    "C53_network",
    "C53_unique",
    "C53_next_spike"
   ],
   "note": "C53_network: every solution of the per-neuron equations is what simulate() logs (over R); C53_unique; C53_next_spike reads the next spike time off the exact solution. Networks with zero-delay synapses are outside the hypotheses (no library network has one)."
  },
  {
   "property": "C54",
   "status": "proved",
   "theorems": [
    "C54_memory",
    "C54_inverting_memory",
    "C54_log",
    "C54_exponential",
    "C54_horizon_refuted",
    "C54_log_lost"
   ],
   "note": "Whole user scripts on PredSimulator over R. C54_horizon_refuted / C54_log_lost: crossings more than 500 ms ahead are lost."
  },
  {
   "property": "C55",
   "status": "proved",
   "theorems": [
    "C55_constant",
    "C55_signed_constant",
    "C55_sign_flip",
    "C55_subtractor",
    "C55_small_negative_refuted",
    "C55_scalar_multiplier",
    "C55_scalar_zero_refuted",
    "C55_small_factor_refuted"
   ],
   "note": "Whole user scripts on PredSimulator over R; three violations proved in general form (_refuted)."
  },
  {
   "property": "C56",
   "status": "proved",
   "theorems": [
    "C56_synchronizer",
    "C56_synchronizer_values",
    "C56_synchronizer_waits",
    "C56_synchronizer_early_refuted",
    "C56_linear_combinator",
    "C56_linear_combinator_spikes",
    "C56_adder",
    "C56_small_negative_refuted"
   ],
   "note": "Whole user scripts on PredSimulator over R; needs Tmin + Tcod + 2 dt <= 500 ms (prediction horizon), Tmin > 1 ms, dt < Tmin. Two violations proved in general form (_refuted)."
  },
  {
   "property": "C57",
   "status": "proved",
   "theorems": [
    "C57_library_script",
    "C57_library_call",
    "C57_integrator_refuted"
   ],
   "note": "Generic over any number system. C57_library_script: every script of library constructor calls (own encoder and name each) from an empty heap either raises the first exception the table `refusal` names, or builds the networks as consecutive disjoint blocks of `size` standard neurons listed by their modules, with no synapse between blocks. C57_library_call: one more call on what a script built. C57_integrator_refuted: IntegratorNetwork always raises. Proof: a Hoare logic of lower bounds through every constructor (Lib.v) on top of the symbolic executions of BuildNets.v."
  },
  {
   "property": "C58",
   "status": "proved",
   "theorems": [
    "C58_multiplier",
    "C58_multiplier_values",
    "C58_zero",
    "C58_zero_values",
    "C58_second_factor_one_refuted",
    "C58_first_factor_one_refuted",
    "C58_signed_multiplier",
    "C58_signed_multiplier_values",
    "C58_signed_zero_refuted"
   ],
   "note": "Whole user scripts on PredSimulator over R; needs Tcod + 2 dt <= 500 ms (prediction horizon), Tmin > 1 ms, and a product above about exp(-17) (the zero detector answers after 350 ms). Three violations proved in general form (_refuted)."
  },
  {
   "property": "C59",
   "status": "proved",
   "theorems": [
    "C59_divider",
    "C59_divider_values",
    "C59_larger_silent",
    "C59_zero_silent_refuted",
    "C59_by_one_refuted",
    "C59_signed_memory",
    "C59_signed_memory_value",
    "C59_signed_norm",
    "C59_signed_norm_values",
    "C59_signed_norm_zero",
    "C59_signed_norm_zero_refuted"
   ],
   "note": "Whole user scripts on PredSimulator over R; same horizon conditions as C58, plus (Tmin + Tcod)/factor + 2 dt <= 500 ms for the normalised multiplier. Three violations proved in general form (_refuted)."
  },
  {
   "property": "C60",
   "status": "proved",
   "theorems": [
    "C60_subtractor",
    "C60_signed_constant",
    "C60_sign_flipper",
    "C60_reuse_after_zero_refuted"
   ],
   "note": "All finite binary64 inputs in the stated ranges, via Flocq; whole user scripts on Simulator. One violation (reuse after a zero result) proved on the exact script by computation with primitive floats, beside the same script with another operand that works."
  },
  {
   "property": "C61",
   "status": "proved",
   "theorems": [
    "C61_subtractor_reuse",
    "C61_synchronizer_reuse",
    "C61_reuse_after_lost_refuted"
   ],
   "note": "Whole scripts with any number of computations on one network, on Simulator, over R; the restart at rest is proved by C52. One violation (the next result after a lost one) proved on the exact script in binary64."
  },
  {
   "property": "C62",
   "status": "proved",
   "theorems": [
    "C62_linear_combinator_reuse",
    "C62_adder_reuse"
   ],
   "note": "Whole scripts with any number of computations on one network, on Simulator, over R, for any number of inputs and any coefficients; the restart at rest is proved by C52."
  },
  {
   "property": "C63",
   "status": "proved",
   "theorems": [
    "C63_constant_reuse",
    "C63_signed_constant_reuse",
    "C63_flipper_reuse",
    "C63_inverting_memory_history"
   ],
   "note": "Whole scripts with any number of uses of one network, on Simulator, over R; the restart at rest is proved by C52. The inverting memory theorem covers any interleaving of stores and of recalls with nothing stored."
  },
  {
   "property": "C64",
   "status": "proved",
   "theorems": [
    "C64_multiplier_reuse"
   ],
   "note": "Whole scripts with any number of products on one network, on Simulator, over R; the restart at rest is proved by C52. Zero products are excluded: after one the network is not at rest (C52)."
  },
  {
   "property": "C65",
   "status": "proved",
   "theorems": [
    "C65_div_reuse",
    "C65_div_any_reuse"
   ],
   "note": "Whole scripts with any number of divisions on one network, on Simulator, over R, for dt below 1/50 ms (so that the subtractor inside is at rest after equal logarithms too); the restart at rest is proved by C52. Divisions without a result (numerator 0 or larger than the denominator) are excluded from the history."
  },
  {
   "property": "C66",
   "status": "proved",
   "theorems": [
    "C66_signed_multiplier_reuse"
   ],
   "note": "Whole scripts with any number of signed products on one network, on Simulator, over R; the restart at rest is proved by C52. Zero products are excluded (C46 shows what they do)."
  },
  {
   "property": "C67",
   "status": "proved",
   "theorems": [
    "C67_signed_norm_reuse"
   ],
   "note": "factors and products as in the theorem for one computation (C48); zero products, after which the network is not at rest, are excluded"
  },
  {
   "property": "C68",
   "status": "proved",
   "theorems": [
    "C68_compiled_expression_again",
    "C68_exact_rounds",
    "C68_exact_answer",
    "C68_decode_output"
   ],
   "note": "the specification E2EAgainSpec.repeatable lists the ranges per node kind; a root that is a bare input, and products with an exact zero (after which the multiplier is not at rest), are excluded"
  },
  {
   "property": "C69",
   "status": "proved",
   "theorems": [
    "C69_log_and_sync",
    "C69_one_refuted"
   ],
   "note": "Whole scripts with any number of operand pairs on one network, on Simulator, over R; the restart at rest is proved by C52. C69_one_refuted: with an operand of exactly 1, which the docstring allows, the pair's interval depends on the other operand's arrival time."
  },
  {
   "property": "C70",
   "status": "proved",
   "theorems": [
    "C70_memory_history",
    "C70_overwrite_refuted",
    "C70_stores_add_up",
    "C70_spikes_without_recall"
   ],
   "note": "Whole scripts of any length on one network, on Simulator, over R; the restart at rest is proved by C52. C70_overwrite_refuted (binary64 runs): a store over a value that was never recalled adds to it; C70_stores_add_up proves that over R for all values, times and encoders (x1+x2-1 up to 6 steps), and C70_spikes_without_recall the spike without a recall when both values are small."
  },
  {
   "property": "C71",
   "status": "proved",
   "theorems": [
    "C71_inverting_memory_adds_up",
    "C71_any_number_of_stores",
    "C71_spikes_without_recall",
    "C71_overwrite_refuted"
   ],
   "note": "One network, any number of stores and one recall (two stores for the spike without a recall), on Simulator, over R, for all values, times and encoders; C71_overwrite_refuted shows the same in binary64 runs. C71_any_number_of_stores covers any number of stores before the recall."
  }
 ]
}