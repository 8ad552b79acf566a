{
 "C01": {
  "note": "exact arithmetic proved; binary64: exactness refuted, error bound, monotonicity and range proved for all floats (Flocq)"
 },
 "C02": {
  "note": "generic in the time type; instances for R, Q and binary64 without NaN"
 },
 "C03": {
  "note": "generic in the time type"
 },
 "C04": {
  "note": "exact arithmetic; the need for Vreset<Vt is shown by a refutation"
 },
 "C05": {
  "note": "exact arithmetic; binary64 refutation"
 },
 "C06": {
  "note": "refinement of the operational simulator to the recurrence of Trace.v; conservation in any arithmetic; no overdue event in binary64; in binary64 every step of a run delivers exactly the events whose (rounded) time has come, each at one step only"
 },
 "C09": {
  "note": "the property is false of the code: two refutations"
 },
 "C14": {
  "note": "totality under wf, and a witness for each condition; in any arithmetic from any reachable state"
 },
 "C35": {
  "note": "proved for all operators except number/Scalar, which is refuted"
 },
 "C16": {
  "note": "proved for gate in {0,1}; refuted for gate=2"
 },
 "C17": {
  "note": "first crossing for monotone trajectories; soundness for all; a missed crossing refuted otherwise"
 },
 "C36": {
  "note": "invariant over all reachable states of the loop; non-negative delays"
 },
 "C37": {
  "note": "the property is false of the code: t0 is ignored, spikes always at 0"
 },
 "C38": {
  "note": "the property is false of the code: refuted in every reachable state with a gate hit"
 },
 "C39": {
  "note": "real arithmetic; number formatting not modelled"
 },
 "C40": {
  "note": "array reconstruction and its meaning for simulation logs; negative indices and single-neuron plots refuted"
 },
 "C41": {
  "note": "tree-shaped hierarchies; edge labels (formatted floats) not modelled"
 },
 "C42": {
  "note": "proved with gate open; refuted with gate closed"
 },
 "C44": {
  "note": "estimate and usage totals proved; print_depth refuted"
 },
 "C26": {
  "note": "proved for 1<=N<=316; refuted for every N>=317"
 },
 "C33": {
  "note": "all programs over the operators, shared nodes included; Div refused; plug labels, additional_info strings not modelled"
 },
 "C34": {
  "note": "real arithmetic; max_range > 0"
 },
 "C28": {
  "note": "exact arithmetic: any N, coefficients, signs and arrival times, error stated; exact on the time grid; AdderNetwork instance; binary64 refuted for N=9; a negative sum within 1/100 time unit of 0 is lost (C28_small_negative_refuted)"
 },
 "C31": {
  "note": "operands in (0,1) and zero operands proved; an operand equal to 1 refuted (general theorem and a binary64 run)"
 },
 "C46": {
  "note": "operands in (0,1), all sign combinations proved; a zero operand refuted (general theorem)"
 },
 "C47": {
  "note": ""
 },
 "C48": {
  "note": "Error bounds (2+10f)dt/Tcod + f dt/10 (off grid), (2+4f)dt/Tcod + f dt/10 (on grid); the product must stay 10 dt + (dt/10)Tcod above 0 off grid. factor > 0 and (3+3 factor) dt <= Tmin."
 },
 "C49": {
  "note": "Whole pipeline: program -> compile_computation -> init_with_plan -> simulate -> decode_output, for every expression DAG of + - * (division is rejected, C33), every set iteration order, 1/dt an integer, max_range <= 100. The inductive specification E2ESpec.accurate lists range and error per node kind. Outside: products with an operand that is inexact around 0, operands exactly at the range bound of a product. Tiny negative sums: C49_small_negative_refuted."
 },
 "C50": {
  "note": "divide (operands on the time grid, any two arrival times) and divide_any (any operands, same arrival time) over R, for dt dividing 1 and Tmin; the two refuted theorems show where the documented domain fails (numerator 0, denominator exactly 1)."
 },
 "C07": {
  "note": "refinement over R; step-ordered logs in any arithmetic; strictly increasing times in binary64"
 },
 "C08": {
  "note": "over R for any two orders; in any arithmetic for the same order; binary64 step count within one, last step can be lost (refuted)"
 },
 "C51": {
  "note": "regular_matmul and sum_mat in any arithmetic; Strassen over R, with a binary64 counterexample where its result is wrong by 1 on an entry equal to 1. The simulation of the compiled product is covered by C49, whose error bound is too coarse to be useful at this size."
 },
 "C20": {
  "note": "over R, and in binary64 (all floats in the stated ranges) within (dt + 2^-30)/Tcod"
 },
 "C22": {
  "note": "over R; in binary64 within (4 dt + 2^-30)/Tcod for values with x*Tcod + 2^-14 <= Tcod"
 },
 "C23": {
  "note": "over R within (3 dt + 0.01)/Tcod; in binary64 within (4 dt + 0.01 + 2^-13)/Tcod"
 },
 "C52": {
  "note": "C52_rest_is_fresh (two rounds) and C52_rounds (any number) for every network over R; concrete networks: C29_exponential_reuse, C27_scalar_multiplier_reuse, C30_log_reuse, C22 cycles. C52_zero_product_refuted / C52_log_of_zero_refuted: two library networks that do not come back to rest (binary64 runs)."
 },
 "C53": {
  "note": "C53_network: every solution of the per-neuron equations is what simulate() logs (over R); C53_unique; C53_next_spike reads the next spike time off the exact solution. Networks with zero-delay synapses are outside the hypotheses (no library network has one)."
 },
 "C54": {
  "note": "Whole user scripts on PredSimulator over R. C54_horizon_refuted / C54_log_lost: crossings more than 500 ms ahead are lost."
 },
 "C55": {
  "note": "Whole user scripts on PredSimulator over R; three violations proved in general form (_refuted)."
 },
 "C56": {
  "note": "Whole user scripts on PredSimulator over R; needs Tmin + Tcod + 2 dt <= 500 ms (prediction horizon), Tmin > 1 ms, dt < Tmin. Two violations proved in general form (_refuted)."
 },
 "C57": {
  "note": "Generic over any number system. C57_library_script: every script of library constructor calls (own encoder and name each) from an empty heap either raises the first exception the table `refusal` names, or builds the networks as consecutive disjoint blocks of `size` standard neurons listed by their modules, with no synapse between blocks. C57_library_call: one more call on what a script built. C57_integrator_refuted: IntegratorNetwork always raises. Proof: a Hoare logic of lower bounds through every constructor (Lib.v) on top of the symbolic executions of BuildNets.v."
 },
 "C58": {
  "note": "Whole user scripts on PredSimulator over R; needs Tcod + 2 dt <= 500 ms (prediction horizon), Tmin > 1 ms, and a product above about exp(-17) (the zero detector answers after 350 ms). Three violations proved in general form (_refuted)."
 },
 "C59": {
  "note": "Whole user scripts on PredSimulator over R; same horizon conditions as C58, plus (Tmin + Tcod)/factor + 2 dt <= 500 ms for the normalised multiplier. Three violations proved in general form (_refuted)."
 },
 "C60": {
  "note": "All finite binary64 inputs in the stated ranges, via Flocq; whole user scripts on Simulator. One violation (reuse after a zero result) proved on the exact script by computation with primitive floats, beside the same script with another operand that works."
 },
 "C61": {
  "note": "Whole scripts with any number of computations on one network, on Simulator, over R; the restart at rest is proved by C52. One violation (the next result after a lost one) proved on the exact script in binary64."
 },
 "C62": {
  "note": "Whole scripts with any number of computations on one network, on Simulator, over R, for any number of inputs and any coefficients; the restart at rest is proved by C52."
 },
 "C63": {
  "note": "Whole scripts with any number of uses of one network, on Simulator, over R; the restart at rest is proved by C52. The inverting memory theorem covers any interleaving of stores and of recalls with nothing stored."
 },
 "C64": {
  "note": "Whole scripts with any number of products on one network, on Simulator, over R; the restart at rest is proved by C52. Zero products are excluded: after one the network is not at rest (C52)."
 },
 "C65": {
  "note": "Whole scripts with any number of divisions on one network, on Simulator, over R, for dt below 1/50 ms (so that the subtractor inside is at rest after equal logarithms too); the restart at rest is proved by C52. Divisions without a result (numerator 0 or larger than the denominator) are excluded from the history."
 },
 "C66": {
  "note": "Whole scripts with any number of signed products on one network, on Simulator, over R; the restart at rest is proved by C52. Zero products are excluded (C46 shows what they do)."
 },
 "C67": {
  "note": "factors and products as in the theorem for one computation (C48); zero products, after which the network is not at rest, are excluded"
 },
 "C68": {
  "note": "the specification E2EAgainSpec.repeatable lists the ranges per node kind; a root that is a bare input, and products with an exact zero (after which the multiplier is not at rest), are excluded"
 },
 "C69": {
  "note": "Whole scripts with any number of operand pairs on one network, on Simulator, over R; the restart at rest is proved by C52. C69_one_refuted: with an operand of exactly 1, which the docstring allows, the pair's interval depends on the other operand's arrival time."
 },
 "C70": {
  "note": "Whole scripts of any length on one network, on Simulator, over R; the restart at rest is proved by C52. C70_overwrite_refuted (binary64 runs): a store over a value that was never recalled adds to it; C70_stores_add_up proves that over R for all values, times and encoders (x1+x2-1 up to 6 steps), and C70_spikes_without_recall the spike without a recall when both values are small."
 },
 "C71": {
  "note": "One network, any number of stores and one recall (two stores for the spike without a recall), on Simulator, over R, for all values, times and encoders; C71_overwrite_refuted shows the same in binary64 runs. C71_any_number_of_stores covers any number of stores before the recall."
 }
}
