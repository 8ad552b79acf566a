{"id": "C01", "title": "Interval code round-trip", "statement": "For a DataEncoder with Tcod != 0, encode_value(x) succeeds exactly for 0<=x<=1 (AssertionError otherwise), returns a pair starting at 0 whose difference is Tmin + x*Tcod, and decode_interval of that difference gives back x; for Tcod>0 the interval lies in [Tmin,Tmax] and is strictly increasing in x. Exact arithmetic. With binary64 numbers the round trip is not exact, but encode_value still accepts exactly the finite floats in [0,1], the interval stays in [Tmin,Tmax], the round trip is monotone and its error is at most 3*2^(e-54)/Tcod + 2^-53 when Tmin+Tcod <= 2^e (2^-51 for the default encoder).", "quantifier": "all Tmin, Tcod, all x", "why_tests_cant": "infinitely many values and encoder parameters", "anchors": ["axon_sdk/primitives/encoders.py:DataEncoder"]}
{"id": "C02", "title": "Due-event queue returns exactly the due events, in time order", "statement": "For any history of add_event/pop_events calls on a SpikeEventQueue, pop_events(t) returns every event added so far and not yet popped whose time is <= t, each exactly once, in non-decreasing time order, and leaves exactly the later ones queued; the underlying heap order is maintained. Holds for any totally ordered time values (binary64 without NaN included).", "quantifier": "all operation histories, all times, all t", "why_tests_cant": "heap shape depends on the whole history; ties and interleavings are unbounded", "anchors": ["axon_sdk/primitives/events.py:SpikeEventQueue"]}
{"id": "C03", "title": "Cancelable queue refines a time-indexed multimap", "statement": "For any history of add_event/remove/pop on a CancelableEventQueue: pop returns, in insertion order, all live (not removed, not popped) events of the earliest time that has a live event; a removed event is never returned; removal of an absent event is a no-op; len is the number of distinct times with a live event; pop raises IndexError only when no time is pending, and returns [] only when every pending event was removed.", "quantifier": "all operation histories", "why_tests_cant": "stale heap times left behind by removals interact with later adds at the same time", "anchors": ["axon_sdk/primitives/events.py:CancelableEventQueue"]}
{"id": "C04", "title": "Skipping idle neurons is unobservable", "statement": "Simulator.simulate, which only updates neurons that received an event or are active, yields the same spike log, same event deliveries and same final neuron states as updating every neuron of the net on every timestep, provided each neuron's Vreset is below its threshold and neurons start at rest; without Vreset<Vt this fails.", "quantifier": "all networks, all inputs, all dt, all durations", "why_tests_cant": "the optimisation depends on the global state at every timestep of every network", "anchors": ["axon_sdk/simulator.py:Simulator.simulate", "axon_sdk/primitives/elements.py:AbstractNeuron.update_and_spike"]}
{"id": "C05", "title": "Simulation result does not depend on set iteration order", "statement": "In exact arithmetic the spike log (per neuron), the per-neuron voltage log, the processed-synapse counters and the neuron states after simulate() are the same whatever order Python iterates the set of neurons to simulate in each timestep and however the heap orders simultaneous events. With binary64 rounding the order of simultaneous events can change the result.", "quantifier": "all networks, inputs, all (even per-step varying) iteration orders", "why_tests_cant": "hash/iteration order differs between runs and platforms", "anchors": ["axon_sdk/simulator.py:Simulator.simulate", "axon_sdk/primitives/events.py:SpikeEventQueue"]}
{"id": "C06", "title": "Every synaptic event is delivered exactly once at the right timestep", "statement": "A spike emitted at timestep j through a synapse with delay d changes the target neuron exactly once, at timestep j+max(1,ceil(d/dt)); an input spike at time tau reaches the target at step max(1,ceil((tau+d)/dt)); nothing else changes a neuron's inputs; the number of processed events per type equals the number of events that became due. In any arithmetic (binary64 included) and after any history of calls, events processed plus events queued of a type are exactly one per synapse of that type and logged spike of its source, and simulate leaves no overdue event queued.", "quantifier": "all networks, inputs, timesteps", "why_tests_cant": "must hold for every event of every history", "anchors": ["axon_sdk/simulator.py:Simulator.simulate", "axon_sdk/simulator.py:Simulator.apply_input_spike"]}
{"id": "C07", "title": "Spike log soundness", "statement": "Spikes logged by simulate() for a neuron are at times k*dt with strictly increasing k, at most one per timestep, exactly at those timesteps where the membrane potential after the update is >= Vt; after the spike V=Vreset and ge=gf=gate=0; every logged voltage is below Vt when Vreset<Vt. In any arithmetic each step adds at most one entry per neuron, in step order, stamped (i+1)*dt, and in binary64 the stamped times are strictly increasing.", "quantifier": "all networks, inputs, durations", "why_tests_cant": "trace property", "anchors": ["axon_sdk/simulator.py:Simulator.simulate", "axon_sdk/primitives/elements.py:ExplicitNeuron.reset"]}
{"id": "C08", "title": "Simulating longer only extends the logs", "statement": "For the same inputs, the spike and voltage logs of a simulation of duration T1 are prefixes of those for any T2>=T1; consequently a decoded result, once both spikes are out, does not change if simulation_time is increased except by additional spikes appended. In any arithmetic the same holds when the step count does not decrease; in binary64, simulating up to exactly the k-th simulated time runs k or k-1 steps (and k-1 does happen, losing the last step).", "quantifier": "all networks, all T1<=T2", "why_tests_cant": "unbounded durations", "anchors": ["axon_sdk/simulator.py:Simulator.simulate"]}
{"id": "C09", "title": "simulate() can be split into consecutive calls", "statement": "simulate(a) followed by simulate(b) on the same Simulator is the same as one simulate of the total duration. (Expected by users, false of the code: time restarts at dt and the active set is dropped.)", "quantifier": "all networks, all a,b", "why_tests_cant": "needs reasoning about hidden state left between calls", "anchors": ["axon_sdk/simulator.py:Simulator.simulate"]}
{"id": "C10", "title": "Input injection", "statement": "apply_input_value(v, n, t0) raises ValueError and changes nothing when v is outside [0,1]; otherwise it logs exactly two spikes for n, at t0 and t0+Tmin+v*Tcod, and schedules for every outgoing synapse of n exactly one event per spike at spike time + delay with that synapse's type, weight and target; no other neuron's log or state changes.", "quantifier": "all nets, values, times", "why_tests_cant": "ranges over all values and topologies", "anchors": ["axon_sdk/simulator.py:Simulator.apply_input_value", "axon_sdk/simulator.py:Simulator.apply_input_spike"]}
{"id": "C11", "title": "Time-shift invariance", "statement": "Delaying all inputs by a whole number m of timesteps delays every spike produced by the network by exactly m timesteps and changes nothing else.", "quantifier": "all networks, inputs, m", "why_tests_cant": "relational property over pairs of runs", "anchors": ["axon_sdk/simulator.py:Simulator"]}
{"id": "C12", "title": "Independent modules do not interfere", "statement": "If the neurons of a module receive no synapses from outside the module then its spikes are the same when it is simulated inside any larger network as when the rest of the network is absent.", "quantifier": "all networks, all surrounding networks and inputs", "why_tests_cant": "relational property over all contexts", "anchors": ["axon_sdk/primitives/networks.py:SpikingNetworkModule", "axon_sdk/simulator.py:Simulator.simulate"]}
{"id": "C13", "title": "decode_output and count_spikes", "statement": "decode_output raises ValueError iff both readout neurons spiked or one of them spiked a number of times other than 0 or 2; returns None iff none spiked; otherwise returns +norm or -norm times the decoded interval of the two spikes of the '+' or '-' neuron. count_spikes is the sum over neurons of the logged spikes.", "quantifier": "all spike logs", "why_tests_cant": "all logs", "anchors": ["axon_sdk/simulator.py:decode_output", "axon_sdk/simulator.py:count_spikes"]}
{"id": "C14", "title": "simulate() does not raise on well-formed networks", "statement": "If every neuron reachable by a synapse belongs to the simulated net, all synapse types are one of V, ge, gf, gate, all tm, tf are nonzero and dt is nonzero then simulate() completes without exception; each of these conditions is necessary in the sense that violating it can raise. In any arithmetic, from any reachable state, the only possible failure is the computation of the step count.", "quantifier": "all networks, inputs, durations", "why_tests_cant": "absence of exceptions over all histories", "anchors": ["axon_sdk/simulator.py:Simulator.simulate", "axon_sdk/primitives/elements.py:AbstractNeuron"]}
{"id": "C15", "title": "Closed form of the Euler dynamics", "statement": "With constant inputs for n timesteps an (unspiking) neuron's V grows by n*dt*ge/tm plus gate-driven (gf*tf/tm)*(1-(1-dt/tf)^n) for gate=1, gf being multiplied by (1-dt/tf)^n; with gate=0 gf is frozen. The gap to the documented ODE solution is O(dt).", "quantifier": "all n, dt, states", "why_tests_cant": "unbounded number of steps", "anchors": ["axon_sdk/primitives/elements.py:AbstractNeuron.update_and_spike"]}
{"id": "C16", "title": "fast-forward solves the documented ODE", "statement": "The predictive neuron's fast-forward over an interval s yields V(s), gf(s) satisfying tm dV/ds = ge+gate*gf, tf dgf/ds=-gf from the current state when gate is 0 or 1, and fast-forwarding a then b equals fast-forwarding a+b. For other gate values V does not follow the equation.", "quantifier": "all states and intervals", "why_tests_cant": "real-analytic statement", "anchors": ["axon_sdk/primitives/elements.py:ExplicitNeuron._fast_forward"]}
{"id": "C17", "title": "Spike prediction finds the first threshold crossing on the grid", "statement": "When the predicted membrane trajectory is monotone in time, the prediction returns the least multiple of dt below the horizon at which V>=Vt, and None iff there is none; when it is not monotone a real crossing can be missed.", "quantifier": "all neuron states, dt, horizons < 2^64 steps", "why_tests_cant": "binary search correctness", "anchors": ["axon_sdk/predictive_simulator.py:PredSimulator._predict_spike_steps_fixed"]}
{"id": "C18", "title": "Neuron identifiers are unique", "statement": "Two distinct neurons created in a process never have the same uid, whatever names and modules they are given, and distinct modules never have the same uid; so the uid-keyed spike_log and voltage_log never mix two neurons.", "quantifier": "all creation histories, all name strings", "why_tests_cant": "string-format injectivity over all names", "anchors": ["axon_sdk/primitives/elements.py:AbstractNeuron.__init__", "axon_sdk/primitives/networks.py:SpikingNetworkModule.__init__"]}
{"id": "C19", "title": "Module neuron enumeration", "statement": "net.neurons lists exactly the neurons added to the module or, recursively, to its submodules, own neurons first, depth first, each once for tree-shaped hierarchies; flatten_nested_list returns the leaves of any nested list in depth-first order.", "quantifier": "all hierarchies / nested lists", "why_tests_cant": "unbounded nesting", "anchors": ["axon_sdk/primitives/networks.py:SpikingNetworkModule.neurons", "axon_sdk/primitives/helpers.py:flatten_nested_list"]}
{"id": "C20", "title": "Constant network", "statement": "Triggering recall once makes ConstantNetwork(value) emit exactly two output spikes whose interval decodes to value within dt/Tcod (exactly when Tsyn, Tmin and value*Tcod are multiples of dt); SignedConstantNetwork does so on the output of value's sign and keeps the other silent.", "quantifier": "all value>=0 (resp. any sign), encoders with Tmin>dt, all dt>0, trigger times", "why_tests_cant": "continuum of parameters", "anchors": ["axon_sdk/networks/memory/constant.py", "axon_sdk/networks/memory/signed_constant.py"]}
{"id": "C21", "title": "Sign flipper", "statement": "A value presented on one input of SignFlipperNetwork comes out on the opposite output with exactly the same spike interval in timesteps, the same-sign output stays silent.", "quantifier": "all spike trains/values, dt", "why_tests_cant": "all inputs", "anchors": ["axon_sdk/networks/functional/signflip.py"]}
{"id": "C22", "title": "Memory network stores and recalls any value", "statement": "After apply_input_value(x,input,t0) and a recall spike later than storage completion, MemoryNetwork emits exactly two output spikes whose interval equals the (timestep-quantised) input interval, so the recalled value differs from x by at most dt/Tcod when the 1 ms synapse delay is a whole number of timesteps (exactly x when the value is on the grid too, at most 3 dt/Tcod for any dt up to 0.5); ready fires exactly once, and the network is then back in its initial state: for any number of store/recall cycles, each started after the previous replay, the output is exactly one such pair per cycle and ready one spike per cycle.", "quantifier": "all finite sequences of cycles (x in [0,1], store time, recall time), Tmin,Tcod, dt", "why_tests_cant": "continuum of values; rounding of every event to timesteps", "anchors": ["axon_sdk/networks/memory/memory.py"]}
{"id": "C23", "title": "Inverting memory recalls 1-x", "statement": "InvertingMemoryNetwork recalls 1-x within a bounded number of timesteps of error for every x and recall time after storage.", "quantifier": "all x, encoders, dt", "why_tests_cant": "continuum", "anchors": ["axon_sdk/networks/memory/inverting_memory.py"]}
{"id": "C24", "title": "Signed memory", "statement": "SignedMemoryNetwork recalls the stored magnitude on the output of the sign it was stored with and keeps the other output silent. (It cannot be used again with the other sign: the second value is lost.)", "quantifier": "all x, signs, recall times", "why_tests_cant": "continuum", "anchors": ["axon_sdk/networks/memory/signed_memory.py"]}
{"id": "C25", "title": "Subtractor", "statement": "For inputs x1,x2 presented simultaneously exactly one of the outputs emits two spikes with interval Tmin+|x1-x2|*Tcod (up to timestep quantisation), '+' when x1>=x2 and '-' otherwise. (The code violates this for 0<x2-x1 below about Tneu/Tcod, and for equal inputs when dt>=2*Tneu.)", "quantifier": "all x1,x2, encoders, dt", "why_tests_cant": "continuum; near-equal inputs are exactly where it fails", "anchors": ["axon_sdk/networks/functional/subtractor.py"]}
{"id": "C26", "title": "Synchronizer waits for all N inputs", "statement": "SynchronizerNetwork(N) releases the stored values only after all N inputs were stored, all outputs' first spikes coincide, and each output reproduces its own input interval. (Violated for N>=317 because of the +0.0001 in the weight.)", "quantifier": "all N, values, arrival times", "why_tests_cant": "unbounded N; accumulated weight", "anchors": ["axon_sdk/networks/connecting/synchronizer.py"]}
{"id": "C27", "title": "Scalar multiplier", "statement": "ScalarMultiplierNetwork(factor) maps an input value x with factor*x<1 to an output pair decoding to factor*x within a bounded number of timesteps.", "quantifier": "all factor>0, x", "why_tests_cant": "continuum", "anchors": ["axon_sdk/networks/functional/scalar_multiplier.py"]}
{"id": "C28", "title": "Linear combinator / adder", "statement": "LinearCombinatorNetwork(N, coeff) with one signed value per input outputs sum(coeff_i*x_i) on the output of the proper sign within a stated error, for |sum| in range; AdderNetwork is the coefficient-1 instance. In binary64 the N-fold accumulation of we/N can stay below threshold so that for N=9 nothing is ever output.", "quantifier": "all N, coefficients, values, dt", "why_tests_cant": "unbounded N and continuum of values", "anchors": ["axon_sdk/networks/functional/linear_combinator.py", "axon_sdk/networks/functional/adder.py"]}
{"id": "C29", "title": "Exponential network", "statement": "ExponentialNetwork outputs an interval Tmin + Tcod*rho^n up to timestep quantisation, rho=1-dt/tf and n the quantised x*Tcod/dt, which is within O(dt) of Tmin+Tcod*exp(-x*Tcod/tf).", "quantifier": "all x, encoders, dt", "why_tests_cant": "continuum, real analysis", "anchors": ["axon_sdk/networks/functional/exponential.py"]}
{"id": "C30", "title": "Log network", "statement": "LogNetwork outputs an interval within O(dt) of Tmin+tf*ln(1/x) for x>0 and emits only one output spike for x=0.", "quantifier": "all x, encoders, dt", "why_tests_cant": "continuum", "anchors": ["axon_sdk/networks/functional/natural_log.py"]}
{"id": "C31", "title": "Multiplier", "statement": "Given two values in [0,1] at any times, MultiplierNetwork emits exactly one output pair, decoding to x1*x2 within an error of order dt: proved for products of operands in (0,1) down to e^-14 (e^-16 for operands on the time grid), and exactly 0 when an operand is 0. For an operand equal to 1 the claim is false of the code: x*1 decodes to 1 for every x<1 (even x=0), and 1*x is 5 to 10 percent too large.", "quantifier": "all x1,x2, dt", "why_tests_cant": "continuum", "anchors": ["axon_sdk/networks/functional/multiplier.py"]}
{"id": "C32", "title": "Tracing a computation visits each reachable node once", "statement": "trace(root) returns every Scalar reachable from root exactly once, root first, and exactly the parent->child pairs between them, for any expression DAG built with the operators; each node's data is its operator applied to its operands' data.", "quantifier": "all expression DAGs, sharing included", "why_tests_cant": "unbounded graphs", "anchors": ["axon_sdk/compilation/scalar.py:trace", "axon_sdk/compilation/scalar.py:Scalar"]}
{"id": "C33", "title": "Compilation preserves the computation graph", "statement": "compile_computation succeeds for every DAG over Load/+/-/neg/* whose load values are within range and fails for any DAG containing an unsupported op (Div, although documented as supported); the produced plan has one module per node of the matching kind, for every operand edge exactly one '+'->'+' and one '-'->'-' V synapse of weight 10 and delay 1 from the operand's output to the matching input of the consumer (operand order preserved) and no other inter-module synapses, one trigger per Load with |value|/max_range on the neuron of value's sign, and a reader on the root's outputs.", "quantifier": "all DAGs, all max_range<=100", "why_tests_cant": "unbounded graphs", "anchors": ["axon_sdk/compilation/compiler.py"]}
{"id": "C34", "title": "Input range guard of the compiler", "statement": "For max_range>0 the compiler rejects exactly load values > max_range; negative values below -max_range pass compilation and are rejected only when the plan is loaded in a Simulator; every accepted plan whose |values|<=max_range loads without exception.", "quantifier": "all values, ranges", "why_tests_cant": "all reals", "anchors": ["axon_sdk/compilation/compiler.py:InputTrigger", "axon_sdk/simulator.py:Simulator.init_with_plan"]}
{"id": "C35", "title": "Operator overloads are total on numbers", "statement": "Every arithmetic operator between a Scalar and an int/float on either side yields a Scalar node with the right data. (False: number / Scalar never terminates (RecursionError).)", "quantifier": "all operand combinations", "why_tests_cant": "non-termination cannot be tested", "anchors": ["axon_sdk/compilation/scalar.py:Scalar.__rtruediv__"]}
{"id": "C36", "title": "Predictive simulator bookkeeping", "statement": "During PredSimulator.simulate the event queue holds at most one predicted spike per neuron and it is the one computed from the latest synaptic event of that neuron; processed event times never decrease (non-negative delays); per-neuron spike logs are sorted; simulate on a finished simulator raises ValueError.", "quantifier": "all networks, inputs, histories", "why_tests_cant": "invariant over all histories, cancellation", "anchors": ["axon_sdk/predictive_simulator.py:PredSimulator"]}
{"id": "C37", "title": "Predictive input honours t0", "statement": "PredSimulator.apply_input_value(v,n,t0) injects spikes at t0 and t0+interval. (False: t0 is ignored.)", "quantifier": "all t0", "why_tests_cant": "equality for all t0", "anchors": ["axon_sdk/predictive_simulator.py:PredSimulator.apply_input_value"]}
{"id": "C38", "title": "Gate updates are counted in the energy report", "statement": "The gate-type update count used by the energy/latency report equals the number of processed gate synapses. (False: it is always 0.)", "quantifier": "all simulations", "why_tests_cant": "all histories", "anchors": ["axon_sdk/predictive_simulator.py", "axon_sdk/usagereport/usagereport.py:report_energy_and_latency_for_simulation"]}
{"id": "C39", "title": "Performance estimates are monotone and consistent", "statement": "estimate_performance: total_updates, total_cycles and time are monotone in every spike count and antitone in batch size and clock; total_cycles >= 5; the total energy equals leak+idle+dynamic power times time.", "quantifier": "all counts", "why_tests_cant": "all integers", "anchors": ["axon_sdk/usagereport/power_metrics.py"]}
{"id": "C40", "title": "Chronogram reconstruction", "statement": "build_array(length, entries) gives at index i the value of the entry with the greatest index <= i (the last one in the list for equal indices), 0.0 before the first entry.", "quantifier": "all entry lists", "why_tests_cant": "all lists", "anchors": ["axon_sdk/visualization/chronogram.py:build_array"]}
{"id": "C41", "title": "Topology view", "statement": "The topology data shows every synapse leaving a top-level neuron and every synapse crossing between top-level submodules, and no synapse internal to a submodule; each shown synapse's endpoints are shown.", "quantifier": "all networks", "why_tests_cant": "all hierarchies", "anchors": ["axon_sdk/visualization/topovis.py"]}
{"id": "C42", "title": "The two simulators integrate neurons alike", "statement": "Between synaptic events the state of a neuron in Simulator (Euler steps of dt) stays within O(dt) of its state in PredSimulator (exact solution) for the same elapsed time. (True with gate=1; false with gate=0: Simulator freezes gf, PredSimulator decays it.)", "quantifier": "all neuron states, step counts and dt<=tf", "why_tests_cant": "all reals, any number of steps", "anchors": ["axon_sdk/primitives/elements.py:ExplicitNeuron.update_and_spike", "axon_sdk/primitives/elements.py:ExplicitNeuron._fast_forward"]}
{"id": "C43", "title": "Predictive simulator delivers every event exactly once", "statement": "In any run of PredSimulator the synaptic hits processed plus those pending are exactly one per injected input and one per (spike, outgoing synapse) with time spike+delay, that synapse's type, weight and target; the processed-synapse counters equal the numbers of processed hits per type.", "quantifier": "all networks, inputs, histories", "why_tests_cant": "invariant over all histories, cancellation", "anchors": ["axon_sdk/predictive_simulator.py:PredSimulator", "axon_sdk/primitives/events.py:CancelableEventQueue"]}
{"id": "C44", "title": "Usage report totals", "statement": "The spike estimate of a net is the sum of the table values of its submodules (ValueError for a class not in the table); the spike usage of a simulation is the number of spikes processed for the neurons of the net and raises ValueError before simulate; report_neuron_usage(net, print_depth) prints print_depth levels. (The last part is false: any depth >= 1 prints what depth 1 prints.)", "quantifier": "all nets and finished simulations", "why_tests_cant": "all histories and hierarchies", "anchors": ["axon_sdk/usagereport/usagereport.py"]}
{"id": "C45", "title": "Neuron to module uid map", "statement": "net.neurons_with_module_uid maps every neuron of the net to the uid of the module it was added to.", "quantifier": "all module hierarchies where a neuron is added to one module", "why_tests_cant": "all hierarchies", "anchors": ["axon_sdk/primitives/networks.py:SpikingNetworkModule.neurons_with_module_uid"]}
{"id": "C46", "title": "Signed multiplier", "statement": "SignedMultiplierNetwork: with x1 given on input1_plus or input1_minus and x2 on input2_plus or input2_minus, exactly one output (plus for equal signs, minus otherwise) emits one pair of spikes decoding to x1*x2 and the other output stays silent; a zero operand yields 0 on output_plus. (The last part is false: the inner multiplier and the outer zero detector both answer.)", "quantifier": "all operands in (0,1), signs, arrival times, encoders and time steps", "why_tests_cant": "continuum of inputs and timings", "anchors": ["axon_sdk/networks/functional/signed_multiplier.py:SignedMultiplierNetwork", "axon_sdk/networks/functional/multiplier.py:MultiplierNetwork"]}
{"id": "C47", "title": "Construction API", "statement": "After any sequence of module creations, add_neuron, add_subnetwork and connect_neurons calls every neuron has the parameters, module and name given at creation, every module lists its own neurons and submodules in call order, and the outgoing synapses of a neuron are exactly the connect_neurons calls naming it as pre-neuron, in call order; later calls only append.", "quantifier": "all construction scripts", "why_tests_cant": "all sequences of calls", "anchors": ["axon_sdk/primitives/networks.py:SpikingNetworkModule.add_neuron", "axon_sdk/primitives/networks.py:SpikingNetworkModule.connect_neurons", "axon_sdk/primitives/networks.py:SpikingNetworkModule.add_subnetwork"]}
{"id": "C48", "title": "Scaled signed multiplier", "statement": "SignedMultiplierNormNetwork(encoder, factor): with x1, x2 given on plus or minus inputs and factor*(x1*x2) at most 1 (with margin for the resolution of dt), exactly one output (plus for equal signs, minus otherwise) emits one pair of spikes decoding to factor*(x1*x2), and the other output stays silent; an operand 0 gives one pair decoding to 0.", "quantifier": "all operands, signs, factors, arrival times, encoders and time steps", "why_tests_cant": "continuum of inputs and timings", "anchors": ["axon_sdk/networks/functional/signed_multipler_norm.py:SignedMultiplierNormNetwork"]}
{"id": "C49", "title": "A compiled expression computes its value", "statement": "For every program built from Scalars with + - and *, compile_computation + Simulator.init_with_plan + simulate(T) + decode_output returns the value of the program, up to an error computed from the time step only, provided every intermediate value stays in the range max_range allows (positive and negative parts of each sum at most max_range, products of numbers strictly inside the range, no tiny negative sum) and T is long enough; sums and differences of inputs on the time grid are returned exactly. (A sum that is negative but closer to 0 than 1/10000 of the range yields no output at all.)", "quantifier": "all programs (expression DAGs), inputs, ranges, time steps, set iteration orders", "why_tests_cant": "unbounded DAGs, a continuum of inputs", "anchors": ["axon_sdk/compilation/compiler.py:compile_computation", "axon_sdk/simulator.py:Simulator.init_with_plan", "axon_sdk/simulator.py:Simulator.simulate", "axon_sdk/simulator.py:decode_output"]}
{"id": "C50", "title": "Division", "statement": "DivNetwork(encoder): with x1 presented on input1 and x2 on input2, 0 < x1 <= x2 < 1, the output emits exactly one pair of spikes decoding to x1/x2 up to an error of the order of the time step; with x1 > x2 (by more than the resolution) it emits nothing, as documented. (The documented domain [0, 1] is too large: a zero numerator gives no output at all, and dividing by exactly 1 gives a result smaller than x1 by the factor exp(-1/20), about 5 per cent.)", "quantifier": "all operands, arrival times, encoders, time steps and update orders", "why_tests_cant": "continuum of inputs and timings", "anchors": ["axon_sdk/networks/functional/divider.py:DivNetwork", "axon_sdk/networks/functional/divider.py:LogAndSyncNetwork"]}
{"id": "C51", "title": "The matrix product example", "statement": "regular_matmul(A, B) and strassen_matmul(A, B) return 2x2 matrices of Scalars holding the matrix product, leaving all existing Scalars unchanged (Strassen in exact arithmetic only: in floats the two disagree, by more than a rounding error of the entries); sum_mat adds up all entries of a rectangular matrix of any size; the example script's result, for any entries, holds the sum of the entries of A*B and compiles exactly if all entries are at most max_range and max_range is at most 100.", "quantifier": "all matrix entries, all matrix sizes for sum_mat, all max_range", "why_tests_cant": "continuum of entries", "anchors": ["axon_sdk/networks/examples/matmul.py:regular_matmul", "axon_sdk/networks/examples/matmul.py:strassen_matmul", "axon_sdk/networks/examples/matmul.py:sum_mat"]}
{"id": "C52", "title": "A network back at rest can be used again", "statement": "If a simulation of T1 (a whole number of steps) leaves no event pending and every neuron in the state it was created with, then in one longer simulation further inputs presented T1 later produce exactly the spikes and voltages they produce on a newly built network, shifted by T1, and this holds for any number of rounds. ExponentialNetwork, LogNetwork (0 < x < 1 up to the resolution), ScalarMultiplierNetwork and MemoryNetwork do come back to rest, so one instance computes any list of values presented far enough apart. (False of every network: after a product with a zero factor MultiplierNetwork answers 0 to the next product, and after log(0) LogNetwork's next answer is wrong.)", "quantifier": "all networks, all inputs of the rounds, all numbers of rounds, all update orders, encoders and time steps", "why_tests_cant": "unbounded histories, continuum of inputs", "anchors": ["axon_sdk/simulator.py:Simulator.simulate", "axon_sdk/simulator.py:Simulator.apply_input_value", "axon_sdk/networks/functional/exponential.py:ExponentialNetwork", "axon_sdk/networks/functional/natural_log.py:LogNetwork", "axon_sdk/networks/functional/multiplier.py:MultiplierNetwork"]}
{"id": "C53", "title": "PredSimulator computes the solution of the network's neuron equations", "statement": "For a network whose synapses all have positive delay and whose neurons reset below threshold: if every neuron's spike train F(n) is the response of that neuron alone to the timetable of hits it receives (the injected spikes, and one hit per spike of each presynaptic neuron, delay later, hits at the same instant summed), then PredSimulator.simulate() terminates without exception and its spike_log is F; so such F is unique. Between hits a neuron's next spike is, under excitatory drive, the first multiple of dt after its last hit at which the exact solution of its differential equations reaches Vt, if that is within the prediction horizon.", "quantifier": "all networks, weights, delays, injected spikes, time steps", "why_tests_cant": "unbounded networks and spike histories; continuum of times", "anchors": ["axon_sdk/predictive_simulator.py:PredSimulator.simulate", "axon_sdk/primitives/elements.py:ExplicitNeuron", "axon_sdk/primitives/events.py:CancelableEventQueue"]}
{"id": "C54", "title": "The library's memories, logarithm and exponential on PredSimulator", "statement": "On PredSimulator with any dt between 1e-6 and 500 ms, MemoryNetwork recalls x, InvertingMemoryNetwork recalls 1-x, LogNetwork answers the encoded -20 ln x and ExponentialNetwork exp(-x Tcod/20): two output spikes at most one dt (inverting memory: the larger of dt and the library's 0.01 ms) from the exact interval, independently of t0. This needs every crossing to lie within the 500 ms prediction horizon: a later crossing is lost and the output spikes once only.", "quantifier": "all values, recall times, encoders, time steps", "why_tests_cant": "continuum of inputs and encoder settings", "anchors": ["axon_sdk/predictive_simulator.py:PredSimulator.simulate", "axon_sdk/networks/memory/memory.py:MemoryNetwork", "axon_sdk/networks/memory/inverting_memory.py:InvertingMemoryNetwork", "axon_sdk/networks/functional/natural_log.py:LogNetwork", "axon_sdk/networks/functional/exponential.py:ExponentialNetwork"]}
{"id": "C55", "title": "Arithmetic networks on PredSimulator", "statement": "On PredSimulator, ConstantNetwork, SignedConstantNetwork, SignFlipperNetwork and SubtractorNetwork give the exact value (spike intervals decode with no error at all, for every dt between 1e-6 and 500 ms), on the output of the right sign and with the other output silent; ScalarMultiplierNetwork gives f*x within max(1, f)*dt. (False: SubtractorNetwork gives no output for differences strictly between -0.01 ms and 0; a scalar factor below 1 applied to 0 gives three spikes; a factor with (Tmin+Tcod)/f >= 500 ms gives nothing.)", "quantifier": "all values, factors, recall times, encoders, time steps", "why_tests_cant": "continuum of inputs and encoder settings", "anchors": ["axon_sdk/predictive_simulator.py:PredSimulator.simulate", "axon_sdk/networks/memory/constant.py:ConstantNetwork", "axon_sdk/networks/memory/signed_constant.py:SignedConstantNetwork", "axon_sdk/networks/functional/signflip.py:SignFlipperNetwork", "axon_sdk/networks/functional/subtractor.py:SubtractorNetwork", "axon_sdk/networks/functional/scalar_multiplier.py:ScalarMultiplierNetwork"]}
{"id": "C56", "title": "Synchronizer, linear combinator and adder on PredSimulator", "statement": "On PredSimulator, SynchronizerNetwork with up to 316 channels re-emits every input value within one dt, all outputs starting at the same instant, after the last input, and stays silent while an input is missing; LinearCombinatorNetwork and AdderNetwork give the weighted sum on the output of its sign, with the other output silent, within one dt whatever the number of inputs and coefficients. (False: from 317 channels on the synchronizer releases with one input missing, and the missing channel emits the value 1; negative sums nearer to 0 than 0.01 ms give no output.)", "quantifier": "all numbers of inputs, coefficients, signed values, arrival times, encoders, time steps", "why_tests_cant": "unbounded number of inputs, continuum of values", "anchors": ["axon_sdk/predictive_simulator.py:PredSimulator.simulate", "axon_sdk/networks/connecting/synchronizer.py:SynchronizerNetwork", "axon_sdk/networks/functional/linear_combinator.py:LinearCombinatorNetwork", "axon_sdk/networks/functional/adder.py:AdderNetwork"]}
{"id": "C57", "title": "Library constructors: what they accept and what they build", "statement": "In any program that builds library networks, each constructor call succeeds or raises as follows: ZeroDivisionError when it divides by an encoder constant that is zero (Tmax for the memories, synchronizers with a channel, adder, linear combinator, scalar multiplier, sign flipper, normalised multiplier and divider; Tcod for sign flipper, exponential, logarithm, the multipliers and the divider), IndexError when LinearCombinatorNetwork gets fewer coefficients than inputs, otherwise never. A network just built has a fixed number of neurons, all new and with the standard parameters (Vt 10, tm 100, tf 20, Vreset 0), its module lists exactly these neurons, all its synapses stay inside it, and earlier networks are unchanged: no synapse joins two networks until the user connects them. (False for IntegratorNetwork, which raises TypeError whatever its arguments.)", "quantifier": "all sequences of constructor calls, encoders, channel counts and coefficient lists, in any number system", "why_tests_cant": "unbounded sequences of calls and sizes", "anchors": ["axon_sdk/networks/functional/integrator.py:IntegratorNetwork", "axon_sdk/networks/functional/linear_combinator.py:LinearCombinatorNetwork", "axon_sdk/networks/connecting/synchronizer.py:SynchronizerNetwork", "axon_sdk/networks/functional/divider.py:DivNetwork", "axon_sdk/primitives/networks.py:SpikingNetworkModule"]}
{"id": "C58", "title": "Multipliers on PredSimulator", "statement": "On PredSimulator, MultiplierNetwork emits the product of two operands in (0, 1) as one pair of spikes, within the larger of dt/Tcod and dt/10 of the product, whatever the arrival times of the operands, and exactly 0 when an operand is 0; SignedMultiplierNetwork emits the product on the output of its sign and nothing on the other. (False: with the second operand 1 the output says 1 whatever the first; with the first operand 1 it is too large by the factor exp(1/20); with a signed operand 0 four spikes come out on output_plus, or both outputs spike.)", "quantifier": "all operands, signs, arrival times, encoders, time steps", "why_tests_cant": "continuum of inputs and encoder settings", "anchors": ["axon_sdk/predictive_simulator.py:PredSimulator.simulate", "axon_sdk/networks/functional/multiplier.py:MultiplierNetwork", "axon_sdk/networks/functional/signed_multiplier.py:SignedMultiplierNetwork"]}
{"id": "C59", "title": "Divider, signed memory and normalised multiplier on PredSimulator", "statement": "On PredSimulator, DivNetwork emits x1/x2 for 0 < x1 <= x2 < 1 within about dt/Tcod + (x1/x2) dt/20, whatever the arrival times, and nothing when x1 exceeds x2 beyond the resolution; SignedMemoryNetwork recalls x within one dt on the output of the sign it was stored with, starting 4 ms after the recall, the other output silent; SignedMultiplierNormNetwork emits factor * x1 * x2 on the output of its sign and nothing on the other, and exactly 0 if an operand is 0 and factor >= 1. (False: DivNetwork gives no output for numerator 0 and a result smaller by exp(-1/20) for denominator 1; with an operand 0 and a factor below 1 the normalised multiplier emits a third spike, on both outputs.)", "quantifier": "all operands, signs, factors, arrival and recall times, encoders, time steps", "why_tests_cant": "continuum of inputs and encoder settings", "anchors": ["axon_sdk/predictive_simulator.py:PredSimulator.simulate", "axon_sdk/networks/functional/divider.py:DivNetwork", "axon_sdk/networks/memory/signed_memory.py:SignedMemoryNetwork", "axon_sdk/networks/functional/signed_multipler_norm.py:SignedMultiplierNormNetwork"]}
{"id": "C60", "title": "Subtractor, signed constant and sign flipper in binary64", "statement": "In the floating-point arithmetic Python uses, for every binary64 input with dt between 2^-12 and 1/256 ms: SubtractorNetwork emits x1-x2 on output_plus and nothing on output_minus when x1 >= x2, and x2-x1 on output_minus and nothing on output_plus when x2-x1 is at least 0.01 ms + dt, within 2 dt (plus 2^-30 ms of rounding); SignedConstantNetwork emits |v| within one dt on the output of the sign of v only, and SignFlipperNetwork re-emits x within one dt on the opposite output only. (False: a subtractor used again after a zero result can lose the next negative result because rounding makes its zero detector fire twice; this does not happen in exact arithmetic.)", "quantifier": "all binary64 values, injection times, encoders, time steps, processing orders", "why_tests_cant": "the set of doubles is too large to enumerate, and rounding makes neighbouring inputs behave differently", "anchors": ["axon_sdk/networks/functional/subtractor.py:SubtractorNetwork", "axon_sdk/networks/memory/signed_constant.py:SignedConstantNetwork", "axon_sdk/networks/functional/signflip.py:SignFlipperNetwork", "axon_sdk/simulator.py:Simulator.simulate"]}
{"id": "C61", "title": "Subtractor and synchronizer used again and again", "statement": "A SubtractorNetwork that is given a new pair of operands every 6 ms + 2 Tmin + Tcod + 4 dt or more emits, for every pair, the difference on the output of its sign and nothing on the other, exactly as a new network would, whatever was computed before and however many times; a SynchronizerNetwork of up to 316 channels, used again after 2 Tmax + 10 ms + 13 dt plus the largest delay between channels, re-emits every time all the values of that round with a common start. (False after a difference that was lost for being negative and nearer to 0 than 0.01 ms: the next negative result then appears on both outputs.)", "quantifier": "all sequences of computations of any length, all operands, start times, encoders, time steps, processing orders", "why_tests_cant": "unbounded histories of earlier computations over a continuum of inputs", "anchors": ["axon_sdk/networks/functional/subtractor.py:SubtractorNetwork", "axon_sdk/networks/connecting/synchronizer.py:SynchronizerNetwork", "axon_sdk/simulator.py:Simulator.simulate"]}
{"id": "C62", "title": "Linear combinator and adder used again and again", "statement": "A LinearCombinatorNetwork with any coefficients that is given new signed operands, each at its own time, every 4 Tmax + 2 Tmin + 21 ms + dt or more after the last operand delay of the round before, emits for every round the sum on the output of its sign and nothing on the other, within the error of a single computation, whatever was computed before and however many times; an AdderNetwork on operands that are multiples of the time step gives every sum exactly. (Sums that are negative and nearer to 0 than 0.01 ms are excluded: they are lost, and the subtractor inside is then not at rest.)", "quantifier": "all sequences of computations of any length, all coefficient lists, operands, arrival times, encoders, time steps, processing orders", "why_tests_cant": "unbounded histories of earlier computations over a continuum of inputs", "anchors": ["axon_sdk/networks/functional/linear_combinator.py:LinearCombinatorNetwork", "axon_sdk/networks/functional/adder.py:AdderNetwork", "axon_sdk/simulator.py:Simulator.simulate"]}
{"id": "C63", "title": "Constants, sign flipper and inverting memory used again and again", "statement": "Every recall of a ConstantNetwork or SignedConstantNetwork, 1 ms + the interval of the constant + 2 dt or more after the one before, gives one more pair of spikes for the constant (on the output of its sign, the other output stays silent); a SignFlipperNetwork moves every value of a sequence, given on either input every 1 ms + Tmax + 2 dt or more, to the output of the other sign, one pair each; an InvertingMemoryNetwork in a history of stores (each recalled once) and of further recalls gives 1 - x for every stored x, and its reads are destructive: a recall with nothing stored since the last one gives 1, whatever had been stored before.", "quantifier": "all sequences of recalls, values and stores of any length, all values, times, recall delays, encoders, time steps, processing orders", "why_tests_cant": "unbounded histories of earlier uses over a continuum of inputs", "anchors": ["axon_sdk/networks/memory/constant.py:ConstantNetwork", "axon_sdk/networks/memory/signed_constant.py:SignedConstantNetwork", "axon_sdk/networks/functional/signflip.py:SignFlipperNetwork", "axon_sdk/networks/memory/inverting_memory.py:InvertingMemoryNetwork"]}
{"id": "C64", "title": "Multiplier used again and again", "statement": "A MultiplierNetwork that is given a new pair of operands, both strictly between 0 and 1 (by 4 dt of coding time at 0 and 2 dt at 1), at any two arrival times, emits for every pair one pair of spikes for their product, within the error of a single computation, whatever was computed before and however many times, if each round starts 355 ms + 2 Tmax + the later operand's delay or more after the one before. (355 ms, because the network's zero detector hears the operands 350 ms late; zero products are excluded, after one the network is not at rest.)", "quantifier": "all sequences of computations of any length, all operands, arrival times, encoders, time steps, processing orders", "why_tests_cant": "unbounded histories of earlier computations over a continuum of inputs", "anchors": ["axon_sdk/networks/functional/multiplier.py:MultiplierNetwork", "axon_sdk/simulator.py:Simulator.simulate"]}
{"id": "C65", "title": "Divider used again and again", "statement": "A DivNetwork that is given a new pair of operands 0 < x1 <= x2 < 1 emits for every pair one pair of spikes for x1/x2, within the error of a single division, whatever was computed before and however many times, if each round starts 18 ms + 5 Tmin + 2 Tcod + 20 ms * -ln(x1) + the later operand's delay or more after the one before: operands on the time grid may arrive at any two times, other operands arrive together.", "quantifier": "all sequences of divisions of any length, all operands, arrival times, encoders, time steps, processing orders", "why_tests_cant": "unbounded histories of earlier computations over a continuum of inputs", "anchors": ["axon_sdk/networks/functional/divider.py:DivNetwork", "axon_sdk/simulator.py:Simulator.simulate"]}
{"id": "C66", "title": "Signed multiplier used again and again", "statement": "A SignedMultiplierNetwork that is given a new pair of operands of any signs, each strictly between 0 and 1 in size (by 4 dt of coding time at 0 and 2 dt at 1), at any two arrival times, emits for every pair one pair of spikes for the size of the product on the output of its sign and nothing on the other output, within the error of a single computation, whatever was computed before and however many times, if each round starts 356 ms + 2 Tmin + 3 Tcod + the later operand's delay or more after the one before. (Zero products are excluded: they put spikes on both outputs.)", "quantifier": "all sequences of computations of any length, all operands and signs, arrival times, encoders, time steps, processing orders", "why_tests_cant": "unbounded histories of earlier computations over a continuum of inputs", "anchors": ["axon_sdk/networks/functional/signed_multiplier.py:SignedMultiplierNetwork", "axon_sdk/simulator.py:Simulator.simulate"]}
{"id": "C67", "title": "Signed normalising multiplier used again and again", "statement": "A SignedMultiplierNormNetwork with a positive scale factor f that is given a new pair of operands of any signs, each strictly between 0 and 1 in size, at any two arrival times, emits for every pair one pair of spikes for f times the size of the product on the output of its sign and nothing on the other output, within the error of a single computation, whatever was computed before and however many times, if each round starts 356 ms + 5 Tmin + 4 Tcod + Tmax/f + the later operand's delay or more after the one before. (Products that are too close to 0 or to 1/f for a single computation are excluded, as in the theorem for one computation.)", "quantifier": "all sequences of computations of any length, all operands and signs, scale factors, arrival times, encoders, time steps, processing orders", "why_tests_cant": "unbounded histories of earlier computations over a continuum of inputs", "anchors": ["axon_sdk/networks/functional/signed_multipler_norm.py:SignedMultiplierNormNetwork", "axon_sdk/simulator.py:Simulator.simulate"]}
{"id": "C68", "title": "A compiled expression evaluated again and again", "statement": "compile_computation is run once on an expression of + - *; the input neurons of the plan can then be fed, in one simulation, any number of rounds of inputs (the compiled program's own, as Simulator.init_with_plan does, or other values), each round when the time of the one before is over. Every round puts exactly one pair of spikes on exactly one of the two output neurons, within its own time window, and the pair encodes the value of the expression on that round's inputs with the error of a single evaluation, whatever was evaluated before; at the end the whole network is in its initial state and no event is left. Each round needs the time of a single evaluation plus 250 ms; products must have factors and result away from 0 and 1 by a few time steps; the error is 0 for sums of inputs on the time grid. Simulator.decode_output cannot read such a transcript: after two or more rounds it raises ValueError.", "quantifier": "all expressions (DAGs of any size), all sequences of input values of any length, ranges, time steps, processing orders", "why_tests_cant": "unbounded histories of earlier evaluations over a continuum of inputs, and unbounded expressions", "anchors": ["axon_sdk/compilation/compiler.py:compile_computation", "axon_sdk/simulator.py:Simulator.init_with_plan", "axon_sdk/simulator.py:Simulator.simulate", "axon_sdk/networks/functional/adder.py:AdderNetwork", "axon_sdk/networks/functional/signed_multipler_norm.py:SignedMultiplierNormNetwork", "axon_sdk/networks/functional/signflip.py:SignFlipperNetwork"]}
{"id": "C69", "title": "Two synchronised logarithms, again and again", "statement": "LogAndSyncNetwork(encoder), given operands x1 and x2 strictly between 0 and 1 (by a few time steps) at any two arrival times, puts one pair of spikes on each output, Tmin - 20 ln(x1) and Tmin - 20 ln(x2) apart up to an error of the order of the time step, and the first spikes of the two pairs coincide; this holds for every round of operands given to the same network, whatever was computed before, if each round starts when the time of the one before is over. (The docstring says in [0,1]: with an operand of exactly 1 the outputs are not synced - refuted.)", "quantifier": "all sequences of operand pairs of any length, arrival times, encoders, time steps, processing orders", "why_tests_cant": "unbounded histories of earlier computations over a continuum of inputs", "anchors": ["axon_sdk/networks/functional/divider.py:LogAndSyncNetwork", "axon_sdk/simulator.py:Simulator.simulate"]}
{"id": "C70", "title": "Memory: any history of stores and recalls", "statement": "In any history of stores (each recalled once, 2 ms + Tmax + 3 dt or more after the store began) and further recalls of a MemoryNetwork, each started when the one before is over, every store gives one pair of output spikes that decodes to the stored value (up to 3 dt/Tcod) and one ready spike, and every recall with nothing stored since the last one gives one pair that decodes to 1 and no ready spike: reads are destructive, whatever had been stored before. (A store does not overwrite a value that was never recalled: the two add up, and the output may spike without a recall - refuted.)", "quantifier": "all histories of stores and recalls of any length, values, times, encoders, time steps, processing orders", "why_tests_cant": "unbounded histories over a continuum of values and times", "anchors": ["axon_sdk/networks/memory/memory.py:MemoryNetwork", "axon_sdk/simulator.py:Simulator.simulate"]}
{"id": "C71", "title": "Inverting memory: a store over an unrecalled value adds to it", "statement": "If two values x1 and x2 are stored in an InvertingMemoryNetwork, the second after the first is complete, and the memory is then recalled once, the recall gives one pair of output spikes that decodes to 1 - x1 - x2 (up to (5 dt + 0.01)/Tcod), whenever that leaves a positive interval: a store does not overwrite. More generally the recall after any number n of such stores gives 1 minus the sum of all the values (up to ((2 n + 2) dt + 0.01)/Tcod). If x1 + x2 >= 1 + (Tmin + 5 dt)/Tcod, the output spikes once during the second store, 3 ms + 2 Tmin + (1 - x1) Tcod after it began (up to 4 dt), although the memory is never recalled. (That the last value stored is the one recalled is refuted.)", "quantifier": "all numbers of stores, values, store and recall times, encoders, time steps, processing orders", "why_tests_cant": "unbounded histories over a continuum of values, times and encoder settings", "anchors": ["axon_sdk/networks/memory/inverting_memory.py:InvertingMemoryNetwork", "axon_sdk/simulator.py:Simulator.simulate"]}
