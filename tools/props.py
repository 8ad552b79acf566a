import json
P=[]
def p(title,statement,quant,why,anchors):
    P.append(dict(id="C%02d"%(len(P)+1),title=title,statement=statement,quantifier=quant,why_tests_cant=why,anchors=anchors))
p("Interval code round-trip",
  "For a DataEncoder with Tcod != 0, encode_value(x) succeeds exactly for 0<=x<=1 (AssertionError otherwise), returns a pair starting at 0 whose difference is Tmin + x*Tcod, and decode_interval of that difference gives back x; for Tcod>0 the interval lies in [Tmin,Tmax] and is strictly increasing in x. Exact arithmetic. With binary64 numbers the round trip is not exact, but encode_value still accepts exactly the finite floats in [0,1], the interval stays in [Tmin,Tmax], the round trip is monotone and its error is at most 3*2^(e-54)/Tcod + 2^-53 when Tmin+Tcod <= 2^e (2^-51 for the default encoder).",
  "all Tmin, Tcod, all x","infinitely many values and encoder parameters",
  ["axon_sdk/primitives/encoders.py:DataEncoder"])
p("Due-event queue returns exactly the due events, in time order",
  "For any history of add_event/pop_events calls on a SpikeEventQueue, pop_events(t) returns every event added so far and not yet popped whose time is <= t, each exactly once, in non-decreasing time order, and leaves exactly the later ones queued; the underlying heap order is maintained. Holds for any totally ordered time values (binary64 without NaN included).",
  "all operation histories, all times, all t","heap shape depends on the whole history; ties and interleavings are unbounded",
  ["axon_sdk/primitives/events.py:SpikeEventQueue"])
p("Cancelable queue refines a time-indexed multimap",
  "For any history of add_event/remove/pop on a CancelableEventQueue: pop returns, in insertion order, all live (not removed, not popped) events of the earliest time that has a live event; a removed event is never returned; removal of an absent event is a no-op; len is the number of distinct times with a live event; pop raises IndexError only when no time is pending, and returns [] only when every pending event was removed.",
  "all operation histories","stale heap times left behind by removals interact with later adds at the same time",
  ["axon_sdk/primitives/events.py:CancelableEventQueue"])
p("Skipping idle neurons is unobservable",
  "Simulator.simulate, which only updates neurons that received an event or are active, yields the same spike log, same event deliveries and same final neuron states as updating every neuron of the net on every timestep, provided each neuron's Vreset is below its threshold and neurons start at rest; without Vreset<Vt this fails.",
  "all networks, all inputs, all dt, all durations","the optimisation depends on the global state at every timestep of every network",
  ["axon_sdk/simulator.py:Simulator.simulate","axon_sdk/primitives/elements.py:AbstractNeuron.update_and_spike"])
p("Simulation result does not depend on set iteration order",
  "In exact arithmetic the spike log (per neuron), the per-neuron voltage log, the processed-synapse counters and the neuron states after simulate() are the same whatever order Python iterates the set of neurons to simulate in each timestep and however the heap orders simultaneous events. With binary64 rounding the order of simultaneous events can change the result.",
  "all networks, inputs, all (even per-step varying) iteration orders","hash/iteration order differs between runs and platforms",
  ["axon_sdk/simulator.py:Simulator.simulate","axon_sdk/primitives/events.py:SpikeEventQueue"])
p("Every synaptic event is delivered exactly once at the right timestep",
  "A spike emitted at timestep j through a synapse with delay d changes the target neuron exactly once, at timestep j+max(1,ceil(d/dt)); an input spike at time tau reaches the target at step max(1,ceil((tau+d)/dt)); nothing else changes a neuron's inputs; the number of processed events per type equals the number of events that became due. In any arithmetic (binary64 included) and after any history of calls, events processed plus events queued of a type are exactly one per synapse of that type and logged spike of its source, and simulate leaves no overdue event queued.",
  "all networks, inputs, timesteps","must hold for every event of every history",
  ["axon_sdk/simulator.py:Simulator.simulate","axon_sdk/simulator.py:Simulator.apply_input_spike"])
p("Spike log soundness",
  "Spikes logged by simulate() for a neuron are at times k*dt with strictly increasing k, at most one per timestep, exactly at those timesteps where the membrane potential after the update is >= Vt; after the spike V=Vreset and ge=gf=gate=0; every logged voltage is below Vt when Vreset<Vt. In any arithmetic each step adds at most one entry per neuron, in step order, stamped (i+1)*dt, and in binary64 the stamped times are strictly increasing.",
  "all networks, inputs, durations","trace property",
  ["axon_sdk/simulator.py:Simulator.simulate","axon_sdk/primitives/elements.py:ExplicitNeuron.reset"])
p("Simulating longer only extends the logs",
  "For the same inputs, the spike and voltage logs of a simulation of duration T1 are prefixes of those for any T2>=T1; consequently a decoded result, once both spikes are out, does not change if simulation_time is increased except by additional spikes appended. In any arithmetic the same holds when the step count does not decrease; in binary64, simulating up to exactly the k-th simulated time runs k or k-1 steps (and k-1 does happen, losing the last step).",
  "all networks, all T1<=T2","unbounded durations",
  ["axon_sdk/simulator.py:Simulator.simulate"])
p("simulate() can be split into consecutive calls",
  "simulate(a) followed by simulate(b) on the same Simulator is the same as one simulate of the total duration. (Expected by users, false of the code: time restarts at dt and the active set is dropped.)",
  "all networks, all a,b","needs reasoning about hidden state left between calls",
  ["axon_sdk/simulator.py:Simulator.simulate"])
p("Input injection",
  "apply_input_value(v, n, t0) raises ValueError and changes nothing when v is outside [0,1]; otherwise it logs exactly two spikes for n, at t0 and t0+Tmin+v*Tcod, and schedules for every outgoing synapse of n exactly one event per spike at spike time + delay with that synapse's type, weight and target; no other neuron's log or state changes.",
  "all nets, values, times","ranges over all values and topologies",
  ["axon_sdk/simulator.py:Simulator.apply_input_value","axon_sdk/simulator.py:Simulator.apply_input_spike"])
p("Time-shift invariance",
  "Delaying all inputs by a whole number m of timesteps delays every spike produced by the network by exactly m timesteps and changes nothing else.",
  "all networks, inputs, m","relational property over pairs of runs",
  ["axon_sdk/simulator.py:Simulator"])
p("Independent modules do not interfere",
  "If the neurons of a module receive no synapses from outside the module then its spikes are the same when it is simulated inside any larger network as when the rest of the network is absent.",
  "all networks, all surrounding networks and inputs","relational property over all contexts",
  ["axon_sdk/primitives/networks.py:SpikingNetworkModule","axon_sdk/simulator.py:Simulator.simulate"])
p("decode_output and count_spikes",
  "decode_output raises ValueError iff both readout neurons spiked or one of them spiked a number of times other than 0 or 2; returns None iff none spiked; otherwise returns +norm or -norm times the decoded interval of the two spikes of the '+' or '-' neuron. count_spikes is the sum over neurons of the logged spikes.",
  "all spike logs","all logs",
  ["axon_sdk/simulator.py:decode_output","axon_sdk/simulator.py:count_spikes"])
p("simulate() does not raise on well-formed networks",
  "If every neuron reachable by a synapse belongs to the simulated net, all synapse types are one of V, ge, gf, gate, all tm, tf are nonzero and dt is nonzero then simulate() completes without exception; each of these conditions is necessary in the sense that violating it can raise. In any arithmetic, from any reachable state, the only possible failure is the computation of the step count.",
  "all networks, inputs, durations","absence of exceptions over all histories",
  ["axon_sdk/simulator.py:Simulator.simulate","axon_sdk/primitives/elements.py:AbstractNeuron"])
p("Closed form of the Euler dynamics",
  "With constant inputs for n timesteps an (unspiking) neuron's V grows by n*dt*ge/tm plus gate-driven (gf*tf/tm)*(1-(1-dt/tf)^n) for gate=1, gf being multiplied by (1-dt/tf)^n; with gate=0 gf is frozen. The gap to the documented ODE solution is O(dt).",
  "all n, dt, states","unbounded number of steps",
  ["axon_sdk/primitives/elements.py:AbstractNeuron.update_and_spike"])
p("fast-forward solves the documented ODE",
  "The predictive neuron's fast-forward over an interval s yields V(s), gf(s) satisfying tm dV/ds = ge+gate*gf, tf dgf/ds=-gf from the current state when gate is 0 or 1, and fast-forwarding a then b equals fast-forwarding a+b. For other gate values V does not follow the equation.",
  "all states and intervals","real-analytic statement",
  ["axon_sdk/primitives/elements.py:ExplicitNeuron._fast_forward"])
p("Spike prediction finds the first threshold crossing on the grid",
  "When the predicted membrane trajectory is monotone in time, the prediction returns the least multiple of dt below the horizon at which V>=Vt, and None iff there is none; when it is not monotone a real crossing can be missed.",
  "all neuron states, dt, horizons < 2^64 steps","binary search correctness",
  ["axon_sdk/predictive_simulator.py:PredSimulator._predict_spike_steps_fixed"])
p("Neuron identifiers are unique",
  "Two distinct neurons created in a process never have the same uid, whatever names and modules they are given, and distinct modules never have the same uid; so the uid-keyed spike_log and voltage_log never mix two neurons.",
  "all creation histories, all name strings","string-format injectivity over all names",
  ["axon_sdk/primitives/elements.py:AbstractNeuron.__init__","axon_sdk/primitives/networks.py:SpikingNetworkModule.__init__"])
p("Module neuron enumeration",
  "net.neurons lists exactly the neurons added to the module or, recursively, to its submodules, own neurons first, depth first, each once for tree-shaped hierarchies; flatten_nested_list returns the leaves of any nested list in depth-first order.",
  "all hierarchies / nested lists","unbounded nesting",
  ["axon_sdk/primitives/networks.py:SpikingNetworkModule.neurons","axon_sdk/primitives/helpers.py:flatten_nested_list"])
p("Constant network",
  "Triggering recall once makes ConstantNetwork(value) emit exactly two output spikes whose interval decodes to value within dt/Tcod (exactly when Tsyn, Tmin and value*Tcod are multiples of dt); SignedConstantNetwork does so on the output of value's sign and keeps the other silent.",
  "all value>=0 (resp. any sign), encoders with Tmin>dt, all dt>0, trigger times","continuum of parameters",
  ["axon_sdk/networks/memory/constant.py","axon_sdk/networks/memory/signed_constant.py"])
p("Sign flipper",
  "A value presented on one input of SignFlipperNetwork comes out on the opposite output with exactly the same spike interval in timesteps, the same-sign output stays silent.",
  "all spike trains/values, dt","all inputs",
  ["axon_sdk/networks/functional/signflip.py"])
p("Memory network stores and recalls any value",
  "After apply_input_value(x,input,t0) and a recall spike later than storage completion, MemoryNetwork emits exactly two output spikes whose interval equals the (timestep-quantised) input interval, so the recalled value differs from x by at most dt/Tcod when the 1 ms synapse delay is a whole number of timesteps (exactly x when the value is on the grid too, at most 3 dt/Tcod for any dt up to 0.5); ready fires exactly once, and the network is then back in its initial state: for any number of store/recall cycles, each started after the previous replay, the output is exactly one such pair per cycle and ready one spike per cycle.",
  "all finite sequences of cycles (x in [0,1], store time, recall time), Tmin,Tcod, dt","continuum of values; rounding of every event to timesteps",
  ["axon_sdk/networks/memory/memory.py"])
p("Inverting memory recalls 1-x",
  "InvertingMemoryNetwork recalls 1-x within a bounded number of timesteps of error for every x and recall time after storage.",
  "all x, encoders, dt","continuum",
  ["axon_sdk/networks/memory/inverting_memory.py"])
p("Signed memory",
  "SignedMemoryNetwork recalls the stored magnitude on the output of the sign it was stored with and keeps the other output silent. (It cannot be used again with the other sign: the second value is lost.)",
  "all x, signs, recall times","continuum",
  ["axon_sdk/networks/memory/signed_memory.py"])
p("Subtractor",
  "For inputs x1,x2 presented simultaneously exactly one of the outputs emits two spikes with interval Tmin+|x1-x2|*Tcod (up to timestep quantisation), '+' when x1>=x2 and '-' otherwise. (The code violates this for 0<x2-x1 below about Tneu/Tcod, and for equal inputs when dt>=2*Tneu.)",
  "all x1,x2, encoders, dt","continuum; near-equal inputs are exactly where it fails",
  ["axon_sdk/networks/functional/subtractor.py"])
p("Synchronizer waits for all N inputs",
  "SynchronizerNetwork(N) releases the stored values only after all N inputs were stored, all outputs' first spikes coincide, and each output reproduces its own input interval. (Violated for N>=317 because of the +0.0001 in the weight.)",
  "all N, values, arrival times","unbounded N; accumulated weight",
  ["axon_sdk/networks/connecting/synchronizer.py"])
p("Scalar multiplier",
  "ScalarMultiplierNetwork(factor) maps an input value x with factor*x<1 to an output pair decoding to factor*x within a bounded number of timesteps.",
  "all factor>0, x","continuum",
  ["axon_sdk/networks/functional/scalar_multiplier.py"])
p("Linear combinator / adder",
  "LinearCombinatorNetwork(N, coeff) with one signed value per input outputs sum(coeff_i*x_i) on the output of the proper sign within a stated error, for |sum| in range; AdderNetwork is the coefficient-1 instance. In binary64 the N-fold accumulation of we/N can stay below threshold so that for N=9 nothing is ever output.",
  "all N, coefficients, values, dt","unbounded N and continuum of values",
  ["axon_sdk/networks/functional/linear_combinator.py","axon_sdk/networks/functional/adder.py"])
p("Exponential network",
  "ExponentialNetwork outputs an interval Tmin + Tcod*rho^n up to timestep quantisation, rho=1-dt/tf and n the quantised x*Tcod/dt, which is within O(dt) of Tmin+Tcod*exp(-x*Tcod/tf).",
  "all x, encoders, dt","continuum, real analysis",
  ["axon_sdk/networks/functional/exponential.py"])
p("Log network",
  "LogNetwork outputs an interval within O(dt) of Tmin+tf*ln(1/x) for x>0 and emits only one output spike for x=0.",
  "all x, encoders, dt","continuum",
  ["axon_sdk/networks/functional/natural_log.py"])
p("Multiplier",
  "Given two values in [0,1] at any times, MultiplierNetwork emits exactly one output pair, decoding to x1*x2 within an error of order dt: proved for products of operands in (0,1) down to e^-14 (e^-16 for operands on the time grid), and exactly 0 when an operand is 0. For an operand equal to 1 the claim is false of the code: x*1 decodes to 1 for every x<1 (even x=0), and 1*x is 5 to 10 percent too large.",
  "all x1,x2, dt","continuum",
  ["axon_sdk/networks/functional/multiplier.py"])
p("Tracing a computation visits each reachable node once",
  "trace(root) returns every Scalar reachable from root exactly once, root first, and exactly the parent->child pairs between them, for any expression DAG built with the operators; each node's data is its operator applied to its operands' data.",
  "all expression DAGs, sharing included","unbounded graphs",
  ["axon_sdk/compilation/scalar.py:trace","axon_sdk/compilation/scalar.py:Scalar"])
p("Compilation preserves the computation graph",
  "compile_computation succeeds for every DAG over Load/+/-/neg/* whose load values are within range and fails for any DAG containing an unsupported op (Div, although documented as supported); the produced plan has one module per node of the matching kind, for every operand edge exactly one '+'->'+' and one '-'->'-' V synapse of weight 10 and delay 1 from the operand's output to the matching input of the consumer (operand order preserved) and no other inter-module synapses, one trigger per Load with |value|/max_range on the neuron of value's sign, and a reader on the root's outputs.",
  "all DAGs, all max_range<=100","unbounded graphs",
  ["axon_sdk/compilation/compiler.py"])
p("Input range guard of the compiler",
  "For max_range>0 the compiler rejects exactly load values > max_range; negative values below -max_range pass compilation and are rejected only when the plan is loaded in a Simulator; every accepted plan whose |values|<=max_range loads without exception.",
  "all values, ranges","all reals",
  ["axon_sdk/compilation/compiler.py:InputTrigger","axon_sdk/simulator.py:Simulator.init_with_plan"])
p("Operator overloads are total on numbers",
  "Every arithmetic operator between a Scalar and an int/float on either side yields a Scalar node with the right data. (False: number / Scalar never terminates (RecursionError).)",
  "all operand combinations","non-termination cannot be tested",
  ["axon_sdk/compilation/scalar.py:Scalar.__rtruediv__"])
p("Predictive simulator bookkeeping",
  "During PredSimulator.simulate the event queue holds at most one predicted spike per neuron and it is the one computed from the latest synaptic event of that neuron; processed event times never decrease (non-negative delays); per-neuron spike logs are sorted; simulate on a finished simulator raises ValueError.",
  "all networks, inputs, histories","invariant over all histories, cancellation",
  ["axon_sdk/predictive_simulator.py:PredSimulator"])
p("Predictive input honours t0",
  "PredSimulator.apply_input_value(v,n,t0) injects spikes at t0 and t0+interval. (False: t0 is ignored.)",
  "all t0","equality for all t0",
  ["axon_sdk/predictive_simulator.py:PredSimulator.apply_input_value"])
p("Gate updates are counted in the energy report",
  "The gate-type update count used by the energy/latency report equals the number of processed gate synapses. (False: it is always 0.)",
  "all simulations","all histories",
  ["axon_sdk/predictive_simulator.py","axon_sdk/usagereport/usagereport.py:report_energy_and_latency_for_simulation"])
p("Performance estimates are monotone and consistent",
  "estimate_performance: total_updates, total_cycles and time are monotone in every spike count and antitone in batch size and clock; total_cycles >= 5; the total energy equals leak+idle+dynamic power times time.",
  "all counts","all integers",
  ["axon_sdk/usagereport/power_metrics.py"])
p("Chronogram reconstruction",
  "build_array(length, entries) gives at index i the value of the entry with the greatest index <= i (the last one in the list for equal indices), 0.0 before the first entry.",
  "all entry lists","all lists",
  ["axon_sdk/visualization/chronogram.py:build_array"])
p("Topology view",
  "The topology data shows every synapse leaving a top-level neuron and every synapse crossing between top-level submodules, and no synapse internal to a submodule; each shown synapse's endpoints are shown.",
  "all networks","all hierarchies",
  ["axon_sdk/visualization/topovis.py"])
p("The two simulators integrate neurons alike",
  "Between synaptic events the state of a neuron in Simulator (Euler steps of dt) stays within O(dt) of its state in PredSimulator (exact solution) for the same elapsed time. (True with gate=1; false with gate=0: Simulator freezes gf, PredSimulator decays it.)",
  "all neuron states, step counts and dt<=tf","all reals, any number of steps",
  ["axon_sdk/primitives/elements.py:ExplicitNeuron.update_and_spike","axon_sdk/primitives/elements.py:ExplicitNeuron._fast_forward"])
p("Predictive simulator delivers every event exactly once",
  "In any run of PredSimulator the synaptic hits processed plus those pending are exactly one per injected input and one per (spike, outgoing synapse) with time spike+delay, that synapse's type, weight and target; the processed-synapse counters equal the numbers of processed hits per type.",
  "all networks, inputs, histories","invariant over all histories, cancellation",
  ["axon_sdk/predictive_simulator.py:PredSimulator","axon_sdk/primitives/events.py:CancelableEventQueue"])
p("Usage report totals",
  "The spike estimate of a net is the sum of the table values of its submodules (ValueError for a class not in the table); the spike usage of a simulation is the number of spikes processed for the neurons of the net and raises ValueError before simulate; report_neuron_usage(net, print_depth) prints print_depth levels. (The last part is false: any depth >= 1 prints what depth 1 prints.)",
  "all nets and finished simulations","all histories and hierarchies",
  ["axon_sdk/usagereport/usagereport.py"])
p("Neuron to module uid map",
  "net.neurons_with_module_uid maps every neuron of the net to the uid of the module it was added to.",
  "all module hierarchies where a neuron is added to one module","all hierarchies",
  ["axon_sdk/primitives/networks.py:SpikingNetworkModule.neurons_with_module_uid"])
p("Signed multiplier",
  "SignedMultiplierNetwork: with x1 given on input1_plus or input1_minus and x2 on input2_plus or input2_minus, exactly one output (plus for equal signs, minus otherwise) emits one pair of spikes decoding to x1*x2 and the other output stays silent; a zero operand yields 0 on output_plus. (The last part is false: the inner multiplier and the outer zero detector both answer.)",
  "all operands in (0,1), signs, arrival times, encoders and time steps","continuum of inputs and timings",
  ["axon_sdk/networks/functional/signed_multiplier.py:SignedMultiplierNetwork","axon_sdk/networks/functional/multiplier.py:MultiplierNetwork"])
p("Construction API",
  "After any sequence of module creations, add_neuron, add_subnetwork and connect_neurons calls every neuron has the parameters, module and name given at creation, every module lists its own neurons and submodules in call order, and the outgoing synapses of a neuron are exactly the connect_neurons calls naming it as pre-neuron, in call order; later calls only append.",
  "all construction scripts","all sequences of calls",
  ["axon_sdk/primitives/networks.py:SpikingNetworkModule.add_neuron","axon_sdk/primitives/networks.py:SpikingNetworkModule.connect_neurons","axon_sdk/primitives/networks.py:SpikingNetworkModule.add_subnetwork"])
p("Scaled signed multiplier",
  "SignedMultiplierNormNetwork(encoder, factor): with x1, x2 given on plus or minus inputs and factor*(x1*x2) at most 1 (with margin for the resolution of dt), exactly one output (plus for equal signs, minus otherwise) emits one pair of spikes decoding to factor*(x1*x2), and the other output stays silent; an operand 0 gives one pair decoding to 0.",
  "all operands, signs, factors, arrival times, encoders and time steps","continuum of inputs and timings",
  ["axon_sdk/networks/functional/signed_multipler_norm.py:SignedMultiplierNormNetwork"])
p("A compiled expression computes its value",
  "For every program built from Scalars with + - and *, compile_computation + Simulator.init_with_plan + simulate(T) + decode_output returns the value of the program, up to an error computed from the time step only, provided every intermediate value stays in the range max_range allows (positive and negative parts of each sum at most max_range, products of numbers strictly inside the range, no tiny negative sum) and T is long enough; sums and differences of inputs on the time grid are returned exactly. (A sum that is negative but closer to 0 than 1/10000 of the range yields no output at all.)",
  "all programs (expression DAGs), inputs, ranges, time steps, set iteration orders","unbounded DAGs, a continuum of inputs",
  ["axon_sdk/compilation/compiler.py:compile_computation","axon_sdk/simulator.py:Simulator.init_with_plan","axon_sdk/simulator.py:Simulator.simulate","axon_sdk/simulator.py:decode_output"])
p("Division",
  "DivNetwork(encoder): with x1 presented on input1 and x2 on input2, 0 < x1 <= x2 < 1, the output emits exactly one pair of spikes decoding to x1/x2 up to an error of the order of the time step; with x1 > x2 (by more than the resolution) it emits nothing, as documented. (The documented domain [0, 1] is too large: a zero numerator gives no output at all, and dividing by exactly 1 gives a result smaller than x1 by the factor exp(-1/20), about 5 per cent.)",
  "all operands, arrival times, encoders, time steps and update orders","continuum of inputs and timings",
  ["axon_sdk/networks/functional/divider.py:DivNetwork","axon_sdk/networks/functional/divider.py:LogAndSyncNetwork"])
p("The matrix product example",
  "regular_matmul(A, B) and strassen_matmul(A, B) return 2x2 matrices of Scalars holding the matrix product, leaving all existing Scalars unchanged (Strassen in exact arithmetic only: in floats the two disagree, by more than a rounding error of the entries); sum_mat adds up all entries of a rectangular matrix of any size; the example script's result, for any entries, holds the sum of the entries of A*B and compiles exactly if all entries are at most max_range and max_range is at most 100.",
  "all matrix entries, all matrix sizes for sum_mat, all max_range","continuum of entries",
  ["axon_sdk/networks/examples/matmul.py:regular_matmul","axon_sdk/networks/examples/matmul.py:strassen_matmul","axon_sdk/networks/examples/matmul.py:sum_mat"])
p("A network back at rest can be used again",
  "If a simulation of T1 (a whole number of steps) leaves no event pending and every neuron in the state it was created with, then in one longer simulation further inputs presented T1 later produce exactly the spikes and voltages they produce on a newly built network, shifted by T1, and this holds for any number of rounds. ExponentialNetwork, LogNetwork (0 < x < 1 up to the resolution), ScalarMultiplierNetwork and MemoryNetwork do come back to rest, so one instance computes any list of values presented far enough apart. (False of every network: after a product with a zero factor MultiplierNetwork answers 0 to the next product, and after log(0) LogNetwork's next answer is wrong.)",
  "all networks, all inputs of the rounds, all numbers of rounds, all update orders, encoders and time steps","unbounded histories, continuum of inputs",
  ["axon_sdk/simulator.py:Simulator.simulate","axon_sdk/simulator.py:Simulator.apply_input_value","axon_sdk/networks/functional/exponential.py:ExponentialNetwork","axon_sdk/networks/functional/natural_log.py:LogNetwork","axon_sdk/networks/functional/multiplier.py:MultiplierNetwork"])
p("PredSimulator computes the solution of the network's neuron equations",
  "For a network whose synapses all have positive delay and whose neurons reset below threshold: if every neuron's spike train F(n) is the response of that neuron alone to the timetable of hits it receives (the injected spikes, and one hit per spike of each presynaptic neuron, delay later, hits at the same instant summed), then PredSimulator.simulate() terminates without exception and its spike_log is F; so such F is unique. Between hits a neuron's next spike is, under excitatory drive, the first multiple of dt after its last hit at which the exact solution of its differential equations reaches Vt, if that is within the prediction horizon.",
  "all networks, weights, delays, injected spikes, time steps","unbounded networks and spike histories; continuum of times",
  ["axon_sdk/predictive_simulator.py:PredSimulator.simulate","axon_sdk/primitives/elements.py:ExplicitNeuron","axon_sdk/primitives/events.py:CancelableEventQueue"])
p("The library's memories, logarithm and exponential on PredSimulator",
  "On PredSimulator with any dt between 1e-6 and 500 ms, MemoryNetwork recalls x, InvertingMemoryNetwork recalls 1-x, LogNetwork answers the encoded -20 ln x and ExponentialNetwork exp(-x Tcod/20): two output spikes at most one dt (inverting memory: the larger of dt and the library's 0.01 ms) from the exact interval, independently of t0. This needs every crossing to lie within the 500 ms prediction horizon: a later crossing is lost and the output spikes once only.",
  "all values, recall times, encoders, time steps","continuum of inputs and encoder settings",
  ["axon_sdk/predictive_simulator.py:PredSimulator.simulate","axon_sdk/networks/memory/memory.py:MemoryNetwork","axon_sdk/networks/memory/inverting_memory.py:InvertingMemoryNetwork","axon_sdk/networks/functional/natural_log.py:LogNetwork","axon_sdk/networks/functional/exponential.py:ExponentialNetwork"])
p("Arithmetic networks on PredSimulator",
  "On PredSimulator, ConstantNetwork, SignedConstantNetwork, SignFlipperNetwork and SubtractorNetwork give the exact value (spike intervals decode with no error at all, for every dt between 1e-6 and 500 ms), on the output of the right sign and with the other output silent; ScalarMultiplierNetwork gives f*x within max(1, f)*dt. (False: SubtractorNetwork gives no output for differences strictly between -0.01 ms and 0; a scalar factor below 1 applied to 0 gives three spikes; a factor with (Tmin+Tcod)/f >= 500 ms gives nothing.)",
  "all values, factors, recall times, encoders, time steps","continuum of inputs and encoder settings",
  ["axon_sdk/predictive_simulator.py:PredSimulator.simulate","axon_sdk/networks/memory/constant.py:ConstantNetwork","axon_sdk/networks/memory/signed_constant.py:SignedConstantNetwork","axon_sdk/networks/functional/signflip.py:SignFlipperNetwork","axon_sdk/networks/functional/subtractor.py:SubtractorNetwork","axon_sdk/networks/functional/scalar_multiplier.py:ScalarMultiplierNetwork"])
p("Synchronizer, linear combinator and adder on PredSimulator",
  "On PredSimulator, SynchronizerNetwork with up to 316 channels re-emits every input value within one dt, all outputs starting at the same instant, after the last input, and stays silent while an input is missing; LinearCombinatorNetwork and AdderNetwork give the weighted sum on the output of its sign, with the other output silent, within one dt whatever the number of inputs and coefficients. (False: from 317 channels on the synchronizer releases with one input missing, and the missing channel emits the value 1; negative sums nearer to 0 than 0.01 ms give no output.)",
  "all numbers of inputs, coefficients, signed values, arrival times, encoders, time steps","unbounded number of inputs, continuum of values",
  ["axon_sdk/predictive_simulator.py:PredSimulator.simulate","axon_sdk/networks/connecting/synchronizer.py:SynchronizerNetwork","axon_sdk/networks/functional/linear_combinator.py:LinearCombinatorNetwork","axon_sdk/networks/functional/adder.py:AdderNetwork"])
p("Library constructors: what they accept and what they build",
  "In any program that builds library networks, each constructor call succeeds or raises as follows: ZeroDivisionError when it divides by an encoder constant that is zero (Tmax for the memories, synchronizers with a channel, adder, linear combinator, scalar multiplier, sign flipper, normalised multiplier and divider; Tcod for sign flipper, exponential, logarithm, the multipliers and the divider), IndexError when LinearCombinatorNetwork gets fewer coefficients than inputs, otherwise never. A network just built has a fixed number of neurons, all new and with the standard parameters (Vt 10, tm 100, tf 20, Vreset 0), its module lists exactly these neurons, all its synapses stay inside it, and earlier networks are unchanged: no synapse joins two networks until the user connects them. (False for IntegratorNetwork, which raises TypeError whatever its arguments.)",
  "all sequences of constructor calls, encoders, channel counts and coefficient lists, in any number system","unbounded sequences of calls and sizes",
  ["axon_sdk/networks/functional/integrator.py:IntegratorNetwork","axon_sdk/networks/functional/linear_combinator.py:LinearCombinatorNetwork","axon_sdk/networks/connecting/synchronizer.py:SynchronizerNetwork","axon_sdk/networks/functional/divider.py:DivNetwork","axon_sdk/primitives/networks.py:SpikingNetworkModule"])
p("Multipliers on PredSimulator",
  "On PredSimulator, MultiplierNetwork emits the product of two operands in (0, 1) as one pair of spikes, within the larger of dt/Tcod and dt/10 of the product, whatever the arrival times of the operands, and exactly 0 when an operand is 0; SignedMultiplierNetwork emits the product on the output of its sign and nothing on the other. (False: with the second operand 1 the output says 1 whatever the first; with the first operand 1 it is too large by the factor exp(1/20); with a signed operand 0 four spikes come out on output_plus, or both outputs spike.)",
  "all operands, signs, arrival times, encoders, time steps","continuum of inputs and encoder settings",
  ["axon_sdk/predictive_simulator.py:PredSimulator.simulate","axon_sdk/networks/functional/multiplier.py:MultiplierNetwork","axon_sdk/networks/functional/signed_multiplier.py:SignedMultiplierNetwork"])
p("Divider, signed memory and normalised multiplier on PredSimulator",
  "On PredSimulator, DivNetwork emits x1/x2 for 0 < x1 <= x2 < 1 within about dt/Tcod + (x1/x2) dt/20, whatever the arrival times, and nothing when x1 exceeds x2 beyond the resolution; SignedMemoryNetwork recalls x within one dt on the output of the sign it was stored with, starting 4 ms after the recall, the other output silent; SignedMultiplierNormNetwork emits factor * x1 * x2 on the output of its sign and nothing on the other, and exactly 0 if an operand is 0 and factor >= 1. (False: DivNetwork gives no output for numerator 0 and a result smaller by exp(-1/20) for denominator 1; with an operand 0 and a factor below 1 the normalised multiplier emits a third spike, on both outputs.)",
  "all operands, signs, factors, arrival and recall times, encoders, time steps","continuum of inputs and encoder settings",
  ["axon_sdk/predictive_simulator.py:PredSimulator.simulate","axon_sdk/networks/functional/divider.py:DivNetwork","axon_sdk/networks/memory/signed_memory.py:SignedMemoryNetwork","axon_sdk/networks/functional/signed_multipler_norm.py:SignedMultiplierNormNetwork"])
p("Subtractor, signed constant and sign flipper in binary64",
  "In the floating-point arithmetic Python uses, for every binary64 input with dt between 2^-12 and 1/256 ms: SubtractorNetwork emits x1-x2 on output_plus and nothing on output_minus when x1 >= x2, and x2-x1 on output_minus and nothing on output_plus when x2-x1 is at least 0.01 ms + dt, within 2 dt (plus 2^-30 ms of rounding); SignedConstantNetwork emits |v| within one dt on the output of the sign of v only, and SignFlipperNetwork re-emits x within one dt on the opposite output only. (False: a subtractor used again after a zero result can lose the next negative result because rounding makes its zero detector fire twice; this does not happen in exact arithmetic.)",
  "all binary64 values, injection times, encoders, time steps, processing orders","the set of doubles is too large to enumerate, and rounding makes neighbouring inputs behave differently",
  ["axon_sdk/networks/functional/subtractor.py:SubtractorNetwork","axon_sdk/networks/memory/signed_constant.py:SignedConstantNetwork","axon_sdk/networks/functional/signflip.py:SignFlipperNetwork","axon_sdk/simulator.py:Simulator.simulate"])
p("Subtractor and synchronizer used again and again",
  "A SubtractorNetwork that is given a new pair of operands every 6 ms + 2 Tmin + Tcod + 4 dt or more emits, for every pair, the difference on the output of its sign and nothing on the other, exactly as a new network would, whatever was computed before and however many times; a SynchronizerNetwork of up to 316 channels, used again after 2 Tmax + 10 ms + 13 dt plus the largest delay between channels, re-emits every time all the values of that round with a common start. (False after a difference that was lost for being negative and nearer to 0 than 0.01 ms: the next negative result then appears on both outputs.)",
  "all sequences of computations of any length, all operands, start times, encoders, time steps, processing orders","unbounded histories of earlier computations over a continuum of inputs",
  ["axon_sdk/networks/functional/subtractor.py:SubtractorNetwork","axon_sdk/networks/connecting/synchronizer.py:SynchronizerNetwork","axon_sdk/simulator.py:Simulator.simulate"])
p("Linear combinator and adder used again and again",
  "A LinearCombinatorNetwork with any coefficients that is given new signed operands, each at its own time, every 4 Tmax + 2 Tmin + 21 ms + dt or more after the last operand delay of the round before, emits for every round the sum on the output of its sign and nothing on the other, within the error of a single computation, whatever was computed before and however many times; an AdderNetwork on operands that are multiples of the time step gives every sum exactly. (Sums that are negative and nearer to 0 than 0.01 ms are excluded: they are lost, and the subtractor inside is then not at rest.)",
  "all sequences of computations of any length, all coefficient lists, operands, arrival times, encoders, time steps, processing orders","unbounded histories of earlier computations over a continuum of inputs",
  ["axon_sdk/networks/functional/linear_combinator.py:LinearCombinatorNetwork","axon_sdk/networks/functional/adder.py:AdderNetwork","axon_sdk/simulator.py:Simulator.simulate"])
p("Constants, sign flipper and inverting memory used again and again",
  "Every recall of a ConstantNetwork or SignedConstantNetwork, 1 ms + the interval of the constant + 2 dt or more after the one before, gives one more pair of spikes for the constant (on the output of its sign, the other output stays silent); a SignFlipperNetwork moves every value of a sequence, given on either input every 1 ms + Tmax + 2 dt or more, to the output of the other sign, one pair each; an InvertingMemoryNetwork in a history of stores (each recalled once) and of further recalls gives 1 - x for every stored x, and its reads are destructive: a recall with nothing stored since the last one gives 1, whatever had been stored before.",
  "all sequences of recalls, values and stores of any length, all values, times, recall delays, encoders, time steps, processing orders","unbounded histories of earlier uses over a continuum of inputs",
  ["axon_sdk/networks/memory/constant.py:ConstantNetwork","axon_sdk/networks/memory/signed_constant.py:SignedConstantNetwork","axon_sdk/networks/functional/signflip.py:SignFlipperNetwork","axon_sdk/networks/memory/inverting_memory.py:InvertingMemoryNetwork"])
p("Multiplier used again and again",
  "A MultiplierNetwork that is given a new pair of operands, both strictly between 0 and 1 (by 4 dt of coding time at 0 and 2 dt at 1), at any two arrival times, emits for every pair one pair of spikes for their product, within the error of a single computation, whatever was computed before and however many times, if each round starts 355 ms + 2 Tmax + the later operand's delay or more after the one before. (355 ms, because the network's zero detector hears the operands 350 ms late; zero products are excluded, after one the network is not at rest.)",
  "all sequences of computations of any length, all operands, arrival times, encoders, time steps, processing orders","unbounded histories of earlier computations over a continuum of inputs",
  ["axon_sdk/networks/functional/multiplier.py:MultiplierNetwork","axon_sdk/simulator.py:Simulator.simulate"])
p("Divider used again and again",
  "A DivNetwork that is given a new pair of operands 0 < x1 <= x2 < 1 emits for every pair one pair of spikes for x1/x2, within the error of a single division, whatever was computed before and however many times, if each round starts 18 ms + 5 Tmin + 2 Tcod + 20 ms * -ln(x1) + the later operand's delay or more after the one before: operands on the time grid may arrive at any two times, other operands arrive together.",
  "all sequences of divisions of any length, all operands, arrival times, encoders, time steps, processing orders","unbounded histories of earlier computations over a continuum of inputs",
  ["axon_sdk/networks/functional/divider.py:DivNetwork","axon_sdk/simulator.py:Simulator.simulate"])
p("Signed multiplier used again and again",
  "A SignedMultiplierNetwork that is given a new pair of operands of any signs, each strictly between 0 and 1 in size (by 4 dt of coding time at 0 and 2 dt at 1), at any two arrival times, emits for every pair one pair of spikes for the size of the product on the output of its sign and nothing on the other output, within the error of a single computation, whatever was computed before and however many times, if each round starts 356 ms + 2 Tmin + 3 Tcod + the later operand's delay or more after the one before. (Zero products are excluded: they put spikes on both outputs.)",
  "all sequences of computations of any length, all operands and signs, arrival times, encoders, time steps, processing orders","unbounded histories of earlier computations over a continuum of inputs",
  ["axon_sdk/networks/functional/signed_multiplier.py:SignedMultiplierNetwork","axon_sdk/simulator.py:Simulator.simulate"])
p("Signed normalising multiplier used again and again",
  "A SignedMultiplierNormNetwork with a positive scale factor f that is given a new pair of operands of any signs, each strictly between 0 and 1 in size, at any two arrival times, emits for every pair one pair of spikes for f times the size of the product on the output of its sign and nothing on the other output, within the error of a single computation, whatever was computed before and however many times, if each round starts 356 ms + 5 Tmin + 4 Tcod + Tmax/f + the later operand's delay or more after the one before. (Products that are too close to 0 or to 1/f for a single computation are excluded, as in the theorem for one computation.)",
  "all sequences of computations of any length, all operands and signs, scale factors, arrival times, encoders, time steps, processing orders","unbounded histories of earlier computations over a continuum of inputs",
  ["axon_sdk/networks/functional/signed_multipler_norm.py:SignedMultiplierNormNetwork","axon_sdk/simulator.py:Simulator.simulate"])
p("A compiled expression evaluated again and again",
  "compile_computation is run once on an expression of + - *; the input neurons of the plan can then be fed, in one simulation, any number of rounds of inputs (the compiled program's own, as Simulator.init_with_plan does, or other values), each round when the time of the one before is over. Every round puts exactly one pair of spikes on exactly one of the two output neurons, within its own time window, and the pair encodes the value of the expression on that round's inputs with the error of a single evaluation, whatever was evaluated before; at the end the whole network is in its initial state and no event is left. Each round needs the time of a single evaluation plus 250 ms; products must have factors and result away from 0 and 1 by a few time steps; the error is 0 for sums of inputs on the time grid. Simulator.decode_output cannot read such a transcript: after two or more rounds it raises ValueError.",
  "all expressions (DAGs of any size), all sequences of input values of any length, ranges, time steps, processing orders","unbounded histories of earlier evaluations over a continuum of inputs, and unbounded expressions",
  ["axon_sdk/compilation/compiler.py:compile_computation","axon_sdk/simulator.py:Simulator.init_with_plan","axon_sdk/simulator.py:Simulator.simulate","axon_sdk/networks/functional/adder.py:AdderNetwork","axon_sdk/networks/functional/signed_multipler_norm.py:SignedMultiplierNormNetwork","axon_sdk/networks/functional/signflip.py:SignFlipperNetwork"])
p("Two synchronised logarithms, again and again",
  "LogAndSyncNetwork(encoder), given operands x1 and x2 strictly between 0 and 1 (by a few time steps) at any two arrival times, puts one pair of spikes on each output, Tmin - 20 ln(x1) and Tmin - 20 ln(x2) apart up to an error of the order of the time step, and the first spikes of the two pairs coincide; this holds for every round of operands given to the same network, whatever was computed before, if each round starts when the time of the one before is over. (The docstring says in [0,1]: with an operand of exactly 1 the outputs are not synced - refuted.)",
  "all sequences of operand pairs of any length, arrival times, encoders, time steps, processing orders","unbounded histories of earlier computations over a continuum of inputs",
  ["axon_sdk/networks/functional/divider.py:LogAndSyncNetwork","axon_sdk/simulator.py:Simulator.simulate"])
p("Memory: any history of stores and recalls",
  "In any history of stores (each recalled once, 2 ms + Tmax + 3 dt or more after the store began) and further recalls of a MemoryNetwork, each started when the one before is over, every store gives one pair of output spikes that decodes to the stored value (up to 3 dt/Tcod) and one ready spike, and every recall with nothing stored since the last one gives one pair that decodes to 1 and no ready spike: reads are destructive, whatever had been stored before. (A store does not overwrite a value that was never recalled: the two add up, and the output may spike without a recall - refuted.)",
  "all histories of stores and recalls of any length, values, times, encoders, time steps, processing orders","unbounded histories over a continuum of values and times",
  ["axon_sdk/networks/memory/memory.py:MemoryNetwork","axon_sdk/simulator.py:Simulator.simulate"])
p("Inverting memory: a store over an unrecalled value adds to it",
  "If two values x1 and x2 are stored in an InvertingMemoryNetwork, the second after the first is complete, and the memory is then recalled once, the recall gives one pair of output spikes that decodes to 1 - x1 - x2 (up to (5 dt + 0.01)/Tcod), whenever that leaves a positive interval: a store does not overwrite. More generally the recall after any number n of such stores gives 1 minus the sum of all the values (up to ((2 n + 2) dt + 0.01)/Tcod). If x1 + x2 >= 1 + (Tmin + 5 dt)/Tcod, the output spikes once during the second store, 3 ms + 2 Tmin + (1 - x1) Tcod after it began (up to 4 dt), although the memory is never recalled. (That the last value stored is the one recalled is refuted.)",
  "all numbers of stores, values, store and recall times, encoders, time steps, processing orders","unbounded histories over a continuum of values, times and encoder settings",
  ["axon_sdk/networks/memory/inverting_memory.py:InvertingMemoryNetwork","axon_sdk/simulator.py:Simulator.simulate"])
open('/verif/properties.jsonl','w').write(''.join(json.dumps(x)+'\n' for x in P))
print(len(P))
