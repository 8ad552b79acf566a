# Formal model of axon-sdk in Rocq (Coq 8.16.1)

## Approach

* The Python functions are transcribed branch by branch into total, executable Gallina functions. Exceptions are
  values (`res A := Ok a | Err e`). Numbers are abstract: every model definition is parametric in a record of
  arithmetic operations (`Num T`), with three instances:
  * `R` (Coq reals, exact arithmetic) - the instance about which quantitative theorems are proved;
  * `Q` - exact and executable, used for tests and counterexamples;
  * `float` (Coq primitive binary64) - executable with Python's own rounding; used for tests and for
    `_refuted` theorems about rounding.
  Theorems that only need an order (queues) or no arithmetic at all (compiler, tracing, logs) are stated for every instance.
* Python objects with identity (neurons, modules, synapses, Scalars) are indices into append-only heaps ("world").
* Sources of nondeterminism (iteration order of Python sets) are universally quantified parameters.
* `heapq` (CPython standard library, not in /repo) is modelled by its published list algorithm.

## Proof architecture

1. Queues: heap invariant + permutation, lifted to all histories.
2. Simulator: the operational step (queue, sets, logs) is refined to a *trace semantics*: for every neuron and timestep the
   local STICK recurrence driven by arrivals, an arrival being a spike of a presynaptic neuron
   `max(1,ceil(d/dt))` timesteps earlier or an external spike. Sparse = dense, order independence, prefix, shift and
   isolation theorems are consequences.
3. Networks: per-network theorems derived neuron by neuron in the trace semantics, in exact integer timesteps, for all
   values, all encoders, all dt>0; stated for the run of the modelled API calls.
4. Compiler: induction over DAGs of operator applications; structural isomorphism with the emitted network.
5. Predictive simulator: queue refinement, binary-search correctness, ODE facts (stdlib `Reals` derivatives), invariants.

## Plan per property

For every property: what is modelled, how it is proved. Theorem names and status: MANIFEST.json. Theorems live in
`rocq/theories/Props*.v`, which contain statements (and examples that satisfy their hypotheses) only; the proofs are in the
other files. `_refuted` means: the English claim is false of the code, and the theorem exhibits that (in general form where
possible, otherwise by running the model).

| id | model | proof |
|----|-------|-------|
| C01 | encoders.py (Elements.v) | algebra over R; binary64 inexactness by computation; binary64 error bound, monotonicity, range for all floats (F64.v, F64Thms.v, via Flocq) |
| C06, C07, C08, C14 in any arithmetic / binary64 | simulator.py (Simulator.v) | AnySim.v: the loop analysed for an arbitrary `Num` (queue permutation, log growth, event conservation, totality); F64Thms.v: simulated times and step count in binary64 |
| C02 | SpikeEventQueue + heapq (Elements.v, Heapq.v) | heap invariant and permutation, induction over histories of add/pop |
| C03 | CancelableEventQueue (CancelQueue.v) | refinement to an insertion-ordered list of live events, over all histories |
| C04-C08, C10-C12, C14 | simulator.py, elements.py (Simulator.v) | refinement of the event-driven loop to the recurrence of Trace.v (`SimTrace.v`), then consequences (SimProps, SimRel, CoreExtra) |
| C09 | two simulate() calls | refuted by executing the model |
| C13 | decode_output, count_spikes (helpers.py) | case analysis |
| C15 | Euler step | induction on steps; `euler_gap` for the distance to exp |
| C16, C17, C42 | predictive neuron (PredNeuron.v) | derivatives in Reals; loop invariant of the binary search; closed forms |
| C18 | uid strings | injectivity of decimal rendering and of the separators |
| C19, C45 | module tree (ModTree.v, VisProofs.v) | induction on the hierarchy |
| C47 | construction calls (Elements.v, Script.v) | induction on scripts |
| C20-C31, C46, C48 | every constructor of axon_sdk/networks (Networks.v) | constructor executed symbolically (Build, BuildNets), Trace.v spike times of each neuron in whole timesteps (NeuronLib, GeLib, GfLib, SegLib), session theorem (Session.v) |
| C06, C20, C22, C23 in binary64 | the same code run with floats (PropsF64Net.v) | GTrace.v: step-by-step trace of a run in any ordered arithmetic; FNet.v: float states stand for real ones, weights that are multiples of 2.5 add exactly, arrival steps bounded up to 2^-36 ms; FRamp.v/FWacc.v: rounded ramps, their length bounded with Flocq; FSession.v: user script and decoding |
| C22 (reuse) | any list of store/recall cycles in one simulation (PropsReuse.v) | `Restart.v`: if every neuron is in its initial state and nothing is in flight at step K, the rest of the run is that of a fresh network with the remaining injected spikes shifted by K steps; induction on the cycles (MemReuse.v) |
| C52, C27/C29/C30 (reuse) | any list of computations in one simulation (PropsRest.v) | `Reuse.v`: a run from a resting state = a fresh run shifted (via `Restart.v` and SimTrace), induction over rounds; `Jobs.v`: sessions with a list of (argument, start time); `Settle.v`, `RestFun.v`: each network's neurons proved back at rest after a stated span |
| C50 | DivNetwork and LogAndSyncNetwork (Networks.v) | both logarithm channels and the synchronisation neuron in whole timesteps (DivNet), then the subtractor and the exponential lemmas of C25/C29 composed (DivMid, DivRun), then the error of the quotient of two leak powers (DivVal) |
| C49 | the whole session: Scalar program, compile_computation, init_with_plan, simulate, decode_output (E2ESpec.v) | every node of the plan is an embedded network (plan_net: its inputs are its own synapses plus the wires); induction on `accurate` carries pairs of spikes through the plan (E2ENode, E2ESound, E2E) |
| C51 | networks/examples/matmul.py (Matmul.v) | Hoare-style rules for heap-extending steps; `ring` |
| C32, C35 | scalar.py (Scalar.v) | induction on expression DAGs |
| C33, C34 | compiler.py (Compiler.v) | induction on the trace; spec = a graph of placed modules and wires |
| C36, C37, C38, C43 | predictive_simulator.py (PredSim.v) | invariant of the event loop over all reachable states |
| C53, C54 | PredSimulator running whole networks (PredSim.v with BuildNets.v) | PredRun.v: `neuron_run` specifies one neuron against a timetable of hits; an invariant pairs every pending event with an entry of the timetables and a termination measure counts the remaining ones, so the loop ends in the solution; PredNet.v: timetables grouped per neuron, decidable-free rules for ge/V-driven neurons; PredMem, PredMem2, PredFun: the solutions for the library networks |
| C55 | the same for constants, sign flip, subtraction, scalar multiplication | PredGroup.v: a neuron against an unordered list of hits (the potential as a sum over hits; silent / fires / ramps); PredSub.v, PredSimple.v: each neuron by `lra` on these sums |
| C56 | the same for SynchronizerNetwork (any number of channels), LinearCombinatorNetwork and AdderNetwork (any number of inputs) | PredSync.v: one channel as a block of ten neurons, hits of shifted blocks, the release neuron by counting; PredLin.v: accumulators charged by any number of intervals, the synchronizer channels and the subtractor reused as blocks |
| C57 | every constructor of axon_sdk/networks (Networks.v), as requests in an arbitrary script, any number system | Lib.v: lower-bound Hoare logic (every synapse end and listed neuron is new) stepped through each constructor, combined with the symbolic executions of BuildNets.v; refusals by following each constructor to its first division or index; IntegratorNetwork as `_refuted` |
| C58 | the same for MultiplierNetwork and SignedMultiplierNetwork, operands as values or as spikes at any times | PredMul.v: responses of the logarithm and exponential accumulators, the twelve neurons as one consistent timetable; PredMul2.v: operand 1 as `_refuted`; PredSMul.v: the multiplier reused as a block, the four sign neurons by cases on the signs |
| C59 | the same for DivNetwork, SignedMemoryNetwork and SignedMultiplierNormNetwork | PredDiv.v: log-and-sync, subtraction and exponential as one timetable of 25 neurons, cases on which operand is 0, larger or 1; PredSMem.v: memory cell of C56 plus sign switches; PredSNorm.v: multiplier block of C58 followed by a scalar multiplication started at an arbitrary time |
| C60 | SubtractorNetwork, SignedConstantNetwork, SignFlipperNetwork run with floats (PropsF64Net2.v) | FSub.v: delivery steps of every synapse bounded up to rounding (they are not a fixed number of steps in binary64), five mutually connected neurons solved by induction on the step, four cases (far / near / equal / negative; in the equal case the zero detector may fire once or twice); FSign.v. The reuse violation is a computation with primitive floats |
| C61 | one SubtractorNetwork / SynchronizerNetwork used for a list of computations of any length (PropsReuse2.v) | SubReuse.v, SyncReuse.v: every neuron is shown to be back in the state it was created with, with nothing in flight, `sub_span`/`sy_span` after the start of a computation (`quiet`, Settle.v); induction on the list of computations through C52 (Jobs.v). The violation is a computation with primitive floats |
| C62 | one LinearCombinatorNetwork / AdderNetwork used for a list of computations of any length (PropsReuse3.v) | LinReuse.v: every neuron of the combinator (6 per input, synchronizer, subtractor) is back in its initial state with nothing in flight when the span is over; LinJobs.v: induction on the list of computations through C52 (Jobs.v). |
| C63 | one ConstantNetwork / SignedConstantNetwork / SignFlipperNetwork / InvertingMemoryNetwork used any number of times (PropsReuse4.v) | ConstReuse.v, IMReuse.v: every neuron is back in its initial state with nothing in flight when the span of a use is over (also after a recall with nothing stored); induction on the list of uses through C52 (Jobs.v) |
| C64 | one MultiplierNetwork used any number of times for products of values strictly between 0 and 1 (PropsReuse5.v) | MulReuse.v: the accumulators reset by firing, the zero detector gets 4 x 2.5 from the operands and -2 x 5 from the output pair and so returns to 0 without firing; induction on the list of products through C52 (Jobs.v) |
| C65 | one DivNetwork used any number of times for quotients of values strictly between 0 and 1 (PropsReuse6.v) | DivReuse.v: each of the 25 neurons fires for the last time and is back in its initial state by the end of the output pair (channels, subtractor of C61, exponential network), nothing in flight one longest delay later; induction on the list of divisions through C52 (Jobs.v) |
| C66 | one SignedMultiplierNetwork used any number of times for products of signed values strictly between 0 and 1 in size (PropsReuse7.v) | SignReuse.v, SignJobs.v: the inner multiplier as in C64 behind the two relays, the sign neuron of the operands' signs resets by firing and its two neighbours take back 2 x 2.5 from its inhibition, the output of the other sign takes back 2 x 10 from its -20, the outer zero detector as in C64; induction on the list through C52 (Jobs.v) |
| C67 | one SignedMultiplierNormNetwork used any number of times for scaled products of signed values strictly between 0 and 1 in size (PropsReuse8.v) | NormReuse.v, NormJobs.v: the inner multiplier as in C64 and the scalar multiplier as in C52, each fed by a relay neuron; the sign neurons and the inhibited output as in C66; induction on the list through C52 (Jobs.v) |
| C68 | compile an expression once, feed the plan's input neurons any number of rounds of inputs in one simulation (specification: E2EAgainSpec.v; theorem: PropsReuse9.v) | E2ERest.v: every compiled node (injector, sign flipper, adder, normalising multiplier) is back in its initial state a bounded time after its operands arrived (the inner networks as in C62, C67, stated for inputs that are relays of a wire); E2EQuiet.v: induction on the expression, then over all neurons and synapses of the plan, gives the `quiet` condition of C35/Reuse.v; E2EAgain.v: the same plan serves every program of the same shape, so the rounds compose by `simulate_rounds` |
| C69 | LogAndSyncNetwork, the inner network of DivNetwork, on its own: both logarithms with coinciding first spikes, any number of times on one network; at an operand of exactly 1 the docstring is refuted (PropsReuse10.v) | LogSync.v, LogSyncRun.v: the channel lemmas of C50 (DivNet.v), a rest argument for every neuron after its last event, induction on the list of operand pairs through C52 (Jobs.v) |
| C70 | MemoryNetwork in any history of stores (each recalled once) and further recalls; storing over an unrecalled value is refuted (PropsReuse11.v) | MemHist.v: the cycle lemma of C22 (MemReuse.v) for the stores, the bare ramp of acc2 for a recall with nothing stored, induction on the history through C52 (Jobs.v); the refutation is two short binary64 runs; MemTwo.v proves over R, for every pair of stores before one recall, that the recalled value is x1+x2-1 (two ramps on acc, the double charge of acc2); MemSpur.v proves, for every pair of small values, that acc2 reaches threshold during the second store and the output spikes without a recall |
| C71 | InvertingMemoryNetwork: two or any number of stores before a recall add up; spike without a recall; overwriting refuted (PropsReuse12.v) | InvN.v (any number of stores; the first/last gadgets by induction on the pairs, the charge of acc bounded by the positive parts) and InvTwo.v: first/last over two pairs (MemTwo.v), the piecewise linear charge of acc with four or five events (GeLib.v, MemSpur.v); then quantisation of every event as in C23; the refutation is binary64 runs |
| C39, C44 | usagereport (Report.v) | arithmetic over R; list sums |
| C40, C41 | chronogram.py, topovis.py data (Vis.v) | list induction, set reasoning |

How a network property reads: `session build mod enc dt stims ord T = Ok (net, s)` is the script
"construct the network in a fresh interpreter, create Simulator(net, encoder, dt), apply the stimuli, simulate(T)", for every
set iteration order `ord`; `emits s n enc v eps` says that the spike log of `n` has exactly two entries and that
`decode_interval` of their difference is within `eps` of `v`; `spike_log s n = []` says that n stayed silent. Both are
defined in Session.v in terms of the modelled API only.

## What is modelled

| source | model | left out |
|--------|-------|----------|
| primitives/encoders.py | Elements.v | - |
| primitives/events.py | Elements.v, CancelQueue.v, Heapq.v | heapq is CPython's, modelled from its published algorithm |
| primitives/elements.py | Elements.v (ExplicitNeuron), PredSim.v (predictive part) | synapse uid strings |
| primitives/networks.py | Elements.v, ModTree.v, Vis.v | plug labels and `additional_info` (display only); parent_mod_id is an integer in the model |
| primitives/helpers.py, helpers.py | ModTree.v, Misc.v | - |
| simulator.py | Simulator.v | printing; launching the visualisation (`enable_vis`) |
| predictive_simulator.py | PredSim.v | printing |
| networks/** | Networks.v (all constructors; IntegratorNetwork only as "raises TypeError") | `__main__` demos |
| compilation/scalar.py, compiler.py | Scalar.v, Compiler.v | drawing the graph (graphviz) |
| usagereport/* | Report.v | number formatting and table layout of the printed text |
| visualization/chronogram.py, topovis.py | Vis.v | matplotlib drawing, edge label text, HTTP server (server.py), JSON encoding |
| networks/examples/matmul.py | Matmul.v | the matrix functions and the script up to compile_computation; printing not modelled |
| compilation/example.py, docs, tests | - | scripts |

Simplifications common to all files (each is also noted at the definition): Python ints and floats are one number type per
instance; exceptions carry their kind, not their text; object identity is a heap index; a Python set is iterated in an
arbitrary order given by a universally quantified function `ord` (`ord_ok`: it permutes its argument).

## Trusted base

* Coq 8.16.1's kernel, including the `vm_compute` conversion it checks and, for the binary64 witnesses, its primitive
  integers and floats.
* Axioms reported by `Print Assumptions` (each Props file prints them after each theorem), all from the standard library:
  * theorems over R: `ClassicalDedekindReals.sig_forall_dec`, `ClassicalDedekindReals.sig_not_dec`,
    `FunctionalExtensionality.functional_extensionality_dep`; many network theorems also `Classical_Prop.classic`;
  * theorems generic in the number type (queues, compiler, visualisation, ...): none, or
    `functional_extensionality_dep` where stated by Print Assumptions;
  * binary64 witnesses: the primitive types and operations `PrimInt63.*`, `PrimFloat.*` and, through the imported
    libraries, their specification axioms `FloatAxioms.*`, `Uint63.*` (these appear in the environment; the witnesses
    themselves only compute);
  * theorems about all binary64 inputs (`*_binary64_*` in PropsAny.v and PropsF64Net.v, C60): the axioms of R above plus the standard library's
    specification of primitive floats and integers (`FloatAxioms.*`, `Uint63.*`). Flocq adds no axiom.
* That Networks.v, Simulator.v, ... transcribe the Python faithfully: each definition cites file and lines. Seeded wrong
  programs (seeded/LOG.jsonl) test that the theorems depend on the transcription.
* Reals are not floats: the quantitative theorems say what the code computes with exact arithmetic. Rounding is
  covered by the binary64 theorems of PropsAny.v (encoder, simulated times, step count) and PropsF64Net.v and PropsF64Net2.v (delivery, constant, memory, inverting memory, subtractor, signed constant, sign flipper), by the theorems stated for every
  `Num` (queues, conservation, logs, totality), and by explicit binary64 witnesses (C01, C05, C08, C24, C28, C31, C50, C69, C70, C71).

