# Formal model of lava-nc/lava in Rocq (Coq 8.16.1)

## Layout

`rocq/theories/` contains, per area, `X_Model.v` (transcription of the Python code, each definition
citing file and lines), `X_Spec.v` where the specification is large enough to deserve its own file
(otherwise specification definitions sit at the top of the properties file), `X_Proofs.v` (lemmas)
and `X_Props.v` (the theorems named in MANIFEST.json, each with an `Example` showing that its
hypotheses are met by a concrete non-trivial case, and `Print Assumptions`).

Findings: where the faithful model violates the property, the violation itself is proved
(`..._refuted`), and the strongest true restriction is proved as `..._partial`.

## Conventions of the transcription

* Python exceptions are values (`Err e`, or an explicit crash state in transition systems).
* Threads/processes are labelled transition systems with one transition per operation that is atomic
  in the code (semaphore acquire/release, queue put/get, one slot write, one index increment);
  theorems quantify over all reachable states, hence over all schedules.
* numpy arrays are lists (flat, C order) or functions from indices with explicit shapes;
  element-wise numpy operations are modelled per element when the code is element-wise.
* numpy int32/int64 arithmetic is `Z`; where the code may exceed the width the model has an explicit
  wrap or a proved bound stating that it does not.
* floats: control tokens (`enum_to_np`) are exact small integers and modelled as such; float models of
  neurons are modelled over `Z`/`Q`-like exact arithmetic only where stated.

## Per property: what is modelled and how it is proved

Statuses and the exact theorem names are in MANIFEST.json (generated from tools/claims.txt).

| id | model | proof |
|----|-------|-------|
| C01-C04, C06 | `Channel_Model`: LTS with sender, receiver, ack thread, req thread, two semaphores, bounded semaphore, queue counter, ring of slots, ghost event trace (`Channel_Spec`); join on both sides | inductive invariant relating counters, program counters, ring contents and the trace (`Channel_Proofs`); liveness by a measure (`Base.inevitable`) over all schedules |
| C05 | `Selector_Model`: LTS of a select() over n channels, their req threads, the condition variable and observers | soundness/priority by invariant; lost wake-up exhibited as a reachable dead state for size >= 2, invariant excluding it for size 1 |
| C07-C12 | `Runtime_Model`: LTS of Runtime client, LoihiPyRuntimeService.run (one transition per channel operation) and N PyLoihiProcessModel run loops, FIFO channels; `Runtime_Spec` gives the observable trace vocabulary | invariants by case analysis on the service program counter (`Runtime_Proofs`, `Runtime_Inv2`), counting of executed phases (`Runtime_Props`-`Props4`), termination measure (`Runtime_Live`), phases from the user's guards and exceptions (`Runtime_Guards`), what run() returns (`Runtime_Return`); refutations of C10 by explicit reachable states |
| C13, C14 | `GetSet_Model`: client, relaying services and process models as components of a Kahn network (`Kahn`: bounded FIFO channels, any schedule); nditer orders as index permutations | confluence of Kahn networks + one canonical schedule by induction over the program of requests; refutations for Fortran-ordered arrays, oversized sets, float gets |
| C15 | `Async_Model`: run_async loop | induction on steps; first-run theorem, refutations for later runs |
| C16-C19 | `PyPorts_Model`: csp queues as lists, ports as LTS/functions on them | induction over ports / request history |
| C20, C22 | `VPorts_Model`: shapes, row-major index arithmetic, transpose by axes lists, argsort, concat shape | mixed-radix arithmetic, permutations |
| C21, C54 | `Connect_Model`: port graph as state, `connect/connect_from/reshape/transpose/concat_with/connect_var` and validation | invariant over arbitrary programs of calls; refutations for half-made connections |
| C23, C24, C55 | `Process_Model`: Var aliases, id servers, ProcessParameters, Collection | induction on chains / histories |
| C25, C28 | `Network_Model` on `Connect_Model`'s graphs: find_processes, ChannelMap.from_proc_groups | reachability closure; NoDup and completeness of the map |
| C26, C27 | `Groups_Model`: DiGraphBase / ProcGroupDiGraphs surgery (`Groups_Dag` for is_dag) | well-founded pruning, permutation of flattened leaves; refutations |
| C29 | `Select_Model`: `AbstractLoihiRunCfg.select` branch by branch | case analysis; refutation of the double-index bug |
| C30 | `SyncDomain_Model` | fold invariants |
| C31 | `Mapper_Model` | fold invariant on offset and dictionary |
| C32-C34, C56, C57 | `Lif_Model` on `NpInt` (int16/32 wrap, shifts) | range invariants, induction on input sequences; the refractory theorem for arbitrary arithmetic |
| C35, C36, C58 | `Sdn_Model` (Sigma, Delta, SigmaDelta, delta encoder) | invariant act = residue + sum of outputs |
| C37 | `Codec_Model` | induction over the index list, refutations |
| C38, C39, C42, C59 | `Bits_Model` | Z.shiftl/Z.shiftr arithmetic |
| C40, C60 | `Conn_Model`/`Conn_Spec` (Dense, Sparse, Delay*, ConvInTime) | shift-register invariant; refutations |
| C41 | `Conv_Model` | index bijection and sum exchange |
| C43-C45 | `Io_Model` | induction on time |
| C46 | `IoPolicy_Model` on `Channel_Model` | refinement: every execution of the policy system projects to one of the channel; invariants on top |
| C47-C49, C61-C64 | `Learning_Model` | range invariants, interpreter of rules vs. arithmetic, history of an epoch |
| C50-C53 | `Clp_Model` | history invariants, closed forms |
| C65 | `Rule_Model`: SymbolicEquation lexer, product-series construction, LearningRule; `Rule_Spec`: grammar of documented rules with its meaning over Q | lexer run on printed expressions (`Rule_Proofs`), semantics of the compiled product series equals the arithmetic meaning (`Rule_Props`, `Rule_Props2`); refutations outside the grammar |
| C66-C68 | `Rf_Model`: RF, RF_IZ, RFZero, one neuron, int32/int64 arithmetic of numpy; the float RF over an arbitrary arithmetic | one-step error bound against the exact rotation, invariants over histories; overflow witnesses for RFZero |
| C69 | `Atrlif_Model`: ATRLIF fixed point, one neuron | one step against a relational specification, invariant, termination measure for the recovery; refutations for initial theta, full decay, integer decays, refractoriness |
| C70-C75 | `Graded_Model`: GradedVec, GradedReluVec, ProdNeuron, NormVecDelay, InvSqrt and the vector networks (Dense/Sparse from `Conn_Model`); table of InvSqrt with exact instead of floating arithmetic | induction over histories; InvSqrt by a verified interval-bisection checker evaluated in the kernel; refutations for overflow, hidden threshold, ignored fp_base, in-place scaling |
| C76 | `Connect_Model` (as C21) | invariant over all programs of calls: attributes kept, only compatible links added; refutations for 1:1 and direction |
| C77 | `NetAlg_Model`: evaluation of + and @ with mutable NetworkList objects, <<, programs of statements | induction over sums (connections written = connections made, up to order); invariant no duplicate; two refutations |
| C78 | `Rule_Model` composed with `Learning_Model` (glue in `RuleApply_Props`: constants of factors as integers) | the factors of a compiled product and their widths follow its atoms; exact 15-bit arithmetic below 12 bits; one rounding lemma for all sign modes; refutation for two traces |
| C79 | `Stdp_Model`: decimal printing, float_to_literal over exact rationals (double rounding of the quotient and logarithm left out), the rule texts of STDPLoihi and RewardModulatedSTDP | numerals are read back; the nearest power of two is unique (squares, no real logarithm); the texts write rules of the grammar of C65, whose theorems and C78 then apply |
| C80 | `Rule_Model` composed with `Learning_Model`, as C78 | the stored exponent is unique (`stored_unique`), so each product has one contribution; the bits of the factors give the shift; floor and range lemmas; corollary for RewardModulatedSTDP |
| C81 | `Exec_Model`: interleaving of process models over bounded channels with phase starts per sync domain; `Exec_Spec`: equations of one step, circular waiting | invariant relating every channel and program counter to the solution of the equations, progress from a rank that exists iff there is no circular waiting, measure for termination; instances for ring buffers, Dense and LIF in `Exec_Layers` |
| C82 | `Monitor_Model`: monitor processes added to any network of `Exec_Model`; probe() as operations on the members of the process | history of the equations (`Monitor_Spec`) extended to the probed network, then C81 for both networks; induction over probe() calls |
| C83 | `FloatLearn_Model`: the floating-point learning connection built from the texts of its rules, numbers are rationals or NaN; `FloatLearn_Spec`: dynamics of traces, one epoch, a run of epochs | closed form of the spiking phases of an epoch, the compiled rule evaluated against C65's arithmetic value, induction over epochs; NaN propagation for time constant 0 |
| C84 | `Factor3_Model`: three-factor connections, floating and fixed point; `Factor3_Spec`: an epoch with signals y1, y2, y3 | the pre-synaptic side coincides with C83, one learning phase depends on the received values of the last step only, induction over epochs; fixed point: bounds on stochastic rounding of the slow decay for every random number |
| C85 | `Life_Model`: client calls of the runtime and any number of services exchanging tokens (numbers); `Life_Net`: which runtime a process refers to; `Life_Spec`: answers of a history, documented histories | invariant over all schedules (`Life_Proofs`), a weight that every step lowers and progress (termination); induction over histories for networks; refutations outside the documented histories |
| C86 | `AsyncSvc_Model`: runtime, AsyncPyRuntimeService and N asynchronous process models as communicating automata over FIFO channels, user code abstracted to when run_async returns; `AsyncSvc_Spec`: histories, expected runs and results | normal form of a process (its queue run to the end) is invariant under its steps; invariant over all schedules, progress and a decreasing measure; refutations by exhibited executions |
| C87 | `ClpNet_Model`: PrototypeLIF and one time step of the whole network, composed from `Lif_Model`, `Conn_Model`, `Clp_Model`, `Learning_Model`, `Factor3_Model`; `ClpNet_Spec`: presentations, overlap, what a prototype stores | resting and pending states of the network, lemmas for each step of a presentation, induction over the stream; refutations by computation |
| C88 | `Kahn_Model`: arbitrary deterministic processes over bounded FIFO channels (receive, peek, send, probe, select) under any schedule, and its instance for runtime, LoihiPyRuntimeService and N process models with arbitrary user code; `Kahn_Spec`: wiring, absence of races, endless and fair executions | diamond property, absorption of any execution by a complete one, overtaking by a fair one (`Kahn_Proofs`); invariant of the handshake between runtime and service that rules out the race on the probe (`Kahn_Loihi`); refutations by computation |
| C89 | `Build_Model`: broadcasting assignment and conversion of numpy, builder, checks and attributes; `Build_Spec`: broadcasting by coordinates counted from the last, conversion as a relation, when a process model is acceptable | induction over shapes (`Build_Proofs`), over the lists of members; refutations for all classes or by computation |
| C90 | `S4d_Model`: state and output of one neuron over complex rationals; `S4d_Spec`: convolution sum with powers of a | induction over the inputs (`S4d_Proofs`) |
| C91 | `S4d_Model`: sigma, S4D activation, delta, Kronecker weights, buffers of the two connections; `S4d_Spec`: response of the linear system, running sums, tracking | invariant act - residue = total sent, geometric sums, telescoping over the layer (`S4d_Proofs`) |
| C92 | `LSparse_Model`: stored positions of csr matrices, truncation with elimination, learning restricted to stored positions, on top of `Learning_Model` and `FloatLearn_Model` | simulation with the dense connection: equal traces, equal values on the stored positions closed under what the rules read |
| C93 | `Watchdog_Model`: events, the two queues, monitor processes and their threads, stop(), time and latency as an executable transition system | invariants over all executions: phase of a call and event, deadlines of queue entries and threads, at most one watcher per port for separated calls |
| C94 | `Decor_Model`: class table with method resolution orders (C3), attribute lookup, the three decorators, class statements, modules and the search for models of a process | invariants of the table over all histories; induction over the module for the accumulated attributes |
| C95 | `Retune_Model`: the learning rule object with its setters and validators, the ProcessModel's copies, _set_var and on_var_update; generic in the step function, the data type of the Vars and the applier check, instantiated with FloatLearn_Model and Learning_Model | the thirteen setters in order equal the constructor if at most one text changed; bisimulation with an ideal connection that is created anew before each step |
| C96 | `IoReset_Model`: creation, guards and requests of Reset and Read over the RefPort transport of `PyPorts_Model`; time steps as owner update followed by any complete execution of the requests | from the C19 invariant: a phase that is over has served exactly the requests; the value is the last write in the owner's log; runs by induction; two executions constructed for the race |
| C97 | `SaveLoad_Model`: objects with ids and values, the two id counters, the files, and histories of actions over sessions; the dictionaries of the compiler and runtime that are keyed by process id and Var id, and the route of get/set through them | invariant over histories relating ids, creation number and numbering period of all objects live or in files; distinct keys make the dictionaries lists |
| C98 | `RefPhase_Model`: service, command queues, process loops with their phases, user code as trees of accesses, RefPort channels with messages in flight and visible | trace invariants (requests, replies, values, moments); stuck states analysed by the shape of commands and requests, circle by pigeonhole; termination by the symmetric product of well-founded orders |
| C99 | `Wire_Model` follows the data from connect() to recv(): Connect_Model's graph of ports, Network_Model's channel map, then channel builders, the numbered channels, csp_ports and _csp_port_map of each process as dictionaries, the transformers, and recv's loop. The specification has only connections: path, travel, total | invariants of the two tables over the list of channels (build_spec, tables_dst), uniqueness of ways, and the list of functions found by the recursive search is that of the ports on the way (incoming_way, outgoing_way). inport_value_partial adds that nothing fails: shapes along a way agree (C76, and a derived port is connected to the port it was derived from), the recursive search ends, the channel table is not empty. |
| C100 | Cache_Model: programs (processes with name, id, Vars, ports, parameters; channels), builders, the cache file, reading and writing, start of the executable, and get through var ids, model ids and the process model's table. Python process models, one runtime service; pickling is identity or failure. | Name lookup and dictionary lemmas; the cached builder of each process is that of the cached program with the same name; induction over the history of compilations; concrete programs for the false parts. |
| C101 | Slurm_Model: try_run_command over an arbitrary machine (outcome of the n-th command run), str.split, the tables, os.environ as a map, loihi.host. | Lines, Fields, Table: relations independent of the splitting functions, proved equal to them; success conditions as iff; frame conditions per call; induction over histories. |
| C102 | Startup_Model: a transition system of the system processes (building, up, stuck in the pipe, exited), the runtime services and the user's process in initialize, _get_resp_for_run and stop; what each process model does in the run and what its exception is like are parameters. | RunGives (every result in every schedule is r, and every final state has one) and RunHangs (no reachable state has a result) by invariants on processes, services and the user's process; a weight that every step lowers. |
| C103 | Hier_Model: find_sub_procs over the attributes of the built model, registration, the recursive map from processes to models, the resolved graph, folded views; choosing and building a model are parameters. | An inductive reachability (Inside) and nesting depth, independent of the recursion; an invariant of the recursive map (Expanded) giving the map, classes, parents and members; an induction along the order of the set for the folded views. |
| C104 | Mnist_Model: the constructor as a program over a file system (temp files, data files) that may be killed at each change; mirrors by what they do for each file at each attempt; decompression a parameter. | An invariant on what may be at the data path over histories (Sane); equations for download, conversion and saving; independence of the temp files by a simulation of two runs. |
| C105 | ConvProc_Model: the constructor's checks, the int8 Var of groups, a step's convolution (the model of conv_scipy of C41) with its exceptions, precision, and the process as a run over a sequence of inputs with the delayed buffer. | Induction over the inputs; C41's theorem that conv_scipy is the convolution and C38's on signed_clamp; arithmetic of int8 for the groups. |
| C106 | Raster_Model: pyplot as figures, axes and the current ones; gca-based calls; raster_plot with its checks in order and the loop over range(0, n, stride). | Composition of updates to the current axes into one; membership and NoDup of the range and of the points; a run equation from which the claims follow. |
| C107 | RfAlg_Model: __lshift__ on C77's store of connections and lists, with the partial effect of a statement that raises and its value. | Case analysis over connect; C77's evaluation of sums. |
| C108 | ChanUpd_Model: the updater on C28's port graphs, the map as a dictionary to payload identities. | A composable description of dictionary updates (keys, order, values) over the loops; C54's exactness of get_dst_ports and get_src_ports; C28's exact channel map for closed networks. |

## Testing the theorems against wrong programs

`tools/mutate.py tools/mutants/X.json` applies one realistic bug at a time to a scratch copy of the
model, rebuilds, admits (in the scratch copy only) every lemma whose proof breaks, and asks
`Print Assumptions` which manifest theorems now rest on such a lemma.  A mutant whose claim has no
failing theorem is a weak spot; the theorem is then tightened and the mutant rerun
(`theorems_tightened` in `seeded/LOG.jsonl`, one line per attempt).

## Trusted base

* Coq 8.16.1's kernel (and coqc as the driver; `vcheck` rebuilds from a clean checkout).
* `Print Assumptions` of every theorem named in MANIFEST.json prints "Closed under the global
  context": no axiom at all, neither of ours nor of the standard library (list in ASSUMPTIONS.txt,
  generated by `tools/gen_assumptions.py`).  `vcheck` additionally reports seven constants
  `Coq.ssr.ssrunder.Under_rel.*`: they belong to a sealed module of Coq's own ssreflect library that is
  loaded with some imports; no theorem here depends on them.
* The transcription from Python to the model: every definition cites file and lines; every
  simplification is stated in the comment of the definition or at the head of the model file.
* The semantics assumed of Python, numpy and the operating system: per-operation atomicity of
  semaphores, queue.Queue, condition variables and single shared-memory slot writes; sequentially
  consistent shared memory between processes; numpy integer semantics as in `NpInt` (two's complement
  wrap, arithmetic right shift), C-order flattening, left-to-right evaluation.

### Modelled parts of /repo/src/lava

magma/compiler/channels/pypychannel.py (channel, selector); magma/runtime/runtime.py (run, pause, stop,
get_var/set_var); runtime_services/runtime_service.py (LoihiPyRuntimeService, AsyncPyRuntimeService);
magma/core/model/py/model.py (PyLoihiProcessModel, PyAsyncProcessModel, PyLoihiModelToPyAsyncModel), ports.py (In/Out/Ref/Var
ports), connection.py (two- and three-factor learning, fixed and floating point); magma/core/process (ports, variable, process collections
and parameters); magma/compiler (process builder: Vars, ports and their declarations, find_processes, channel map, process groups, sync domains, runtime
service builders, mapper for neuro cores); magma/core/run_configs.py (select);
magma/core/learning (rule compiler, appliers, rounding); proc/lif, sdn, dense, sparse, conv,
conv_in_time, io (ring buffers, loaders, Read, injector/extractor policies, delta encoder and codecs),
bit_check, clp (novelty detector, allocator, readout, PrototypeLIF and the one-shot learning network), spiker, rf, rf_iz, resfire, atrlif (fixed point), graded, prodneuron, s4d, monitor; networks (gradedvecnetwork, network operators); utils (weightutils).

### Not modelled

Neuro-core and C process models and their compilers (no hardware in the repository); the C-builder part of
map_cores; floating-point rounding (float models are treated over exact arithmetic or for any arithmetic
where stated); process start-up by multiprocessing, the watchdog, logging, profiling, visualisation and
tutorials; serialization.py; dtype conversions of user data unless stated.
