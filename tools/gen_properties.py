#!/usr/bin/env python3
"""Writes properties.jsonl (kept as a script so entries stay well-formed)."""
import json, os
P = []
def p(id, title, statement, quantifier, why, *anchors):
    P.append(dict(id=id, title=title, statement=statement, quantifier=quantifier,
                  why_tests_cant=why, anchors=list(anchors)))
CH = "src/lava/magma/compiler/channels/pypychannel.py"
RS = "src/lava/magma/runtime/runtime_services/runtime_service.py"
RT = "src/lava/magma/runtime/runtime.py"
PM = "src/lava/magma/core/model/py/model.py"
PP = "src/lava/magma/core/model/py/ports.py"
PO = "src/lava/magma/core/process/ports/ports.py"
CG = "src/lava/magma/compiler/compiler_graphs.py"
CO = "src/lava/magma/compiler/compiler.py"

p("C01", "A channel delivers every message exactly once, in order",
  "Whatever values a process passes to send() on one end of a channel, the values returned by recv() on the other end are, at every moment, a prefix of the sequence of values sent: nothing is lost, duplicated, reordered or altered, and nothing sent is unaccounted for; an array of the wrong shape is refused and nothing is sent.",
  "every channel capacity >= 1, every sequence of sent values, every interleaving of the sending thread, the receiving thread and the two internal service threads, at every point of the execution (including after either end is joined)",
  "The buffer is a shared ring guarded by three counters updated by four threads; a test sees a handful of schedules.",
  CH+":CspSendPort.send", CH+":CspRecvPort.recv", CH+":CspSendPort._ack_callback", CH+":CspRecvPort._req_callback")
p("C02", "A channel never overwrites unread data and its internals never overflow",
  "A send() never writes into a buffer slot that still holds a message the receiver has not read; at most `size` messages are outstanding; the internal bookkeeping can never raise queue.Full or over-release its bounded semaphore, so neither service thread can die.",
  "every capacity >= 1 and every interleaving of the four threads",
  "Overflow needs a specific interleaving of four threads at the wrap-around point.",
  CH+":CspSendPort.send", CH+":CspRecvPort._req_callback", CH+":CspSendPort._ack_callback")
p("C03", "send() and recv() do not block for ever without cause",
  "If a message has been sent and not yet received, a process blocked in recv() is always woken after finitely many internal steps; if fewer than `size` messages are outstanding, a process blocked in send() is always woken after finitely many internal steps. No reachable state is a deadlock of the channel itself.",
  "every reachable state of the channel under every interleaving, and every continuation by internal steps",
  "Absence of deadlock quantifies over all reachable states.",
  CH+":CspSendPort.send", CH+":CspRecvPort.recv")
p("C04", "probe() and peek() tell the truth",
  "On the receiving end: probe() is True exactly when a recv() issued now returns without waiting, and it stays True until the reader itself receives; peek() returns the value the next recv() will return and consumes nothing. On the sending end probe() True means a send() issued next will not wait for a slot.",
  "every reachable state and every interleaving of the internal threads between the probe and the following call",
  "Races between probe and the following call depend on the schedule.",
  CH+":CspRecvPort.probe", CH+":CspRecvPort.peek", CH+":CspSendPort.probe")
p("C05", "select() returns the first ready channel and never sleeps through a ready one",
  "CspSelector.select() returns the action of a channel that is ready, preferring the earliest one in argument order that was found ready in its scan; and whenever some listed channel becomes ready while select() is waiting, select() is woken.",
  "every number of channels, every capacity, every interleaving of senders, channel service threads and the selecting thread",
  "A lost wake-up needs one specific interleaving between the service thread's probe and its enqueue.",
  CH+":CspSelector.select", CH+":CspRecvPort._req_callback")
p("C06", "Joining a port loses nothing already sent",
  "After the sending port is joined, every message whose send() had returned is still received, in order; joining either port makes its service thread terminate; joining twice is harmless.",
  "every reachable state in which join() is called, every interleaving afterwards",
  "The join hand-shake reuses the data semaphore; whether a token is swallowed depends on the schedule.",
  CH+":CspSendPort.join", CH+":CspRecvPort.join")
p("C07", "RunSteps(n) runs every process exactly n time steps",
  "When a process network is idle and run(RunSteps(num_steps=n)) completes without a pause, stop or error being requested, the spiking phase of every process of the sync domain has been executed exactly n more times, every process is left in the host phase, and the runtime receives exactly one completion message.",
  "every n, every number of processes, every outcome of the guards of every process at every step, every interleaving of processes",
  "The number of phases per step is decided dynamically by all processes together.",
  RS+":LoihiPyRuntimeService.run", RS+":LoihiPyRuntimeService._next_phase", PM+":PyLoihiProcessModel._spike")
p("C08", "Processes of a sync domain advance in lock step",
  "At every moment, the time-step counters of any two processes in the same sync domain differ by at most one, and no process starts a phase before every process has finished the previous one.",
  "every number of processes, every schedule, every guard outcome, at every moment",
  "Barrier properties quantify over all schedules.",
  RS+":LoihiPyRuntimeService._send_pm_cmd", RS+":LoihiPyRuntimeService._get_pm_resp", RS+":LoihiPyRuntimeService.run")
p("C09", "Phases within a time step come in the documented order and only on request",
  "Within one time step the phases seen by a process are spiking, then pre-learning management, learning and post-learning management in that order, each at most once and each only if some process asked for it; a process that asked for learning gets a learning phase in the same time step. In terms of the user's code: in every time step each process runs run_spk, run_lrn iff its lrn_guard holds, run_post_mgmt iff its post_guard holds, and run_pre_mgmt iff its pre_guard holds and some process has both lrn_guard and pre_guard; each once, in the order spk, pre, lrn, post, and with the current time_step.",
  "every number of processes and every combination of guard outcomes",
  "2^(3N) guard combinations per step.",
  RS+":LoihiPyRuntimeService._next_phase", RS+":LoihiPyRuntimeService._get_pm_resp", PM+":PyLoihiProcessModel._spike", PM+":PyLoihiProcessModel._pre_mgmt", PM+":PyLoihiProcessModel._lrn", PM+":PyLoihiProcessModel._post_mgmt")
p("C10", "pause() then run() resumes and completes",
  "If execution is paused and run() is called again with RunSteps(n), the network continues from where it was paused, executes exactly n more time steps and reports completion so that the blocking call returns.",
  "every history of run/pause calls and every arrival time of the pause command relative to the running network",
  "The outcome depends on the moment the pause command is noticed and on flags left over from earlier runs.",
  RS+":LoihiPyRuntimeService.run", RS+":LoihiPyRuntimeService._handle_pause", RT+":Runtime.pause", RT+":Runtime._get_resp_for_run")
p("C11", "stop() terminates every process, whatever it was doing",
  "If stop is requested at any moment of a run or while idle, every process of the sync domain receives exactly one stop command and acknowledges it, the service reports termination exactly once, and nothing is executed afterwards.",
  "every number of processes, every moment at which stop arrives, every schedule",
  "Stop may arrive in any of the phases of any step.",
  RS+":LoihiPyRuntimeService._handle_stop", RS+":LoihiPyRuntimeService.run", PM+":PyLoihiProcessModel._stop")
p("C12", "An exception in one process is reported and stops the others",
  "If the user code of any process raises in any phase, the runtime is sent an error, no further phase is started on any process, and every other process is told to stop.",
  "every process, phase and time step at which the exception is raised, every number of processes",
  "Failure points are unbounded.",
  RS+":LoihiPyRuntimeService.run", PM+":AbstractPyProcessModel.run")
p("C13", "Var.set / Var.get reach exactly the addressed variable",
  "A get or set request for a variable is answered by the process that owns it and by no other; other variables and other processes are unchanged, and the next command on every channel is read at the right place (no stray data items are left in any channel).",
  "every number of processes and variables, every variable size, every value",
  "Length-prefixed streams relayed through two channels: an off-by-one desynchronises all later commands.",
  RS+":PyRuntimeService._handle_get_set", RS+":PyRuntimeService._relay_to_runtime_data_given_model_id", RS+":PyRuntimeService._relay_to_pm_data_given_model_id", RT+":Runtime.set_var", RT+":Runtime.get_var", PM+":AbstractPyProcessModel._get_var", PM+":AbstractPyProcessModel._set_var")
p("C14", "Reading a variable back returns what was written",
  "After var.set(value) succeeds, var.get() returns the same array, for every shape, element order and memory layout of the variable.",
  "every shape, every memory layout of the stored array, every value",
  "Requires all shapes and layouts.",
  PM+":AbstractPyProcessModel._get_var", PM+":AbstractPyProcessModel._set_var", RT+":Runtime.set_var", RT+":Runtime.get_var")
p("C15", "A model converted to async runs the requested number of steps on every run",
  "A process model produced by PyLoihiModelToPyAsyncModel executes run_spk exactly n times for each run(RunSteps(n)), on the first and on every later run, like the original model.",
  "every sequence of run lengths",
  "Needs arbitrary histories of runs.",
  PM+":PyLoihiModelToPyAsyncModel")
p("C16", "An InPort receives the sum of all its (transformed) inputs",
  "recv() on a vector-dense InPort connected to k sources returns the element-wise sum of one message from each source, each passed through the reshape/transpose/concat operations of its own connection, and consumes exactly one message per source; with no connection it returns zeros.",
  "every number of sources, every chain of virtual ports, every message history",
  "Any fan-in, any chain.",
  PP+":PyInPortVectorDense.recv", PP+":VirtualPortTransformer.transform")
p("C17", "peek() on an InPort leaves the data in place",
  "peek() on an InPort returns the value that the next recv() returns and keeps the data on the channel.",
  "every number of sources and every message history",
  "Needs a history following the peek.",
  PP+":PyInPortVectorDense.peek", PP+":PyInPortVectorSparse.peek")
p("C18", "A sparse OutPort delivers the same (data, indices) pair to every destination",
  "Every destination of a sparse OutPort receives the data and index vectors that were sent, up to its own buffer length, independently of the other destinations.",
  "every number of destinations and buffer shapes, every payload length",
  "In-place resizing makes the outcome depend on the order and shapes of all destinations.",
  PP+":PyOutPortVectorSparse.send", PP+":PyInPortVectorSparse.recv")
p("C19", "RefPort reads and writes act on the remote Var in program order",
  "Through a RefPort, read() returns the value of the referenced variable at the time the request is served, write(v) followed by a served read() returns v, and each request is answered exactly once, also through chains of virtual ports.",
  "every sequence of reads and writes, every value, every chain of virtual ports",
  "Unbounded request histories.",
  PP+":PyRefPortVectorDense.read", PP+":PyRefPortVectorDense.write", PP+":PyVarPortVectorDense.service")
p("C20", "Reshape, transpose and concat ports only rearrange data",
  "A reshape or transpose port delivers exactly the elements it is given, re-indexed as numpy would; the transformation used for the reverse direction of a RefPort connection undoes the forward one.",
  "every shape, every permutation of axes, every data",
  "All shapes and permutations.",
  PO+":TransposePort.get_transform_func_fwd", PO+":TransposePort.get_transform_func_bwd", PO+":ReshapePort", PO+":AbstractPort.transpose")
p("C21", "connect() records a connection on both sides or on neither",
  "After connect()/connect_from(), port a lists b as an output exactly when b lists a as an input, no port lists the same connection twice, and an attempt that raises leaves no half-made connection.",
  "every sequence of connect calls over any number of ports",
  "Histories of connect calls including failing ones.",
  PO+":AbstractPort._connect_forward", PO+":AbstractPort._connect_backward", PO+":AbstractPort._validate_ports")
p("C22", "concat_with accepts exactly the shape-compatible lists of ports",
  "Concatenating ports along an axis succeeds exactly when all shapes agree outside that axis, and the resulting size along the axis is the sum of the sizes.",
  "every number of ports, every rank and every axis",
  "All shape lists.",
  PO+":ConcatPort._get_new_shape")
p("C23", "An aliased Var always denotes the aliased variable",
  "Reading or writing an aliased variable is reading or writing the variable at the end of its alias chain; an alias is only accepted when shapes agree and the target belongs to a strict sub-process.",
  "every alias chain and process hierarchy",
  "Unbounded chains and hierarchies.",
  "src/lava/magma/core/process/variable.py:Var.alias", "src/lava/magma/core/process/variable.py:Var.validate_alias", "src/lava/magma/core/process/variable.py:Var.get", "src/lava/magma/core/process/process.py:AbstractProcess.is_sub_proc_of")
p("C24", "Process and variable ids are unique; process parameters are never silently overwritten",
  "Every process and every variable created in a session gets an id different from all earlier ones; assigning to a process parameter that is already present is refused and leaves the stored value unchanged, only overwrite() replaces it.",
  "every history of registrations and assignments",
  "Histories are unbounded.",
  "src/lava/magma/core/process/interfaces.py:IdGeneratorSingleton", "src/lava/magma/core/process/process.py:ProcessParameters", "src/lava/magma/core/process/variable.py:VarServer")
p("C25", "Compiling any process compiles its whole connected network and nothing else",
  "The set of processes found from a process is exactly the set of processes linked to it through any chain of port connections in either direction; the search terminates on cyclic networks.",
  "every finite process network and every starting process",
  "All graphs, including cyclic ones.",
  CG+":find_processes")
p("C26", "is_dag answers correctly",
  "is_dag() returns True exactly when the directed graph has no directed cycle.",
  "every finite directed graph",
  "All graphs.",
  CG+":DiGraphBase.is_dag", CG+":DiGraphBase.annotate_digraph_by_degree")
p("C27", "Every process of the network ends up in exactly one process group",
  "Collapsing process graphs into groups never loses or duplicates a process: each process found appears in exactly one group handed to the sub-compilers, and connectivity between groups mirrors connectivity between their members.",
  "every finite process graph and every set of sub-graphs collapsed",
  "All graphs, including disconnected ones.",
  CG+":DiGraphBase.collapse_subgraph_to_node", CG+":ProcGroupDiGraphs._collapse_isomodel_procs", CG+":ProcGroupDiGraphs.get_proc_groups", CG+":flatten_list_recursive")
p("C28", "There is one channel per connected pair of ports",
  "The channel map built for a network contains each pair (source port, destination port) that is connected between two compiled processes exactly once and no other pair.",
  "every network",
  "All networks.",
  "src/lava/magma/compiler/channel_map.py:ChannelMap.from_proc_groups", "src/lava/magma/compiler/channel_map.py:ChannelMap._get_port_pairs_from_proc_groups")
p("C29", "A RunConfig only ever selects a suitable ProcessModel",
  "The model selected for a process is one of the offered models (or the user's explicit exception), runs on the configuration's hardware (or is a sub-process model), carries the requested tag when a tag was requested and models are tagged, and the earliest suitable model in preference order is chosen; if none is suitable an error is raised.",
  "every list of candidate models, tags and options",
  "All lists of candidates.",
  "src/lava/magma/core/run_configs.py:AbstractLoihiRunCfg.select")
p("C30", "Every process belongs to exactly one sync domain with a compatible protocol",
  "After sync domains are created every process of the network is in exactly one sync domain, that domain's protocol is the one its model implements, and each process is served by exactly one runtime service.",
  "every network and every list of custom sync domains",
  "All assignments.",
  CO+":Compiler._create_sync_domains", CO+":Compiler._create_runtime_service_builder")
p("C31", "Logical cores are mapped to distinct physical cores",
  "The mapper gives every logical core of every compiled process a physical (chip, core) address within range, maps the same logical core of one process consistently, and never maps two different logical cores (of the same or of different processes) to one physical core.",
  "every list of compiled processes and logical addresses",
  "All lists.",
  "src/lava/magma/compiler/mapper.py:Mapper.map_cores", "src/lava/magma/compiler/mapper.py:Mapper._set_virtual_address_nc")
p("C32", "The fixed-point LIF state stays within its 24 bits",
  "For every sequence of inputs representable on the hardware the membrane potential of the fixed-point LIF stays within the 24-bit limits and the current stays within the 24-bit wrap-around range.",
  "every decay constant, bias, threshold and every input sequence of any length",
  "All input sequences.",
  "src/lava/proc/lif/models.py:AbstractPyLifModelFixed.subthr_dynamics")
p("C33", "A LIF neuron spikes exactly when its potential exceeds the threshold, and is then reset",
  "A fixed-point LIF neuron emits a spike at a time step if and only if its potential after the sub-threshold update exceeds vth*2^6, and its potential is then zero; the threshold used is the current value of vth; without input and bias the current (and, if dv > 0, the potential) decays to zero.",
  "every parameter set and input history",
  "All histories.",
  "src/lava/proc/lif/models.py:PyLifModelBitAcc", "src/lava/proc/lif/models.py:AbstractPyLifModelFloat.run_spk")
p("C34", "A refractory LIF neuron respects its refractory period",
  "After a spike of a LIFRefractory neuron no spike follows for the configured number of time steps, and its potential does not integrate meanwhile.",
  "every parameter set and input history",
  "All histories.",
  "src/lava/proc/lif/models.py:PyLifRefractoryModelFloat")
p("C35", "Sigma after Delta reconstructs the signal up to the threshold",
  "Feeding the output of a Delta neuron into a Sigma neuron reproduces the Delta neuron's activation at every step with an error of at most the threshold (exactly when the threshold is 0), and errors do not accumulate.",
  "every input sequence, threshold and spike exponent, at every time step",
  "Error accumulation over unbounded time.",
  "src/lava/proc/sdn/models.py:AbstractDeltaModel.delta_dynamics", "src/lava/proc/sdn/models.py:AbstractSigmaModel.sigma_dynamics")
p("C36", "The delta encoder tracks its input",
  "The accumulated output of a DeltaEncoder differs from its input by less than the threshold at every step, if clipping is off; with clipping every emitted value lies in the clipping range and nothing is lost (the residue is carried over).",
  "every input sequence and threshold",
  "Unbounded time.",
  "src/lava/proc/io/encoder.py:PyDeltaEncoderModelDense")
p("C37", "Compressed delta-encoder streams decode to what was encoded",
  "Decoding the sparse, packed-4 and delta-sparse-8 encodings of a delta vector gives back the vector (for values that fit the documented 8 bits).",
  "every vector length and content",
  "Gaps of all sizes.",
  "src/lava/proc/io/encoder.py:PyDeltaEncoderModelSparse.encode_packed_4", "src/lava/proc/io/encoder.py:PyDeltaEncoderModelSparse.encode_delta_sparse_8", "src/lava/proc/io/encoder.py:PyDeltaEncoderModelSparse.decode_encode_delta_sparse_8")
p("C38", "BitCheck reports overflow exactly when the value does not fit",
  "The BitCheck process flags an overflow exactly when some received value is outside the signed range of the configured bit width.",
  "every 32-bit value and every width",
  "2^32 values times widths.",
  "src/lava/proc/bit_check/models.py:AbstractBitCheckModel.check_bit_overflow")
p("C39", "Weight clipping and truncation respect range, sign and precision",
  "Clipped weights lie in the range of the sign mode and bit width and in-range weights are unchanged; truncation to n bits never increases magnitude, keeps the sign, changes a weight by less than one truncation step and yields multiples of the step; truncating twice is truncating once.",
  "every weight, sign mode and bit width",
  "All values.",
  "src/lava/utils/weightutils.py:clip_weights", "src/lava/utils/weightutils.py:truncate_weights")
p("C40", "Connection processes deliver weighted sums with the documented delay",
  "A Dense connection sends at step t+1 the weighted sum of its step-t input; a delayed connection adds d_ij further steps for synapse ij, and each input contributes exactly once to the output.",
  "every weight and delay matrix, every input sequence, every step",
  "Unbounded time, all delay matrices.",
  "src/lava/proc/dense/models.py:AbstractPyDenseModelFloat.run_spk", "src/lava/proc/dense/models.py:AbstractPyDelayDenseModel.update_act", "src/lava/proc/conv_in_time/models.py:AbstractPyConvInTimeModel.update_act")
p("C41", "conv_to_sparse is the convolution",
  "The sparse matrix produced from a convolution kernel, applied to the flattened input, equals the flattened convolution of the input, for each supported tensor order; every listed index is in range.",
  "every input size, kernel, stride, padding, dilation, grouping and tensor order",
  "All geometries.",
  "src/lava/proc/conv/utils.py:conv_to_sparse", "src/lava/proc/conv/utils.py:conv_scipy", "src/lava/proc/conv/utils.py:output_shape")
p("C42", "signed_clamp wraps to a signed bit width",
  "signed_clamp(x, bits) is congruent to x modulo 2^bits, lies in the signed range, and is the identity on that range.",
  "every integer and bit width",
  "All integers.",
  "src/lava/proc/conv/utils.py:signed_clamp")
p("C43", "Ring-buffer source and sink replay and record the stream",
  "A source RingBuffer sends column (t-1) mod N at step t; a sink RingBuffer of length N holds after T steps the last min(T,N) received vectors at their documented positions; source into sink of the same length reproduces the data.",
  "every buffer length, every data, every number of steps",
  "Wrap-around for all lengths.",
  "src/lava/proc/io/source.py:AbstractPyRingBuffer", "src/lava/proc/io/sink.py:PyReceiveModelFloat")
p("C44", "Read samples the monitored variable at the configured times only",
  "The Read sink records the referenced variable exactly at the steps selected by interval and offset, in order, wrapping at the buffer length.",
  "every interval, offset, buffer and run length",
  "All combinations.",
  "src/lava/proc/io/sink.py:ReadModel")
p("C45", "The data loaders present samples in order, each for its interval",
  "The state and spike data loaders present every sample of the data set in order for exactly `interval` steps starting at the offset, then wrap around.",
  "every data set size, interval and offset",
  "All combinations.",
  "src/lava/proc/io/dataloader.py:AbstractPyStateDataloader", "src/lava/proc/io/dataloader.py:AbstractPySpikeDataloader")
p("C46", "Injector and extractor policies do what they say",
  "Under a BLOCK policy no data is dropped and order is kept; under DROP exactly the data offered while the buffer is full is dropped; under ACCUMULATE the received value is the sum of everything buffered; under FIFO one item is returned per call; when empty, ZERO returns zeros and BLOCK waits.",
  "every history of sends and receives and every buffer size",
  "All histories.",
  "src/lava/proc/io/utils.py:SendFull", "src/lava/proc/io/utils.py:ReceiveNotEmpty", "src/lava/proc/io/utils.py:ReceiveEmpty", "src/lava/proc/io/injector.py", "src/lava/proc/io/extractor.py")
p("C47", "Learning never drives synaptic variables out of their range or sign",
  "After every learning step weights and tags of a fixed-point learning connection are inside their hardware range and weights keep the sign of an excitatory or inhibitory connection.",
  "every learning rule, spike history and random seed",
  "All rules and histories.",
  "src/lava/magma/core/model/py/connection.py:LearningConnectionModelBitApproximate._apply_learning_rules", "src/lava/magma/core/learning/learning_rule_applier.py:LearningRuleApplierBitApprox.apply")
p("C48", "Learning happens exactly once per epoch",
  "The learning phase of a plastic connection runs exactly at time steps that are multiples of t_epoch, and recorded within-epoch spike times are between 1 and t_epoch and denote the right time step.",
  "every t_epoch and time step",
  "All steps.",
  "src/lava/magma/core/model/py/connection.py:PyLearningConnection.lrn_guard", "src/lava/magma/core/model/py/connection.py:LearningConnection._within_epoch_time_step")
p("C49", "Traces stay within seven bits",
  "Fixed-point traces stay in [0,127] under any sequence of spikes, decays and random roundings, and never grow by decay.",
  "every spike train, impulse, time constant and random sequence",
  "All histories.",
  "src/lava/magma/core/model/py/connection.py:LearningConnectionModelBitApproximate._add_impulse", "src/lava/magma/core/model/py/connection.py:LearningConnectionModelBitApproximate._decay_trace", "src/lava/magma/core/learning/utils.py:stochastic_round")
p("C50", "The novelty detector fires iff no recognition arrives in time",
  "The novelty detector emits a single pulse exactly when t_wait+1 steps have passed since the last input without an output, and stays silent otherwise.",
  "every input/output history and waiting time",
  "All histories.",
  "src/lava/proc/clp/novelty_detector/models.py:PyNoveltyDetectorModel.run_spk")
p("C51", "The allocator hands out each prototype id once",
  "Successive allocation signals carry the ids 1, 2, 3, ... each exactly once, and no id beyond the number of prototypes is allocated.",
  "every trigger history and population size",
  "All histories.",
  "src/lava/proc/clp/nsm/models.py:PyAllocatorModel.run_spk")
p("C52", "The readout never forgets or overwrites a true label",
  "Once a prototype carries a user-provided label it keeps it for ever; feedback is +1/-1 exactly when the last winner had a true label that agrees/disagrees with the user label; allocation is triggered exactly on disagreement.",
  "every history of inferences and user labels",
  "All histories.",
  "src/lava/proc/clp/nsm/models.py:PyReadoutModel.run_spk")
p("C53", "The Spiker sends its payload at its period",
  "A Spiker with period r sends its payload exactly every r steps and zero otherwise.",
  "every period, payload and number of steps",
  "All steps.",
  "src/lava/proc/spiker/models.py:SpikerModel.run_spk")
p("C54", "get_dst_ports() and get_src_ports() see the same connections",
  "For a port a without inputs and a port b without outputs, b is listed by a.get_dst_ports() exactly when a is listed by b.get_src_ports(), and exactly when a chain of connections leads from a to b.",
  "every port graph built by connect/connect_from/reshape/transpose/concat_with/connect_var calls",
  "All graphs, all depths of virtual and hierarchical ports.",
  PO+":AbstractPort.get_dst_ports", PO+":AbstractPort.get_src_ports")
p("C55", "Iterating over a process's ports, vars or sub-processes visits each member once",
  "A for loop over a Collection (proc.vars, proc.in_ports, ...) visits every member exactly once in insertion order, whatever loops ran before and also when loops are nested.",
  "every collection and every history of loops, nested or left early",
  "All loop histories.",
  "src/lava/magma/core/process/process.py:Collection.__next__", "src/lava/magma/core/process/process.py:Collection.__iter__")
LIF = "src/lava/proc/lif/models.py"
p("C56", "A ternary LIF neuron spikes with the sign of the threshold that was crossed",
  "A fixed-point TernaryLIF sends +1 exactly when its potential exceeds vth_hi*2^6, -1 exactly when it is below vth_lo*2^6 and 0 otherwise, and its potential is reset exactly when it spikes.",
  "every thresholds, parameter set and input history",
  "All values and histories.",
  LIF+":PyTernLifModelFixed.spiking_activation", LIF+":PyTernLifModelFixed.reset_voltage")
p("C57", "LIFReset forgets its state at the configured steps and only there",
  "At every step t with t = reset_offset (mod reset_interval) the state before the step has no influence on any later output; at other steps a LIFReset neuron behaves as a LIF neuron.",
  "every interval, offset, state and input history",
  "All steps and histories.",
  LIF+":PyLifResetModelBitAcc.run_spk")
p("C58", "The decoded output of a SigmaDelta neuron tracks its activation",
  "The accumulated output of a fixed-point SigmaDelta neuron, scaled by 2^state_exp, stays within the threshold of its activation at every step; errors do not accumulate.",
  "every input sequence, bias, activation, threshold, spike and state exponent",
  "All histories.",
  "src/lava/proc/sdn/models.py:PySigmaDeltaModelFixed.run_spk", "src/lava/proc/sdn/models.py:PySigmaDeltaModelFixedCorrected.run_spk")
p("C59", "optimize_weight_bits represents the weights without loss",
  "For an 8-bit weight matrix the optimized weights, weight exponent and number of weight bits represent the same weights: scaled back by the exponent they are the original weights, they fit the hardware range and truncation to the reported number of bits leaves them unchanged; determine_sign_mode classifies every matrix by the signs of its entries.",
  "every non-empty integer matrix and sign mode",
  "All matrices; the error is at a corner value.",
  "src/lava/utils/weightutils.py:optimize_weight_bits", "src/lava/utils/weightutils.py:_determine_weight_exp", "src/lava/utils/weightutils.py:_determine_num_weight_bits", "src/lava/utils/weightutils.py:determine_sign_mode")
p("C60", "A fixed-point connection only uses weights of its declared precision",
  "At every step the weights a bit-accurate Dense, Sparse or delayed connection uses lie in the 8-bit range of its sign mode and are multiples of the step given by num_weight_bits, whatever weights the user constructed it with or set between runs.",
  "every weight matrix, every history of steps and weight updates",
  "All histories of set and run.",
  "src/lava/proc/dense/models.py:AbstractPyDenseModelBitAcc.run_spk", "src/lava/proc/sparse/models.py:AbstractPySparseModelBitAcc.run_spk")
CONN = "src/lava/magma/core/model/py/connection.py"
APPL = "src/lava/magma/core/learning/learning_rule_applier.py"
p("C61", "A fixed-point learning rule adds the product it spells",
  "The amount a product of a learning rule adds to a synaptic variable of a fixed-point learning connection is the product of its factors (each saturated to its width), scaled by mantissa and exponent, brought to 15 bits and saturated; in particular it has the sign of the product.",
  "every product of factors with legal scaling, every value of traces and synaptic variables",
  "All values; the error appears only at large values.",
  APPL+":LearningRuleApplierBitApprox.apply", APPL+":LearningRuleApplierBitApprox._compute_factor")
p("C62", "A rule acts exactly on the events it depends on",
  "A product of a rule is switched on exactly in the epochs in which its event happens, and a synaptic variable does not change in an epoch in which none of the events its rule's products depend on (a spike of the pre- or post-synaptic neuron in that epoch, or a decimated update uk in every 2^k-th epoch) happens, whatever the traces and random numbers are.",
  "every learning rule, spike history, epoch length and random sequence",
  "All histories.",
  CONN+":PyLearningConnection.run_lrn", CONN+":PyLearningConnection._update_dependencies", CONN+":LearningConnectionModelBitApproximate._extract_applier_args")
p("C63", "Stochastic rounding in learning is unbiased",
  "When a trace impulse or a synaptic variable is rounded stochastically, the probability of rounding up is the fractional part.",
  "every impulse and every accumulator value",
  "A statement about all random numbers.",
  CONN+":LearningConnectionModelBitApproximate._add_impulse", CONN+":LearningConnectionModelBitApproximate._decompose_impulses", "src/lava/magma/core/learning/random.py:TraceRandom", "src/lava/magma/core/learning/utils.py:stochastic_round")
p("C64", "Traces follow their dynamics and rules see them at the time of their event",
  "At the end of every epoch a trace of a fixed-point two-factor learning connection has the value obtained by decaying it at every step and adding its impulse at every spike of its neuron; a product gated by x0 (y0) sees every trace as it was at the step of the pre-synaptic (post-synaptic) spike, one gated by uk as it is at the end of the epoch.",
  "every spike train, impulse, decay, epoch length and random sequence",
  "All histories.",
  CONN+":LearningConnectionModelBitApproximate._compute_trace_histories", CONN+":PyLearningConnection._extract_applier_evaluated_traces", CONN+":LearningConnectionModelBitApproximate._process_pre_spikes", CONN+":LearningConnectionModelBitApproximate._process_post_spikes")
LEARN="src/lava/magma/core/learning/"
p("C65", "Learning rules mean what they say",
  "A learning rule given as a string (dw, dd or dt of a LearningRule) is either refused or compiled to products whose sum has the arithmetic value of the expression, for all values of the traces and synaptic variables and whichever of the events x0, y0, uk occur; the period of uk and the set of traces evaluated for a dependency are those written. A rule is refused exactly if a product has no dependency, uk is not written first in its product, different periods occur, or a scaling constant cannot be represented.",
  "every string that writes a sum of signed products of x0, y0, uk, x1, x2, y1, y2, y3, w, d, t, literals (n, 2^e, n*2^e), brackets (+-v+-c) and sgn(v+-c), with spaces anywhere, and every assignment of values",
  "Unboundedly many rules and valuations.",
  LEARN+"symbolic_equation.py:SymbolicEquation._parse", LEARN+"symbolic_equation.py:Literal.find", LEARN+"product_series.py:ProductSeries._separate_products", LEARN+"product_series.py:ProductSeries._generate_product", LEARN+"learning_rule.py:LoihiLearningRule._validate_uk")
RF = "src/lava/proc/rf/models.py"
p("C66", "A resonate-and-fire neuron rotates its state and spikes at upward zero crossings only",
  "The state of a fixed-point RF neuron stays within 24 bits; each component after a step is the saturated value of the decayed rotation plus the shifted input, up to less than two units; a spike is sent exactly when the imaginary part goes from negative to non-negative while the real part is at least vth; hence an RF neuron, fixed- or floating-point, never spikes in two consecutive steps.",
  "every parameter set and every history of inputs",
  "All values and histories.",
  RF+":PyRFModelFixed.run_spk", RF+":AbstractPyRFModelFixed.scale_volt", RF+":PyRFModelFloat.run_spk")
p("C67", "An RF_IZ neuron is reset below its threshold when it spikes",
  "A fixed-point RF_IZ neuron spikes exactly when its imaginary part reaches vth, it is then reset to (0, vth - 1); after every step the imaginary part is below vth and the state fits 24 bits; it does not spike again in the next step without input.",
  "every parameter set and every history of inputs",
  "All values and histories.",
  "src/lava/proc/rf_iz/models.py:PyRF_IZModelFixed.run_spk")
p("C68", "An RFZero neuron rotates its state",
  "At every step the fixed-point RFZero neuron multiplies its state (u, v) with the decay-rotation constants, adds the inputs and sends u exactly when v crosses zero upwards while u exceeds uth.",
  "every state within the declared 24 bits, every input",
  "All values; the error appears only at large values.",
  "src/lava/proc/resfire/models.py:PyRFZeroModelFixed.run_spk")
p("C69", "An ATRLIF neuron adapts its threshold and recovers",
  "Each step of the fixed-point ATRLIF neuron is the documented one: current, voltage, threshold and refractoriness decay by their constants, the neuron spikes exactly when the voltage minus refractoriness reaches the threshold, which then grows by theta_step while refractoriness grows by twice the threshold; no value leaves its range; without spikes threshold and refractoriness return to theta_0 and 0; the initial values are those given by the user.",
  "every parameter set with the documented precisions, every history of inputs",
  "All values and histories; the errors appear at corner values.",
  "src/lava/proc/atrlif/models.py:PyATRLIFModelFixed.run_spk", "src/lava/proc/atrlif/models.py:PyATRLIFModelFixed.subthr_dynamics", "src/lava/proc/atrlif/models.py:PyATRLIFModelFixed.scale_threshold")
GR="src/lava/proc/graded/models.py"; GN="src/lava/networks/gradedvecnetwork.py"
p("C70", "Graded vectors forward their inputs",
  "At every step a GradedVec sends each input whose magnitude exceeds vth (GradedReluVec: whose value exceeds vth) unchanged and 0 for the others, independent of what it received before.",
  "every sequence of int32 input vectors, every threshold",
  "All values and histories.",
  GR+":AbstractGradedVecModel.run_spk", GR+":AbstractGradedReluVecModel.run_spk")
p("C71", "ProductVec multiplies",
  "A ProductVec sends the product of its two inputs divided by 2^exp if its magnitude exceeds vth; in a network `c << a * b` the scaled product of the vectors of step t reaches c at step t + 2.",
  "every sequence of pairs of 24-bit vectors, every exponent and threshold",
  "All values and histories; overflow appears at large values only.",
  "src/lava/proc/prodneuron/models.py:PyProdNeuronModelFixed.run_spk", GN+":GradedVec.__mul__")
p("C72", "y << x delivers x",
  "Connecting a graded vector with `y << x` delivers every vector sent by x unchanged to y one step later.",
  "every sequence of vectors of any length",
  "All values and histories.",
  "src/lava/networks/network.py:NetworkList", "src/lava/networks/network.py:AlgebraicVector.__lshift__", GN+":GradedSparse")
p("C73", "NormalizeNet divides a vector by its norm",
  "The vector sent by NormalizeNet is the input vector multiplied with the inverse square root of its sum of squares, two steps later.",
  "every sequence of vectors",
  "All histories: the error needs inputs that change from step to step.",
  GN+":NormalizeNet", GR+":NormVecDelayModel.run_spk")
p("C74", "InvSqrt is accurate",
  "For fp_base fractional bits, the value sent by the fixed-point InvSqrt differs from the exact inverse square root of its input by at most 1% and 3 units; 0 is mapped to 0.",
  "every positive 24-bit input, every fp_base",
  "2^24 inputs per base.",
  GR+":InvSqrtModelFP.run_spk", GR+":make_fpinv_table", GR+":inv_sqrt", GR+":clz")
p("C75", "InputVec and OutputVec transport the user's data",
  "The columns of the array given to an InputVec, scaled by 2^exp, are sent step by step; an OutputVec connected with `<<` returns exactly these values if they fit 24 bits and the value with the same low 24 bits otherwise; the user's array is not changed.",
  "every array and exponent",
  "All values.",
  GN+":InputVec.__init__", GN+":OutputVec.get_data")
PP="src/lava/magma/core/process/ports/ports.py"
p("C76", "connect() only joins compatible ports",
  "Whatever calls are made, a connection joins two ports of the same shape (unless its destination is a virtual port), leads from an OutPort to an In- or OutPort, an InPort to an InPort, a RefPort to a Ref- or VarPort or a VarPort to a VarPort, also through virtual ports, and a RefPort or VarPort has at most one destination and one source. Conversely connecting one port to one other is accepted exactly when the classes may be joined, the shapes agree, the connection does not exist yet and, for RefPorts and VarPorts, the port has no destination and no source (a RefPort given alone is accepted by a port with destinations, a VarPort given alone by a port with sources).",
  "every sequence of port creations, connect, connect_from, reshape, transpose, concat_with and connect_var calls, including failing ones",
  "Histories of calls are unbounded.",
  PP+":AbstractPort._validate_ports", PP+":OutPort.connect", PP+":InPort.connect_from", PP+":RefPort.connect", PP+":VarPort.connect_from", PP+":AbstractVirtualPort.connect")
NW="src/lava/networks/network.py"
p("C77", "The algebraic syntax connects what is written",
  "`y << e`, for a sum e of networks and products W @ x, connects every x to its W and every summand to y exactly once (two vectors through an identity connection of their own) and makes no other connection; computing a sum does not change the sums it is made of; no connection is ever made twice.",
  "every expression, every target, every program of such statements and assignments",
  "Expressions and programs are unbounded, and sums are shared mutable objects.",
  NW+":Network.__lshift__", NW+":Network.__add__", NW+":AlgebraicVector.__lshift__", NW+":AlgebraicMatrix.__matmul__", NW+":NetworkList")
p("C78", "A learning rule given as text changes the synapse by its value",
  "With the text of a rule for dw, dd or dt, every synapse of a fixed-point learning connection gets, at the end of each epoch, its old value plus the arithmetic value of the rule for the spikes and traces of its two neurons in that epoch, stochastically rounded to a whole number and saturated to the range of the variable.",
  "every rule text of the documented grammar, every synapse, every epoch, all spike histories, trace values and random numbers",
  "Texts and values are unbounded; composes parser, compiler, applier and rounding.",
  "src/lava/magma/core/learning/product_series.py:ProductSeries", "src/lava/magma/core/learning/learning_rule.py:LearningRule", APPL+":LearningRuleApplierBitApprox.apply", "src/lava/magma/core/model/py/connection.py:LearningConnectionModelBitApproximate._apply_learning_rules")
p("C79", "The predefined STDP rules follow their parameters",
  "STDPLoihi(learning_rate, A_plus, A_minus) changes a weight by learning_rate*A_minus*y1 at a pre-synaptic spike and learning_rate*A_plus*x1 at a post-synaptic spike; RewardModulatedSTDP accumulates the same in the eligibility trace, which loses the fraction eligibility_trace_decay_tau per epoch, and moves the weight by t*y2. Each parameter acts as a number mantissa*2^exponent of the same sign, within a factor sqrt(2) of it, exact for whole numbers and powers of two; parameters whose product does not fit the hardware are refused.",
  "all parameter values, all spike and trace values",
  "Parameters are real numbers and are turned into text that is parsed again.",
  "src/lava/magma/core/learning/utils.py:float_to_literal", "src/lava/proc/learning_rules/stdp_learning_rule.py:STDPLoihi", "src/lava/proc/learning_rules/r_stdp_learning_rule.py:RewardModulatedSTDP")
p("C80", "Wide products of a learning rule are scaled down, and by how much",
  "In a fixed-point learning connection a product whose factors have b bits together (7 per trace, 9 per synaptic variable, 1 per event factor) contributes its arithmetic value divided by 2^max(0,b-11), rounded down to a multiple of 2^e, where e is the exponent of its normalised scaling constant; the new value of the synaptic variable is the old one plus these contributions, stochastically rounded and saturated. In particular RewardModulatedSTDP moves a weight by floor(t*y2/32) per epoch.",
  "every rule text of the documented grammar with products of at most 27 bits, every synapse, all spikes, traces and random numbers",
  "All values of all variables; composes text, compiler and bit-accurate applier.",
  "src/lava/magma/core/learning/product_series.py:ProductSeries._generate_product", APPL+":LearningRuleApplierBitApprox.apply", "src/lava/magma/core/model/py/connection.py:LearningConnectionModelBitApproximate._apply_learning_rules", "src/lava/proc/learning_rules/r_stdp_learning_rule.py:RewardModulatedSTDP")
p("C81", "A network computes its equations whatever the schedule, and deadlocks only on circular waiting",
  "A network of processes run for n steps completes, under every schedule, every channel size and every partition into sync domains, if and only if there is no circle of processes in which each waits, before sending, for what the previous one sends; the variables of all processes are then those prescribed by the equations between port values (each InPort is the sum of the connected OutPorts of the same step). In particular a network in which neurons are only connected through Dense/Sparse/Conv processes always completes, recurrent or not, and LIF layers connected directly in a circle never complete a step.",
  "every network, every process behaviour of the form send buffers, receive, compute, send; every schedule, number of steps and channel size",
  "Schedules, networks and numbers of steps are unbounded.",
  "src/lava/magma/core/model/py/ports.py:PyInPortVectorDense.recv", "src/lava/magma/core/model/py/ports.py:PyOutPortVectorDense.send", "src/lava/magma/runtime/runtime_services/runtime_service.py:LoihiPyRuntimeService.run", "src/lava/proc/dense/models.py:AbstractPyDenseModelBitAcc.run_spk", "src/lava/proc/lif/models.py:AbstractPyLifModelFixed.run_spk")
p("C82", "A Monitor records what the network does and does not change it",
  "Probing OutPorts and Vars of any network with Monitors changes nothing in the network; after n steps row t-1 of the data of a monitor is the value sent on the port in step t, or the value of the Var at the end of step t, for every t <= n, and the remaining rows are 0. A Monitor records one target: once two targets have been probed it can no longer be built, instead of recording something else.",
  "every network, schedule, number of steps; any number of monitors; every sequence of probe() calls",
  "Schedules, networks and numbers of steps are unbounded; non-interference compares whole executions.",
  "src/lava/proc/monitor/process.py:Monitor.probe", "src/lava/proc/monitor/models.py:PyMonitorModel.run_spk", "src/lava/proc/monitor/models.py:PyMonitorModel.run_post_mgmt", "src/lava/magma/compiler/builders/py_builder.py:PyProcessBuilder.build")
p("C83", "A floating-point learning connection follows its rules",
  "In a floating-point two-factor learning connection (dense), after any number of steps every synaptic variable has the value obtained by adding, at the end of every epoch, the arithmetic value of its rule for the events of the epoch, with traces that decay at every step and jump at every spike, read at the time of the event, and by keeping weights at the sign of the connection and tag_2 non-negative; with several spikes of a neuron in an epoch a trace never exceeds this value; a connection can be built for every rule that is accepted.",
  "every text of dw, dd, dt in the grammar, all spike trains, epoch lengths, decays, impulses, initial values and numbers of steps",
  "Rules, histories and numbers of steps are unbounded.",
  "src/lava/magma/core/model/py/connection.py:LearningConnectionModelFloat", "src/lava/magma/core/model/py/connection.py:LearningConnectionModelFloat._compute_trace_histories", "src/lava/magma/core/model/py/connection.py:LearningConnectionModelFloat._process_pre_spikes", "src/lava/magma/core/learning/learning_rule_applier.py:LearningRuleApplierFloat", "src/lava/magma/core/learning/learning_rule.py:LoihiLearningRule")
p("C84", "Three-factor rules use the signals the neuron sends",
  "In a learning connection with a three-factor rule, y1, y2 and y3 always show the values most recently sent by the post-synaptic neuron, x1, x2 and spike times evolve as with a two-factor rule, and at the end of every epoch every synaptic variable changes by the arithmetic value of its rule with these signals; in particular reward-modulated STDP follows its recurrence for tag and weight; positive and negative signals (reward and punishment) both reach the rules.",
  "every text of dw, dd, dt in the grammar, all spike trains, signals, epoch lengths, decays, impulses, initial values and numbers of steps",
  "Rules, signals and numbers of steps are unbounded.",
  "src/lava/magma/core/model/py/connection.py:PyLearningConnection.recv_traces", "src/lava/magma/core/model/py/connection.py:PyLearningConnection._update_traces", "src/lava/magma/core/learning/learning_rule.py:Loihi3FLearningRule", "src/lava/proc/learning_rules/r_stdp_learning_rule.py:RewardModulatedSTDP")
p("C85", "A network can be driven from any of its processes, in any history of calls",
  "Any history of run() (blocking or not), wait(), stop() and Var.get() through any processes of a network, over any number of sync domains, acts as these calls on one machine: every call returns, a run of n steps advances every sync domain by exactly n steps, wait() returns when the run is over, get() between runs returns the current value and None during a run, stop() ends everything; calls before the first run have no effect, and separate networks do not interfere.",
  "all histories of API calls, all processes they are called on, all numbers of sync domains and steps, all schedules",
  "Histories and schedules are unbounded.",
  "src/lava/magma/core/process/process.py:AbstractProcess.run", "src/lava/magma/core/process/process.py:AbstractProcess.create_runtime", "src/lava/magma/runtime/runtime.py:Runtime._run", "src/lava/magma/runtime/runtime.py:Runtime._get_resp_for_run", "src/lava/magma/runtime/runtime.py:Runtime.stop", "src/lava/magma/runtime/runtime.py:Runtime.get_var", "src/lava/magma/core/run_conditions.py:RunSteps")
p("C86",
  "Asynchronous processes answer to run, wait, pause, stop and get",
  "With any number of processes under the AsyncProtocol, any history of blocking and non-blocking runs, wait(), pause(), get() and a final stop() makes every call return, runs run_async of every process exactly once per run with the requested num_steps, has all processes at rest whenever a call has returned, returns the current value from get(), and leaves everything terminated after stop(), also when a process itself asks to stop or pause.",
  "all numbers of processes, histories of calls, numbers of steps, durations of run_async and schedules of the runtime, the runtime service and the processes",
  "Histories, process counts and interleavings are unbounded; the failures are races.",
  "src/lava/magma/runtime/runtime_services/runtime_service.py:AsyncPyRuntimeService.run",
  "src/lava/magma/runtime/runtime_services/runtime_service.py:AsyncPyRuntimeService._get_pm_resp",
  "src/lava/magma/core/model/py/model.py:PyAsyncProcessModel._run_async",
  "src/lava/magma/core/model/py/model.py:AbstractPyProcessModel.run",
  "src/lava/magma/runtime/runtime.py:Runtime._get_resp_for_run",
  "src/lava/magma/runtime/runtime.py:Runtime.pause",
  "src/lava/magma/runtime/runtime.py:Runtime.stop",
  "src/lava/magma/runtime/runtime.py:Runtime.get_var")
p("C87",
  "Continually learning prototypes: recognition, novelty and one-shot learning",
  "In a CLP network (input, learning synapses, PrototypeLIF, NoveltyDetector, Allocator wired as in the one-shot test) every presented pattern makes, one step later, exactly those prototypes spike whose overlap with the pattern exceeds the threshold; if there is one, nothing else happens and nothing is changed; if there is none, novelty is signalled once after t_wait steps, the next free prototype (and no other) stores the pattern and answers from then on, and a pattern without zero features that was presented once is recognised whenever it is presented again; the stored prototypes never change afterwards, nothing happens between the presentations, and the only exception is raised when a novel pattern finds no free prototype.",
  "all numbers of features and prototypes, waiting times, thresholds, initial prototypes, streams of 8-bit patterns at least t_wait+4 steps apart, and all random numbers of the stochastic rounding",
  "Streams are unbounded, and what is stored depends on the whole history, on fixed-point rounding with random numbers and on the delays of six communicating processes.",
  "src/lava/proc/clp/prototype_lif/models.py:PrototypeLIFBitAcc.run_spk",
  "src/lava/proc/clp/prototype_lif/process.py:PrototypeLIF",
  "src/lava/proc/clp/novelty_detector/models.py:PyNoveltyDetectorModel.run_spk",
  "src/lava/proc/clp/nsm/models.py:PyAllocatorModel.run_spk",
  "src/lava/magma/core/model/py/connection.py:PyLearningConnectionModelBitApproximate",
  "src/lava/proc/dense/models.py:PyLearningDenseModelBitApproximate.run_spk")
p("C88",
  "Results do not depend on the schedule",
  "Processes that communicate only by sending, receiving and peeking on channels with one sender and one receiver each give the same result under every schedule: if one schedule brings the network to an end, all do, with the same steps of each process, the same memories and the same messages; if a network runs forever, any two fair schedules send the same messages on each channel.  In particular a network of process models under the Loihi protocol, with arbitrary code in all phases and arbitrary guards, without RefPorts and VarPorts and without requests to pause or stop made by the process models themselves, behaves the same whatever the order in which the operating system runs its processes.",
  "all networks, programs of the processes, numbers of processes and channels, channel capacities, sequences of blocking runs, pauses and stop, and all finite and infinite schedules",
  "The number of interleavings is unbounded, and a test sees one of them.",
  "src/lava/magma/runtime/runtime_services/runtime_service.py:LoihiPyRuntimeService.run",
  "src/lava/magma/core/model/py/model.py:PyLoihiProcessModel",
  "src/lava/magma/compiler/channels/pypychannel.py:CspRecvPort",
  "src/lava/magma/compiler/channels/pypychannel.py:CspSelector.select")
p("C89",
  "A process model starts with the initial values of its process",
  "When a process is compiled and started, every Var of array type holds, element by element, its initial value broadcast to the shape of the Var and converted to the declared type; the other Vars hold the initial value as given; Var.get() addresses it by its id; every port is there; no other attribute changes.  Compilation is refused exactly when a Var or port is not declared with a suitable type, something declared is missing in the process, or an initial value cannot be broadcast.",
  "all processes with any Vars, shapes, initial values and ports, all classes of process models and all declared types",
  "Shapes, ranks, values and names are unbounded; broadcasting, conversion and name clashes have too many cases to enumerate.",
  "src/lava/magma/compiler/builders/py_builder.py:PyProcessBuilder.build",
  "src/lava/magma/compiler/builders/interfaces.py:AbstractProcessBuilder",
  "src/lava/magma/compiler/subcompilers/py/pyproc_compiler.py:PyProcCompiler._create_builder_for_process",
  "src/lava/magma/core/process/variable.py:Var",
  "src/lava/magma/core/model/py/type.py:LavaPyType")
p("C90",
  "An S4d neuron computes the response of its linear time-invariant system",
  "The output of an S4d neuron at step k is 2 Re(c s), where s = a^(k+1) s0 + sum over i <= k of a^(k-i) b x_i, for complex a, b, c and initial state s0; the outputs are a linear function of initial state and inputs together, and inputs that arrive d steps later give the same outputs d steps later.",
  "all complex a, b, c, initial states, input streams and steps (exact arithmetic)",
  "The response depends on the whole history of inputs, of any length.",
  "src/lava/proc/s4d/models.py:S4dModel.run_spk",
  "src/lava/proc/s4d/process.py:S4d")
p("C91",
  "SigmaS4dDelta and SigmaS4dDeltaLayer follow their linear system up to the threshold",
  "With real parameters, the sum of everything a SigmaS4dDelta neuron has sent is always less than the threshold away from the response of its linear system to the running sums of its input (equal to it without a threshold, less than twice the threshold away with cum_error); if the input follows a signal up to e, the output follows the response to that signal up to the threshold plus 2|c||b|e/(1-|a|).  A layer with d states per channel and graded messages sends on channel j, after k+2 steps, in total less than d thresholds away from the sum of the responses of the states of that channel to the first k inputs of the channel.",
  "all thresholds, parameters, numbers of channels and states, input streams and steps (exact arithmetic)",
  "Errors could accumulate over histories of any length; numbers of channels and states are unbounded.",
  "src/lava/proc/s4d/models.py:AbstractSigmaS4dDeltaModel.activation_dynamics",
  "src/lava/proc/s4d/models.py:SubDenseLayerModel",
  "src/lava/proc/s4d/process.py:SigmaS4dDeltaLayer",
  "src/lava/proc/sdn/models.py:AbstractDeltaModel.delta_dynamics",
  "src/lava/proc/sparse/models.py:AbstractPySparseModelFloat.run_spk")
p("C92",
  "LearningSparse learns what LearningDense learns, on its synapses",
  "With the same spikes and random numbers and a learning rule without synaptic variables, every synapse that a LearningSparse stores has at any time the weight and tags that a LearningDense with the same initial values gives it, no synapse appears, and the traces are the same; in floating point also for products of u with one synaptic variable.",
  "all sparsity patterns, initial values, learning rules of this form, numbers of neurons, spike histories and random numbers",
  "Patterns, rules and histories are unbounded; the tests compare the final weights of a few random networks.",
  "src/lava/proc/sparse/process.py:LearningSparse",
  "src/lava/proc/sparse/models.py:PyLearningSparseModelFloat",
  "src/lava/proc/sparse/models.py:PyLearningSparseModelBitApproximate",
  "src/lava/magma/core/model/py/connection.py:_apply_learning_rules",
  "src/lava/utils/weightutils.py:truncate_weights",
  "src/lava/utils/sparse.py:find")
p("C93",
  "The watchdog reports blocked port calls, truthfully",
  "With use_watchdog, a message 'Blocked on port :: method' is printed only if a call of that method had been in progress for the configured timeout; a call that stays blocked is reported at least once in every period of the timeout plus four times the scheduling latency; if the calls of a port are further apart than twice the latency it is reported at most once per timeout; stop() of the watchdog returns only after every monitored call that had started before has ended, within twice the latency if none is in progress, and nothing is printed afterwards.",
  "all numbers of ports, timeouts, histories of calls and stop(), durations, interleavings of the calling processes, the two monitor processes and their threads, and latencies",
  "It depends on the interleaving of a shared event with any number of threads and on time; a test can only block one port for one second.",
  "src/lava/magma/compiler/channels/watchdog.py:Watchdog",
  "src/lava/magma/compiler/channels/watchdog.py:EventCompletionMonitor",
  "src/lava/magma/compiler/channels/watchdog.py:WatchdogManager",
  "src/lava/magma/compiler/channels/pypychannel.py:CspSendPort.send",
  "src/lava/magma/compiler/channels/pypychannel.py:CspRecvPort.recv")
p("C94",
  "Decorating a ProcessModel class: tags and resources add up, the process is fixed",
  "@tag and @requires append their arguments to what the class has, by itself or from its parent; after importing a module of single inheritance a class has the keywords and requirements of all its ancestors and its own, oldest first, none lost or repeated, and the process and protocol named by any of those decorators; a decorator is accepted exactly if its arguments are as documented, the class is a ProcessModel and the process and protocol it names do not contradict those the class has; no decorator changes a class that does not inherit from the decorated one; a class of single inheritance that implements a process or protocol implements it for ever.",
  "all modules (numbers of classes, inheritance trees, decorators and their order), all histories of class statements and decorators including late and refused ones",
  "It is about every inheritance tree and every order of decorations; a test decorates a handful of classes.",
  "src/lava/magma/core/decorator.py:implements",
  "src/lava/magma/core/decorator.py:requires",
  "src/lava/magma/core/decorator.py:tag",
  "src/lava/magma/core/model/model.py:AbstractProcessModel",
  "src/lava/magma/compiler/compiler_graphs.py:ProcGroupDiGraphs._find_proc_models_in_module")
p("C95",
  "Changing a learning connection between runs is like having created it that way",
  "Var.set on the rule texts (dw, dd, dt), impulses and time constants of a running learning connection takes effect as if the connection had been created with the new values: through any sequence of runs and Var.set calls, every time step follows exactly the settings (rules, period, impulses, time constants) a connection newly created with the values present would have, while weights, traces, spike times and the epoch grid continue; a set is refused (and ends the process) exactly if such a connection could not be created: a negative number, a text that is no rule, a variable that had no rule, or a period u<k> different from that of another rule; setting any other Var is never refused; a rule or time constant set in the middle of an epoch acts on the whole epoch. (For values representable in the Vars: all values for floating-point connections, integers for fixed-point ones.)",
  "all histories of time steps and Var.set calls in any order, all rule texts, numbers, epoch lengths, inputs and states",
  "It is about every interleaving of sets and steps and every text; tests set one parameter once.",
  "src/lava/magma/core/model/py/connection.py:PyLearningConnection.on_var_update",
  "src/lava/magma/core/model/py/connection.py:PyLearningConnection._build_learning_rule_appliers",
  "src/lava/magma/core/model/py/model.py:AbstractPyProcessModel._set_var",
  "src/lava/magma/core/learning/learning_rule.py:LoihiLearningRule",
  "src/lava/magma/core/process/connection.py:LearningConnectionProcess")
p("C96",
  "Reset sets a Var exactly at its steps, whatever the schedule",
  "Reset(reset_value, interval, offset).connect_var(var) sets every element of var to the whole part of reset_value in every time step t for which t-1 is offset plus a multiple of interval, after the update its owner makes in that step, and the write has taken effect before the step ends; in all other steps the Var keeps what its owner left in it. If several Resets of the Var are due, it has the value of one of them. A Read of the Var takes exactly one sample in each step it is due and none in the others: the value its owner left in that step, or, if a Reset is due in the same step, possibly the value of the Reset. Only interval 0 is refused, when the process is created.",
  "every Var and behaviour of its owner, any number of Resets and Reads of it with any arguments, any number of time steps, every interleaving of the processes and every order in which the owner serves the requests",
  "Steps, processes and interleavings of requests are unbounded.",
  "src/lava/proc/io/reset.py:Reset",
  "src/lava/proc/io/reset.py:AbstractPyReset.post_guard",
  "src/lava/proc/io/reset.py:AbstractPyReset.run_post_mgmt",
  "src/lava/proc/io/sink.py:AbstractPyRead.run_post_mgmt",
  "src/lava/magma/core/model/py/model.py:PyLoihiProcessModel._post_mgmt",
  "src/lava/magma/core/model/py/model.py:PyLoihiProcessModel.add_ports_for_polling")
p("C97",
  "Saved and loaded processes: ids, contents, and how they may be combined",
  "save() writes its processes to the file named, with '.pickle' added exactly if there is no dot in the name, and load() of that file - later, also in later Python sessions, whatever is created, changed, loaded or reset in between, unless the file is written again - gives copies with the ids, Vars and values as they were when saved; the copies are independent of the originals (assigning to one changes no other object and no file). Two process objects created in the same session (without a server reset between) have the same process id, or share a Var id, exactly if they are copies of one process; so a network of processes created in one session, originals or loaded in any session, without two copies of one process, runs all its processes, and get/set reach the Var they are called on.",
  "all histories of creating, assigning, saving, loading, server resets and restarts of Python, all file names and all networks put together from the objects present",
  "It ranges over all histories across sessions and all networks; the unit tests save one process and load it in the same session.",
  "src/lava/utils/serialization.py:save",
  "src/lava/utils/serialization.py:load",
  "src/lava/magma/core/process/process.py:ProcessServer",
  "src/lava/magma/core/process/variable.py:VarServer",
  "src/lava/magma/compiler/compiler.py:Compiler._create_sync_channel_builders",
  "src/lava/magma/compiler/compiler.py:Compiler._assign_nodecfg_rtservice_to_var_models",
  "src/lava/magma/compiler/builders/runtimeservice_builder.py:RuntimeServiceBuilder.build",
  "src/lava/magma/runtime/runtime.py:Runtime.get")
p("C98",
  "RefPort accesses are served in the phase in which they are made, if that is a management phase",
  "In every run, under every schedule and every delay of the channels: a read through a RefPort made in a pre- or post-management phase is answered in the same phase of the same time step, with the value the Var has when its owner has finished its own code of that phase and no process has gone on; requests through a port are served in the order made, each once, and read() returns the answers in order; when a read (or wait()) returns, all earlier writes through the port have been applied, so write followed by wait() in a phase is applied in that phase; Vars never change from outside while their owner's code runs or in the spiking and learning phases. A read made in the spiking or learning phase is never answered, and the run never goes on, once the owner has entered that phase (and always in the first time step). A run gets stuck only by accesses in the spiking or learning phase or by a circle of processes each waiting for a Var of the next; with accesses in management phases only and along an order of the processes no run gets stuck, and every phase takes finitely many steps.",
  "all networks, all user code of the phases (any terminating accesses depending on what was read), all schedules, delays, capacities and numbers of steps",
  "The timing of threads and channels decides; tests see one schedule.",
  "src/lava/magma/core/model/py/model.py:PyLoihiProcessModel.add_ports_for_polling",
  "src/lava/magma/core/model/py/model.py:AbstractPyProcessModel.run",
  "src/lava/magma/core/model/py/ports.py:PyRefPort.wait",
  "src/lava/magma/core/model/py/ports.py:PyRefPortVectorDense",
  "src/lava/magma/core/model/py/ports.py:PyVarPortVectorDense.service",
  "src/lava/magma/runtime/runtime_services/runtime_service.py:LoihiPyRuntimeService.run",
  "src/lava/magma/compiler/channels/pypychannel.py:CspSelector.select")
p("C99",
  "What arrives at an InPort is the sum of what was sent on all ways to it",
  "Take any program that creates ports of processes, connects them (connect, connect_from, connect_var) and inserts reshape, flatten and transpose ports, and compile the network. When every OutPort of the compiled processes sends an array, recv() of an InPort of a compiled process returns the elementwise sum, over all ways along connections from an OutPort of a compiled process to this InPort, of the array sent there, rearranged by the reshape and transpose ports on the way in their order; an InPort without a way to it returns zeros. A RefPort connected to a VarPort sends its requests on a channel that only this VarPort receives from, and gets the answers on a channel only this VarPort sends to; a written array is rearranged by the ports on the way, a read one by their inverses in reverse order.",
  "every sequence of port-creating, connecting and deriving calls, every grouping of processes, every naming with distinct ids, every InPort and every array sent",
  "The result goes through the port graph, the channel map, channel numbers, per-process tables keyed by strings, and per-channel lists of functions; a slip in one of them shows only for particular topologies, and there is no bound on the number of ports, ways or virtual ports.",
  "src/lava/magma/core/process/ports/ports.py: get_incoming_transform_funcs, get_incoming_virtual_ports, get_outgoing_transform_funcs, get_outgoing_virtual_ports, create_port_id",
  "src/lava/magma/compiler/subcompilers/channel_builders_factory.py: from_channel_map",
  "src/lava/magma/runtime/runtime.py: _build_channels",
  "src/lava/magma/compiler/builders/py_builder.py: set_csp_ports, add_csp_port_mapping, build",
  "src/lava/magma/core/model/py/ports.py: VirtualPortTransformer, PyInPortVectorDense.recv")
p("C100",
  "Compiling with a cache gives the program that was written",
  "With compile_config {'cache': True, 'cache_dir': d}, the first compilation stores its result in d and behaves as without cache, if all processes have distinct names without 'Process_' in them, and is refused otherwise; a later compilation finds the stored result and gives the same executable as a compilation without the cache would: each process runs with the parameters, each Var has the initial value and each port applies the reshape and transpose ports of the program being compiled, and Var.get()/set() reach the Var they are called on. A failed or interrupted compilation does not spoil later ones.",
  "every pair of programs (cached one and later one), every assignment of ids, every history of compilations with the same directory, with dumps interrupted at any point",
  "The stored builders contain process ids, Var ids, initial values and functions keyed by ids of the first program; what a later program observes depends on all ids handed out before, and on the history of the directory.",
  "src/lava/magma/compiler/compiler.py: Compiler._compile_proc_groups",
  "src/lava/magma/compiler/channel_map.py: ChannelMap.write_to_cache, ChannelMap.read_from_cache",
  "src/lava/magma/runtime/runtime.py: Runtime.get_var, Runtime._build_channels",
  "src/lava/magma/compiler/builders/py_builder.py: PyProcessBuilder.build",
  "src/lava/magma/compiler/var_model.py: AbstractVarModel.__post_init__")
p("C101",
  "Choosing the host a program runs on",
  "lava.utils.slurm lists exactly the boards and partitions the SLURM controller prints; set_board and set_partition succeed exactly for a listed one that is not down (and in the given partition), and then set BOARD/PARTITION and nothing else, while a refused call changes nothing. use_slurm_host and use_ethernet_host, when they succeed, leave the environment and loihi.host describing the chosen host; a failed choice leaves the earlier choice in force. SLURM and NOSLURM are never both set, and partition() returns the last choice made.",
  "every output of sinfo, sinfo -N and ping at every time, every history of calls with every argument, succeeding or failing",
  "The unit tests mock the command and check single calls; the result depends on arbitrary command output, on its change between two questions, and on the whole history of earlier calls.",
  "src/lava/utils/slurm.py: is_available, enable, disable, set_board, set_partition, partition, get_partitions, get_boards, get_partition_info, get_board_info, try_run_command",
  "src/lava/utils/loihi.py: use_slurm_host, use_ethernet_host, is_installed")
p("C102",
  "An exception in one system process reaches the user",
  "If the constructor of a process model raises when the network is started, run() raises that exception (of the first such process). If a process model raises while it runs, run() raises RuntimeError with the number of processes that raised; otherwise run() returns. In each case a stop() that follows ends every system process and returns.",
  "every number of processes and of synchronisation domains, every assignment of processes to domains, every set of processes that fail, every kind of exception, every interleaving of the system processes with the user's process",
  "The unit tests let one process of one domain raise a plain exception and never stop afterwards; whether the user hears of it depends on which processes and domains are affected, on whether the exception survives the pipe, and on the interleaving.",
  "src/lava/magma/runtime/runtime.py: target_fn, Runtime.initialize, Runtime._get_resp_for_run, Runtime.stop",
  "src/lava/magma/runtime/message_infrastructure/multiprocessing.py: SystemProcess, MultiProcessing.stop",
  "src/lava/magma/runtime/runtime_services/runtime_service.py: LoihiPyRuntimeService.run, _get_pm_resp",
  "src/lava/magma/core/model/py/model.py: AbstractPyProcessModel.run",
  "src/lava/magma/core/process/process.py: AbstractProcess.run, stop, create_runtime")
p("C103",
  "A hierarchical process is compiled as the processes inside it",
  "When a network is compiled, every hierarchical process is replaced by the processes its SubProcessModel creates, again and again until only leaf processes are left: these, and no other, get an executable model, each once. Every SubProcessModel is built once; the sub-processes are members of the process they are in, have it as parent, and is_sub_proc_of answers accordingly. A process inside one that is folded (compile_config['folded_view']) gets the view and the number of the outermost folded process around it, different for each such process, and any other process gets none.",
  "every network of processes, every depth of nesting, every way a SubProcessModel holds its sub-processes, every choice of models, every recursion limit, every list of folded classes, every iteration order of sets",
  "The unit tests expand one or two levels of a fixed hierarchy with all sub-processes in attributes; whether a sub-process is lost, found twice, or makes the expansion endless depends on how and under which names the model holds it, and folded views of nested folded classes on the order of a set.",
  "src/lava/magma/core/model/sub/model.py: AbstractSubProcessModel.find_sub_procs",
  "src/lava/magma/compiler/compiler_graphs.py: ProcGroupDiGraphs._map_proc_to_model, _expand_sub_proc_model, _collapse_isomodel_procs, __init__, annotate_folded_view",
  "src/lava/magma/core/process/process.py: AbstractProcess.register_sub_procs, is_sub_proc_of, propagate_folded_views, Collection.add_members")
p("C104",
  "The MNIST data set is the published one",
  "MnistDataset() gives the published images and labels, training set first: images[i] and labels[i] are the i-th of the published files. If a file cannot be had from any mirror it raises URLError; a later attempt then works as if nothing had happened, whatever the earlier ones left behind; once it has been constructed it needs no network.",
  "every content of the files, every behaviour of every mirror at every attempt, every data path, every history of attempts, each killed after any change of the file system",
  "The unit tests construct the data set from a file that is there, or once from the network; mirrors that fail in different ways, interrupted downloads, other data paths and what later attempts make of the remains are never met.",
  "src/lava/utils/dataloader/mnist.py: MnistDataset.__init__, download_mnist, decompress_convert_save, train_images, test_images, images, train_labels, test_labels, labels")
p("C105",
  "A Conv process sends, in each step, the convolution of what it received the step before",
  "Run in steps, a Conv process sends zeros in its first step and from then on, at every output position and channel, the convolution (with its stride, padding, dilation and groups) of its weights with the input of the step before; without message bits the input counts as spikes. In fixed point the value is taken to a signed 24-bit number. a_out has one entry for each position at which the dilated kernel fits the padded input.",
  "every input shape, kernel, stride, padding, dilation and number of groups, all weights and sequences of inputs, both models, every output position and every step",
  "The unit tests run a few sizes with one or two groups for a few steps and compare against the same utility function; other numbers of groups, weights with other channels and values beyond 24 or 32 bits are not tried.",
  "src/lava/proc/conv/process.py: Conv.__init__, _validate_input_shape, _validate_groups, _validate_channels",
  "src/lava/proc/conv/models.py: AbstractPyConvModel.run_spk, PyConvModelFloat, PyConvModelFixed.clamp_precision",
  "src/lava/proc/conv/utils.py: conv, conv_scipy, output_shape, signed_clamp")
p("C106",
  "A raster plot shows the spikes of every stride-th neuron",
  "raster_plot(spikes, stride, fig, figsize) of an array of zeros and ones (neurons by time steps) returns a figure - the one given, or a new one of the given size - in which exactly the spikes of every stride-th neuron have been drawn, each once, at its time step and in its neuron's row, with the given labels; other figures, and what was drawn before, stay as they are. Arguments it cannot use are refused with ValueError.",
  "every array of any shape and content, every stride, figure, size and labels, every state of pyplot (figures, axes, current figure)",
  "The unit tests only look at the type of the result and at the errors; what is drawn, and on which figure, is never checked.",
  "src/lava/utils/plots.py: raster_plot")
p("C107",
  "<< connects a ResFireVec's two inputs as written",
  "y << (a, b) with a ResFireVec y connects a to its first and b to its second InPort and nothing else; y << x connects the network x to the first InPort, y << (a sum) the sum, as with every vector; the expression has the value y, so that it can be chained; a statement that raises has connected nothing.",
  "all networks, sums and tuples of any length, every state of connections that exist already",
  "The unit tests run the process alone and never use << with a ResFireVec; what a sum, a tuple or a chain of any length connects is not seen by any run.",
  "src/lava/networks/resfire.py: ResFireVec.__lshift__",
  "src/lava/networks/network.py: NetworkList, AlgebraicVector.__lshift__")
p("C108",
  "Compiling a group of Python processes leaves the channel map as it has to be",
  "When a group of Python processes has been compiled, the channel map has an entry, with the compiler's default payload, for each port of the group and each port connected to it, and otherwise what it had; in a compiled network these are the entries it had already, so that there is still exactly one entry for each connected pair of ports of compiled processes. add_port_pairs adds the pairs it is given.",
  "every network built by any calls of connect, connect_from, reshape, transpose, concat_with and connect_var, every grouping of processes, every channel map before",
  "The unit tests add one or two directly connected pairs; hierarchies, ports that lead nowhere, virtual ports, groups of several processes and the sharing of payloads are never looked at.",
  "src/lava/magma/compiler/subcompilers/channel_map_updater.py: ChannelMapUpdater",
  "src/lava/magma/compiler/subcompilers/py/pyproc_compiler.py: PyProcCompiler._update_channel_map",
  "src/lava/magma/compiler/channel_map.py: ChannelMap.__setitem__, from_proc_groups")
out = os.path.join(os.path.dirname(os.path.abspath(__file__)), "..", "properties.jsonl")
with open(out, "w") as f:
    for x in P: f.write(json.dumps(x) + "\n")
print(len(P))
