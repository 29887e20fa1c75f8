{"id": "C01", "title": "Message queue delivers every message once, in order", "statement": "Over any history of enqueue / front / pop / clear / empty calls on one MessageQueueProtocol, the messages handed to the receiver by front+pop form exactly the sequence enqueued since the last clear, oldest first, with nothing lost, duplicated or reordered; front and pop on an empty queue raise logic_error and change nothing.", "quantifier": "all finite sequences of queue operations, all payload values", "why_tests_cant": "FIFO behaviour has to hold after every history of interleaved producer/consumer calls; a test exercises a handful of histories.", "anchors": ["src/libpml/message_queue_protocol.cpp:31-67 MessageQueueProtocol::enqueue/nextElement/popNextElement/clear", "src/libpml/message_queue_protocol.hpp"]}
{"id": "C02", "title": "A message queue never has two senders or two receivers", "statement": "After any sequence of connectInput/connectOutput/disconnectInput/disconnectOutput calls (valid or rejected), a message-queue protocol has at most one input and one output, a port reports this protocol exactly if it is the connected one, a second connection of the same direction is rejected with invalid_argument and rejected or unsuccessful calls change nothing.", "quantifier": "all finite sequences of connect/disconnect calls over any set of ports", "why_tests_cant": "An ownership invariant over all call histories, including rejected calls.", "anchors": ["src/libpml/message_queue_protocol.cpp:69-131 connectInput/connectOutput/disconnectInput/disconnectOutput"]}
{"id": "C03", "title": "Double buffering publishes complete values only", "statement": "For any history of sender writes, swaps (with or without copy), receiver reads and resetChanged calls, the value seen by every receiver is the value the sender's buffer had at the most recent swap (initial value before the first swap), sender writes after the swap are invisible until the next swap, and a connected receiver's changed() flag is true iff a swap happened since its last resetChanged (or since it was connected).", "quantifier": "all finite operation histories, any number of receivers, all parameter values", "why_tests_cant": "Isolation and no-lost-notification are statements about every interleaving of writes, swaps and reads.", "anchors": ["src/libpml/double_buffering_protocol.cpp:32-124 swapBuffers/connectInput/disconnectInput", "src/libpml/double_buffering_protocol.hpp InputBase/OutputBase"]}
{"id": "C04", "title": "swapBuffers(true) lets the sender continue from the published value", "statement": "After swapBuffers(true) sender and receivers see the same value, so a sender that only applies incremental edits never publishes a value lacking an earlier edit; with swapBuffers(false) the sender continues from the value published one swap earlier (stated exactly), so incremental editing loses updates.", "quantifier": "all initial contents and all sequences of incremental edits and swaps", "why_tests_cant": "The stale-buffer effect depends on the history of swaps and needs a statement over all histories.", "anchors": ["src/libpml/double_buffering_protocol.cpp:52-60 swapBuffers"]}
{"id": "C05", "title": "Shared data is immediately visible to all receivers", "statement": "After any sequence of connects, disconnects and sender writes every connected receiver of a SharedDataProtocol reads the sender's most recently written value; at most one sender is ever connected and a second is rejected.", "quantifier": "all finite histories, any number of receivers", "why_tests_cant": "Universally quantified over histories.", "anchors": ["src/libpml/shared_data_protocol.cpp:36-110 connectInput/connectOutput/disconnectInput/disconnectOutput"]}
{"id": "C06", "title": "Circular buffer is a perfect delay memory", "statement": "After any sequence of accepted writes and commits, of any sizes up to the buffer length, reading channel c at delay d (1 <= d <= length) yields exactly the d-th most recently written sample of that channel (0 if fewer were written), and the d samples from there to the newest are readable contiguously.", "quantifier": "all buffer lengths >= 1, alignments, channel counts, write-size sequences, sample values, delays", "why_tests_cant": "Wrap-around and mirror copies interact with every combination of sizes; tests sample a few.", "anchors": ["src/librbbl/circular_buffer.cpp:53-251 advanceWriteIndex/write/commitWrite/getReadPointers", "src/librbbl/circular_buffer.hpp:157-163 getReadPointer"]}
{"id": "C07", "title": "Circular buffer never touches memory outside its storage", "statement": "For every accepted call (numSamples <= length, delay <= length) all elements read or written lie inside the row of the addressed channel, and calls violating the limits raise invalid_argument without changing any sample.", "quantifier": "all lengths, alignments, write heads reachable by any history, all call sizes", "why_tests_cant": "Memory safety must hold for every reachable write position and size.", "anchors": ["src/librbbl/circular_buffer.cpp:53-251", "src/libefl/alignment.hpp:27-30 nextAlignedSize"]}
{"id": "C08", "title": "Arbitrary call sizes give the signal delayed by exactly one period", "statement": "FlexibleBufferWrapper: for any signal flow and any partition of the input stream into process() calls of arbitrary sizes (including 0 and larger than the period), the concatenated output is the signal flow applied to consecutive period-sized blocks of the concatenated input, preceded by exactly one period of zeros; the flow is called once per complete period of input.", "quantifier": "all stateful signal flows, all period sizes >= 1, all sequences of call sizes, all inputs", "why_tests_cant": "The space of partitions is infinite; correctness is a refinement invariant over buffer fill levels.", "anchors": ["src/librrl/flexible_buffer_wrapper.cpp:55-109 process"]}
{"id": "C09", "title": "Strided flexible-buffer processing equals pointer-based processing", "statement": "The strided overload of FlexibleBufferWrapper::process writes sample n of output channel c at playbackSamples[c*channelStride+n*sampleStride] for every stride, producing the same samples as the pointer-array overload.", "quantifier": "all strides, call sizes, signals", "why_tests_cant": "Needs all strides and call sizes; a fixed-stride test misses the case where a call spans several chunks with sampleStride != 1.", "anchors": ["src/librrl/flexible_buffer_wrapper.cpp:111-172 process (strided)"]}
{"id": "C10", "title": "Lagrange coefficients interpolate polynomials exactly", "statement": "For every order N and every fractional delay the computed coefficients sum to one, reproduce every polynomial of degree <= N at the requested position, and at an integer tap position are 1 on that tap and 0 elsewhere.", "quantifier": "all orders, all delay values (exact arithmetic), all polynomials of degree <= order", "why_tests_cant": "A polynomial identity over all orders and arguments.", "anchors": ["src/libefl/lagrange_coefficient_calculator.hpp:33-118 multiplyAndShuffle/CalculateLagrangeCoefficients"]}
{"id": "C11", "title": "Integer constant delay of the delay line", "statement": "With the nearest-sample method (and with Lagrange at integer delays) a constant delay of D samples and constant gain g yields output(n) = g * input(n-D) for every block partition of the input, with zeros before the first input.", "quantifier": "all delays within the maximum, block lengths, inputs, block histories", "why_tests_cant": "Quantifies over unbounded histories and all delays.", "anchors": ["src/librbbl/multichannel_delay_line.cpp:85-130 interpolate/adjustDelay", "src/librbbl/lagrange_interpolator.cpp:33-87"]}
{"id": "C12", "title": "The delay line never reads unwritten ring memory as history", "statement": "For each admissible delay value the interpolator only reads samples that belong to the last (maxDelay+blockLength) written samples.", "quantifier": "all max delays, block lengths, orders, method-delay policies and admissible delays", "why_tests_cant": "Boundary of an infinite parameter space; fails only near the maximum delay.", "anchors": ["src/librbbl/multichannel_delay_line.cpp:20-130", "src/librbbl/lagrange_interpolator.cpp:33-87"]}
{"id": "C13", "title": "Index sequence expansion", "statement": "IndexSequence parses a comma-separated list of n, a:b, a:s:b items; each item expands to the inclusive arithmetic progression it denotes, in order; results never contain negative indices, zero step or malformed strings raise invalid_argument, and whitespace is irrelevant.", "quantifier": "all strings over the grammar alphabet / all item lists with arbitrary integers in int range", "why_tests_cant": "Infinite input language.", "anchors": ["src/librbbl/index_sequence.cpp:20-140"]}
{"id": "C14", "title": "Channel list printing round-trips through the index-sequence parser", "statement": "For every non-empty list of channel indices, printing it with operator<< and parsing the text as an IndexSequence gives back the identical list.", "quantifier": "all non-empty lists of natural numbers", "why_tests_cant": "Run-length compression has infinitely many shapes; fails only for special ones (three equal indices).", "anchors": ["src/libvisr/channel_list.cpp:182-228 operator<<", "src/librbbl/index_sequence.cpp"]}
{"id": "C15", "title": "Channel ranges denote arithmetic progressions", "statement": "A valid ChannelRange(start,end,step) has size() equal to the number of start+k*step before end (exclusive) and at(k) = start+k*step is within range exactly for k < size(); appended ranges contribute exactly these indices in order.", "quantifier": "all start, end, step values", "why_tests_cant": "Off-by-one and sign cases over all integers.", "anchors": ["src/libvisr/channel_list.cpp:46-175 ChannelRange::isValid/size/at, ChannelList::appendRange"]}
{"id": "C16", "title": "Object channels are exclusive and stable", "statement": "Over any history of setObjects calls with duplicate-free id lists, no two active objects share a channel, every channel is < maxObjects, an object that stays active keeps its channel, a rejected (too large) call changes nothing and the allocator never runs out of channels while at most maxObjects objects are active.", "quantifier": "all finite histories of object id lists", "why_tests_cant": "Leaks and clashes only show after particular histories.", "anchors": ["src/librbbl/object_channel_allocator.cpp:35-109"]}
{"id": "C17", "title": "Ramps start and end where requested", "statement": "vectorRamp(n, start, end, startInclusive, endInclusive) produces equidistant values; with endInclusive the last is end, with startInclusive the first is start, and consecutive ramps sharing a boundary join without a jump or repeated value.", "quantifier": "all lengths, start/end values, inclusion flags (exact arithmetic)", "why_tests_cant": "All lengths and flag combinations, including n=1.", "anchors": ["src/libefl/reference/vector_functions_impl.hpp:62-82 vectorRamp"]}
{"id": "C18", "title": "Optimised vector kernels equal the reference", "statement": "For every vector length, the SIMD implementations of the vector functions produce elementwise exactly the value of the reference implementation, write only the destination range and honour accumulate/in-place semantics.", "quantifier": "all lengths and contents (exact arithmetic), all kernels modelled", "why_tests_cant": "Tail handling 8/4/2/1 must be right for every length and residue.", "anchors": ["src/libefl/intel_x86_64/vector_multiply.cpp", "src/libefl/intel_x86_64/vector_multiply_add.cpp", "src/libefl/intel_x86_64/vector_ramp_scaling.cpp", "src/libefl/reference/vector_functions_impl.hpp"]}
{"id": "C19", "title": "Gain transitions are continuous and reach their target", "statement": "GainMatrix: for any history of setNewGains and process calls the applied gain of each crosspoint starts each transition at the value it had at the end of the preceding block, changes by at most the ramp slope per sample, and equals the target after ceil(interpolationSteps/blockSize) blocks.", "quantifier": "all block sizes, interpolation lengths, gain values, call histories", "why_tests_cant": "Depends on the history of calls relative to running transitions.", "anchors": ["src/librbbl/gain_matrix.cpp:60-158", "src/librbbl/gain_fader.cpp"]}
{"id": "C20", "title": "Delay/gain changes in DelayVector and DelayMatrix are continuous", "statement": "setGain/setDelay during a running transition start the new transition from the momentary value of the parameter.", "quantifier": "all interpolation lengths, histories of setGain/process calls, values", "why_tests_cant": "Needs arbitrary histories; correct only at special phase positions.", "anchors": ["src/librcl/delay_vector.cpp:136-271 vectorCombinationInplace/setGain/setDelay/process", "src/librcl/delay_matrix.cpp:172-330"]}
{"id": "C21", "title": "A finished DelayVector transition applies the target", "statement": "mInterpolationBlocks processed blocks after the last setGain/setDelay the applied gain and delay are constant and equal the values last set, whatever happened before.", "quantifier": "all interpolation lengths, all preceding histories", "why_tests_cant": "Universally quantified over histories.", "anchors": ["src/librcl/delay_vector.cpp:150-271"]}
{"id": "C22", "title": "Biquad cascade implements its difference equation", "statement": "For every coefficient set and input the biquad filter output satisfies y[n]=b0 x[n]+b1 x[n-1]+b2 x[n-2]-a1 y[n-1]-a2 y[n-2] with zero initial conditions, a cascade is the composition of its sections, and the result does not depend on how the signal is split into blocks.", "quantifier": "all coefficients, inputs, block partitions, cascade lengths", "why_tests_cant": "Infinite-length recursion over all inputs and partitions.", "anchors": ["src/libefl/reference/filter_functions_impl.hpp:23-104", "src/librcl/biquad_iir_filter.cpp:209-230"]}
{"id": "C23", "title": "Partitioned fast convolution equals direct convolution", "statement": "The uniformly partitioned overlap-save convolver outputs, for every input stream, block size, filter length and gain, exactly the linear convolution of the input with the filter (no added latency), for any FFT satisfying the DFT convolution theorem.", "quantifier": "all block lengths >= 1, filter lengths, filters, gains, input streams of any number of blocks", "why_tests_cant": "Algebraic identity over unbounded histories; tests use tolerances and few sizes.", "anchors": ["src/librbbl/core_convolver_uniform.cpp:52-248", "src/librbbl/core_convolver_uniform.hpp"]}
{"id": "C24", "title": "Multichannel convolution obeys the routing table", "statement": "Each output channel is the sum over routing entries of (gain * filter) convolved with the routed input, silent if not routed, and independent of the order in which routings were set.", "quantifier": "all routing tables, channel counts, filters, inputs", "why_tests_cant": "All routing tables and orders.", "anchors": ["src/librbbl/multichannel_convolver_uniform.cpp:49-133"]}
{"id": "C25", "title": "Routing table edits behave like a finite map", "statement": "setRoutingEntry inserts or replaces the entry for (input,output), never exceeds the maximum, rejects invalid indices leaving the table unchanged; removeRoutingEntry removes exactly that entry and returns whether it existed.", "quantifier": "all finite histories of table edits", "why_tests_cant": "Return value and map semantics over all histories.", "anchors": ["src/librbbl/multichannel_convolver_uniform.cpp:80-133", "src/librbbl/crossfading_convolver_uniform.cpp:200-264"]}
{"id": "C26", "title": "Filter crossfades are complementary and terminate at the new filter", "statement": "After setImpulseResponse(start transition) the output is w_n * new + (1-w_n) * old with w rising monotonically from 0 to 1 within transitionSamples (rounded up to blocks) and afterwards exactly the new filter, for any history of changes; initFilters makes the given filters active.", "quantifier": "all transition lengths, block sizes, histories", "why_tests_cant": "Fade state machine over all histories.", "anchors": ["src/librbbl/crossfading_convolver_uniform.cpp:30-345"]}
{"id": "C27", "title": "Filter and gain routing lists are keyed sets", "statement": "FilterRoutingList keeps at most one entry per (input,output), addRouting replaces, removeRouting removes exactly the addressed entry; failed parsing leaves the list unchanged.", "quantifier": "all finite histories of list operations and inputs", "why_tests_cant": "Map semantics over all histories.", "anchors": ["src/librbbl/filter_routing.cpp", "src/librbbl/filter_routing.hpp", "src/librbbl/sparse_gain_routing.cpp", "src/librbbl/sparse_gain_routing.hpp"]}
{"id": "C28", "title": "The schedule runs every component once, producers before consumers", "statement": "For every signal flow whose dependency relation is acyclic, the computed schedule contains each atomic component exactly once and each component after all components it receives audio or parameters from; if there is a cycle, initialisation fails instead of producing a schedule.", "quantifier": "all finite component hierarchies and connection sets", "why_tests_cant": "All graphs; tests use a few topologies.", "anchors": ["src/librrl/scheduling_graph.cpp:51-290"]}
{"id": "C29", "title": "Composite hierarchy is transparent for audio connections", "statement": "After placeholder resolution, an atomic (or external) receive channel is connected to an atomic (or external) send channel exactly if a chain of connections through composite ports leads from one to the other; undriven chains and loops through composites are rejected.", "quantifier": "all hierarchies, nesting depths and channel-level connections", "why_tests_cant": "All nestings and channel permutations.", "anchors": ["src/librrl/audio_connection_map.cpp:86-226"]}
{"id": "C30", "title": "Composite hierarchy is transparent for parameter connections", "statement": "After placeholder resolution the parameter connections are exactly the sender/receiver pairs linked by a chain through composite ports, and resolution terminates for every acyclic chain.", "quantifier": "all hierarchies and connection sets", "why_tests_cant": "All nestings; a placeholder with several senders is easily missed.", "anchors": ["src/librrl/parameter_connection_map.cpp:19-136"]}
{"id": "C31", "title": "Integrity check accepts only well-formed audio connections", "statement": "If the audio integrity check passes then inside each composite every receive channel is driven by exactly one send channel, every send channel is used, all connected ports are known locally and connected ports have equal sample types.", "quantifier": "all composite components", "why_tests_cant": "All connection tables.", "anchors": ["src/librrl/integrity_checking.cpp:116-277"]}
{"id": "C32", "title": "Audio buffers do not overlap and stay inside the pool", "statement": "After initialisation every channel of every send port owns a buffer inside the communication pool disjoint from every other send channel's buffer, and a receive port's channel k points to the buffer of the send channel connected to it (possibly via an inserted routing block).", "quantifier": "all flattened signal flows with arbitrary widths and channel connections, block sizes", "why_tests_cant": "Layout arithmetic over all port sets.", "anchors": ["src/librrl/audio_signal_flow.cpp:625-1014 initialiseAudioConnections"]}
{"id": "C33", "title": "Processing a block computes the dataflow semantics", "statement": "For every valid flow, one process() call delivers to every component the values its connected senders produced in the same block (or the external input), whatever the scheduling order and buffer layout, so that the outputs are the unique solution of the dataflow equations.", "quantifier": "all acyclic flows, component behaviours, inputs", "why_tests_cant": "Composition over all graphs and behaviours.", "anchors": ["src/librrl/audio_signal_flow.cpp:137-261 process/executeComponents", "src/librrl/signal_routing_internal.cpp:53-66"]}
{"id": "C34", "title": "Block time advances once per completed block", "statement": "time().blockCount() equals the number of process() calls completed without exception since initialisation and sampleCount() is blockCount*period; a block aborted by an exception does not advance it.", "quantifier": "all histories of succeeding and failing process calls", "why_tests_cant": "All histories.", "anchors": ["src/librrl/audio_signal_flow.cpp:220-261", "src/libvisr/impl/time_implementation.cpp"]}
{"id": "C35", "title": "Profiler statistics are the sample mean and variance", "statement": "After n recorded iterations since the last reset, mean and variance reported for each component are the arithmetic mean and the unbiased sample variance of the n recorded values, and the measurement buffer holds the last min(n,N) values.", "quantifier": "all sequences of measurements, resets and reads", "why_tests_cant": "Welford recursion correctness for every sequence.", "anchors": ["src/librrl/runtime_profiler.cpp:61-305"]}
{"id": "C36", "title": "Scene updates are cumulative", "statement": "After SceneDecoder processed messages m1..mk (in one or several blocks) its receivers see the object vector obtained by applying m1..mk in order to the initial vector.", "quantifier": "all message sequences and distributions over processing blocks", "why_tests_cant": "Depends on number of messages per block and buffer parity.", "anchors": ["src/librcl/scene_decoder.cpp:30-47", "src/libpml/double_buffering_protocol.cpp:52-60"]}
{"id": "C37", "title": "Asynchronous UDP sending is in order with one datagram in flight", "statement": "UdpSender in asynchronous mode transmits every enqueued message exactly once, in order, with never more than one outstanding send operation, for every interleaving of process() calls and completion handlers.", "quantifier": "all interleavings of the processing and network threads, all message sequences", "why_tests_cant": "Thread schedules cannot be enumerated by tests.", "anchors": ["src/librcl/udp_sender.cpp:163-235"]}
{"id": "C38", "title": "UDP reception preserves order", "statement": "UdpReceiver forwards every received datagram exactly once and in arrival order, for every interleaving of the receive handler and process().", "quantifier": "all interleavings and datagram sequences", "why_tests_cant": "Thread schedules.", "anchors": ["src/librcl/udp_receiver.cpp:156-188"]}
{"id": "C39", "title": "A rejected control message does not block the component", "statement": "If a filter or routing message on a control input is invalid, process() reports it and the message is consumed, so later blocks are processed normally.", "quantifier": "all message sequences", "why_tests_cant": "Liveness after faults for every message sequence.", "anchors": ["src/librcl/fir_filter_matrix.cpp:76-130", "src/librcl/crossfading_fir_filter_matrix.cpp:78-106", "src/libvisr/impl/component_implementation.cpp:73-83"]}
{"id": "C40", "title": "Signal routing outputs the sum of the routed inputs", "statement": "SignalRouting::process gives each output channel the sum of the inputs routed to it (zero if none); a control update containing an invalid index leaves the previous routing in force.", "quantifier": "all routing tables, widths, updates, signals", "why_tests_cant": "All tables and updates.", "anchors": ["src/librcl/signal_routing.cpp:27-145"]}
{"id": "C41", "title": "Signal routing parameter maps each output to at most one input", "statement": "Over any history of add/remove/clear, a SignalRoutingParameter holds at most one entry per output; addRouting replaces, removeEntry(output) and removeEntry(entry) report exactly whether they removed something, getInput/getOutput agree with the entries.", "quantifier": "all histories", "why_tests_cant": "Map semantics over all histories.", "anchors": ["src/libpml/signal_routing_parameter.cpp:20-93"]}
{"id": "C42", "title": "Channel-object routings stay in range", "statement": "Every routing emitted by ChannelObjectRoutingCalculator refers to an existing object channel and loudspeaker channel, so that the downstream SignalRouting accepts it, and every channel object with valid labels is routed.", "quantifier": "all object vectors and loudspeaker layouts", "why_tests_cant": "Boundary index only visible for particular scenes.", "anchors": ["src/librcl/channel_object_routing_calculator.cpp:66-107", "src/librcl/signal_routing.cpp:115-145"]}
{"id": "C43", "title": "Tracking uses the best face and its newest position", "statement": "Among the messages received in a block PositionDecoder publishes the newest message of the smallest face id present, publishes nothing if none was valid, and ignores corrupt messages.", "quantifier": "all sequences of messages per block", "why_tests_cant": "All orders of face ids and timestamps.", "anchors": ["src/librcl/position_decoder.cpp:50-87"]}
{"id": "C44", "title": "Object vector is a finite map keyed by object id", "statement": "Over any history of insert/remove/assign/clear, at(id) returns the object most recently inserted under id, size() counts distinct ids, iteration is in increasing id order; parsing a faulty message with fillObjectVector leaves the vector unchanged.", "quantifier": "all histories", "why_tests_cant": "Map semantics over all histories.", "anchors": ["src/libobjectmodel/object_vector.cpp:26-94", "src/libobjectmodel/object_vector_parser.cpp:25-121"]}
{"id": "C45", "title": "Inverse time-frequency transform performs overlap-add", "statement": "TimeFrequencyInverseTransform outputs the overlap-add of all inverse-transformed frames received so far, frame k shifted by k*hop samples.", "quantifier": "all DFT sizes, hop sizes dividing the period, frame sequences", "why_tests_cant": "All hop/period ratios and histories.", "anchors": ["src/librcl/time_frequency_inverse_transform.cpp:85-135"]}
{"id": "C46", "title": "Aligned sizes are minimal multiples", "statement": "nextAlignedSize(n,a) is the least multiple of a that is >= n, and the rows of a matrix with this stride are disjoint, aligned and inside the allocated storage.", "quantifier": "all sizes and alignments >= 1, all matrix dimensions", "why_tests_cant": "All integers.", "anchors": ["src/libefl/alignment.hpp:27-85", "src/libefl/basic_matrix.hpp"]}
{"id": "C47", "title": "Parametric equaliser gains and stability", "statement": "For every cut-off frequency strictly between 0 and the Nyquist frequency, positive quality and any gain the computed biquads are stable, low-pass/low-shelf/peak/... have the documented gain at DC, Nyquist and the centre frequency, and the all-pass has unit magnitude everywhere.", "quantifier": "all filter types, frequencies, qualities, gains over the reals", "why_tests_cant": "Continuous parameter space.", "anchors": ["src/librbbl/parametric_iir_coefficient_calculator.cpp:44-220"]}
{"id": "C48", "title": "Rotations preserve distances and compose", "statement": "Rotating a position by a unit quaternion preserves norm and dot products, rotation by a product equals successive rotation, and the conjugate undoes it; ListenerPosition::transform rotates then translates.", "quantifier": "all unit quaternions and positions (exact arithmetic)", "why_tests_cant": "Algebraic identities over all values.", "anchors": ["src/librbbl/quaternion.cpp", "src/librbbl/position_3d.cpp", "src/libpml/listener_position.cpp:198-229"]}
{"id": "C49", "title": "Gain matrix with control input converges to a constant target", "statement": "If the gain parameter connected to rcl::GainMatrix stays constant, the applied gains equal it after the interpolation period.", "quantifier": "all interpolation lengths, block counts, gain values", "why_tests_cant": "Non-termination of the ramp only shows over unbounded runs.", "anchors": ["src/librcl/gain_matrix.cpp:66-96", "src/librbbl/gain_matrix.cpp:119-158"]}
{"id": "C50", "title": "Listener compensation stays inside its output vectors", "statement": "ListenerCompensation::process writes only existing elements of its gain and delay vectors, gains are in [0,1] with 1 for the farthest loudspeaker and delays are nonnegative and 0 for the farthest loudspeaker.", "quantifier": "all loudspeaker arrays (with and without virtual loudspeakers) and listener positions", "why_tests_cant": "All layouts.", "anchors": ["src/librcl/listener_compensation.cpp:62-157", "src/libpanning/LoudspeakerArray.h:190-195"]}
{"id": "C51", "title": "GainVector transitions are continuous and reach their target", "statement": "rcl::GainVector scales every channel by a gain that moves linearly from the momentary gain at the time a new gain vector arrives to the new value, and stays there once the transition is over.", "quantifier": "all transition lengths, histories of gain updates and blocks, gain values, inputs", "why_tests_cant": "Needs arbitrary histories; updates during a running transition at any phase.", "anchors": ["src/librcl/gain_vector.cpp:78-117", "src/librbbl/gain_fader.cpp"]}
{"id": "C52", "title": "Euler angles and rotation vectors describe the rotation", "statement": "setYPR yields the unit quaternion of roll about x, then pitch about y, then yaw about z; yaw(), pitch(), roll() return the angles set and describe the same rotation as the quaternion; setRotationVector yields the rotation about the vector by the angle and rotationVector()/rotationAngle() invert it; normalise() yields a unit quaternion of the same direction and a quaternion constructed with normalise=true is a unit quaternion.", "quantifier": "all angles, unit quaternions and rotation vectors (exact arithmetic)", "why_tests_cant": "Identities over continuous ranges, with singular cases (gimbal lock) tests miss.", "anchors": ["src/librbbl/quaternion.cpp:23-29", "src/librbbl/quaternion.cpp:104-236"]}
{"id": "C53", "title": "Angles between positions and orientations", "statement": "angle() of two positions is the angle they subtend; angle() of two orientations is the angle of the rotation taking one to the other.", "quantifier": "all positions and unit quaternions (exact arithmetic)", "why_tests_cant": "A wrong formula may agree with the right one at the tested points (0 and 180 degrees).", "anchors": ["src/librbbl/position_3d.cpp:127-151", "src/librbbl/quaternion.cpp:320-341"]}
{"id": "C54", "title": "Spherical interpolation", "statement": "interpolateSpherical meets its arguments at t=0 and t=1, moves in their plane at constant angular speed, interpolates the distance linearly and keeps unit quaternions unit; it is defined for all admissible arguments.", "quantifier": "all positions / unit quaternions and all t (exact arithmetic)", "why_tests_cant": "Continuous parameter and degenerate argument pairs.", "anchors": ["src/librbbl/position_3d.cpp:237-258", "src/librbbl/quaternion.cpp:361-383"]}
{"id": "C55", "title": "Listener position JSON round trip", "statement": "Writing a listener position as a property tree in any rotation format and parsing it returns the same position, orientation and meta data; ambiguous orientation formats are rejected.", "quantifier": "all listener positions and formats", "why_tests_cant": "All orientations including singular ones.", "anchors": ["src/libpml/listener_position.cpp:254-392"]}
{"id": "C56", "title": "Forward time-frequency transform frames the signal", "statement": "After any history of audio blocks, frame k of period n of TimeFrequencyTransform is the transform of the windowed window-length most recent samples at the time of its last sample (zero before the start), zero-padded to the transform size.", "quantifier": "all window lengths, hop sizes dividing the period, transform sizes, channel counts and input histories", "why_tests_cant": "The circular buffer wraps at positions depending on hop, window and period; only long runs with particular ratios reach them.", "anchors": ["src/librcl/time_frequency_transform.cpp:49-61", "src/librcl/time_frequency_transform.cpp:87-198"]}
{"id": "C57", "title": "Analysis followed by synthesis reconstructs the signal", "statement": "The default (Hann) window satisfies constant overlap-add, so TimeFrequencyTransform followed by TimeFrequencyInverseTransform with the same hop size reproduces the input delayed by window length minus hop, with a constant gain; the default normalisations of the two components are inverse to each other.", "quantifier": "all hop sizes, overlaps, transform sizes and signals (exact real arithmetic)", "why_tests_cant": "Trigonometric identity over all sizes; the gain depends on a pair of defaults in two components.", "anchors": ["src/librcl/time_frequency_transform.cpp:28-44", "src/librcl/time_frequency_transform.cpp:128-198", "src/librcl/time_frequency_inverse_transform.cpp:26-135", "src/librcl/time_frequency_transform.hpp:85", "src/librcl/time_frequency_inverse_transform.hpp:83"]}
{"id": "C58", "title": "VBAP recreates the direction of the source", "statement": "For every loudspeaker array and listener position, the gains of VBAP belong to one triplet and, weighting the directions from the listener to the loudspeakers, add up to a positive multiple of the direction of the source; they are nonnegative when a triplet encloses the source, have unit power after normalisation, depend only on the direction of the source and not on the order of the triplets, and an exception is thrown only if no triplet has at most one negative coordinate.", "quantifier": "all arrays (2D and 3D, with or without virtual loudspeakers), listener positions, sources and plane waves (exact real arithmetic)", "why_tests_cant": "The triplet search depends on the geometry of all triplets and the source; shared edges, sources outside the array, displaced listeners and degenerate triplets are measure-zero or layout-specific.", "anchors": ["src/libpanning/VBAP.cpp:23-66", "src/libpanning/VBAP.cpp:70-130", "src/libpanning/VBAP.cpp:134-211", "src/libpanning/VBAP.cpp:214-320"]}
{"id": "C59", "title": "Compensated amplitude panning matches the source along the axis of the ears", "statement": "For every listener position and orientation and every source, the gains of CAP give the gain-weighted sum of loudspeaker directions the same component along the interaural axis as the source, their sum is the distance-compensated level, no gain exceeds the limit in magnitude, with three or more loudspeakers no other such gains have as little energy, and the gains do not depend on the order of the loudspeakers.", "quantifier": "all loudspeaker layouts, listener positions and orientations, and source positions (exact real arithmetic)", "why_tests_cant": "Optimality over all gain vectors; the limits, singular layouts and the sign of a two-loudspeaker base only show for particular geometries.", "anchors": ["src/libpanning/CAP.cpp:31-227", "src/libpanning/CAP.cpp:231-259", "src/libpanning/XYZ.h:58-85"]}
{"id": "C60", "title": "The panner used for the high frequencies of CAP recreates directions inside the array and is silent outside", "statement": "For every loudspeaker array and listener position, construction succeeds, all gains are nonnegative, a source enclosed by some triplet gets gains that recreate its direction exactly as VBAP does, a source enclosed by no triplet gets zero gains, and a changed boundary threshold is in force for the next source.", "quantifier": "all arrays (2D and 3D, finite and infinite), listener positions, sources, plane waves and thresholds (exact real arithmetic)", "why_tests_cant": "Enclosure depends on the geometry of all triplets relative to a moving listener; agreement with a second implementation must hold for every enclosed direction.", "anchors": ["src/libpanning/CAP_VBAP.cpp:23-130", "src/libpanning/CAP_VBAP.cpp:134-361", "src/libpanning/CAP_VBAP.h"]}
{"id": "C61", "title": "The CAP gain calculator outputs the gains of the current scene", "statement": "After every block the gain matrix holds, for each channel, the CAP gains of the last single-channel object on that channel, scaled by its level (the direct part for a diffuse source), zeros for channels without such an object, for the current listener position and orientation; the high frequency gains are power-preserving and recreate the direction by intensity (VBIP); no block fails.", "quantifier": "all sequences of blocks with any pattern of new listener positions and object vectors, all arrays and numbers of objects (exact real arithmetic)", "why_tests_cant": "Depends on the history of two independently changing inputs and their change flags, over unbounded sequences.", "anchors": ["src/librcl/cap_gain_calculator.cpp:31-66", "src/librcl/cap_gain_calculator.cpp:81-113", "src/librcl/cap_gain_calculator.cpp:115-228"]}
{"id": "C62", "title": "The panning calculator outputs the gains and levels of the current scene", "statement": "After every block the low frequency, high frequency and diffuse gain matrices hold, for each channel of each object, the panning gains of the object at the levels of its direct and diffuse parts: channel objects exactly at the loudspeakers named by their labels, point sources and plane waves by VBAP (VBIP for high frequencies) so that the gains (the squared gains) recreate the direction, the diffuse part uniformly; unused channels are silent; the outputs follow the current listener position; no block fails or writes outside the matrices.", "quantifier": "all sequences of blocks, scenes, arrays with virtual loudspeakers, label sets, normalisation modes and output combinations (exact real arithmetic)", "why_tests_cant": "Columns are written with strides into shared padded matrices in an order given by the scene; correctness for all channel assignments, histories of listener and object updates and all source directions is not enumerable.", "anchors": ["src/librcl/panning_calculator.cpp:45-140", "src/librcl/panning_calculator.cpp:147-170", "src/librcl/panning_calculator.cpp:176-318", "src/librcl/panning_calculator.cpp:496-516"]}
{"id": "C63", "title": "A loudspeaker array holds exactly what its description says, and only correct descriptions are accepted", "statement": "Loading a panningConfiguration document: regular loudspeakers are numbered by increasing channel, virtual ones follow in document order; every name resolves to its number and back; position, gain and delay adjustment and output equaliser of every loudspeaker and subwoofer are those of its element; triplets, routes and subwoofer weights refer to the loudspeakers they name; channels are distinct and at least one; the document is accepted exactly if it is correct; nothing is read or written outside the containers; an array can be loaded again and assigned.", "quantifier": "all documents (any number of loudspeakers, virtual loudspeakers, triplets, subwoofers, equalisers, any names and channels), all conversion functions", "why_tests_cant": "Names, channels and document order can be combined in infinitely many ways; the loader fills shared tables in three passes with unchecked indices, and errors show only for particular combinations such as padded names or routes between virtual loudspeakers.", "anchors": ["src/libpanning/LoudspeakerArray.cpp:60-76", "src/libpanning/LoudspeakerArray.cpp:91-210", "src/libpanning/LoudspeakerArray.cpp:233-550", "src/libpanning/LoudspeakerArray.cpp:557-602", "src/libpanning/LoudspeakerArray.h:116-260"]}
{"id": "C64", "title": "Components form trees, names identify siblings and ports, and connections only join ports within reach", "statement": "Whatever components, composite components and ports a program creates and deletes: the components form trees whose composite nodes list exactly their children; siblings, audio ports and parameter ports of a component have different names, and creation with a taken name is refused and changes nothing; names find exactly the component or port they stand for; deletion removes an object from its parent's list, turns children into top level components and changes nothing else; connections are accepted exactly if both ports belong to the composite component or its children and the channels exist and match; every connection refers to existing ports; full names are the path of names and identify components; all components of a tree share its clock; no dangling pointer is followed.", "quantifier": "all programs (sequences of constructions, deletions, changes of width and connections by reference or name), all names, widths and channel lists", "why_tests_cant": "The lists, parent pointers and connection tables of objects are kept consistent by constructors and destructors running in any order the program chooses; a stale pointer or a lost entry shows only for particular orders of creation and deletion.", "anchors": ["src/libvisr/impl/component_implementation.cpp:27-71", "src/libvisr/impl/component_implementation.cpp:132-288", "src/libvisr/impl/composite_component_implementation.cpp:26-139", "src/libvisr/impl/composite_component_implementation.cpp:151-309", "src/libvisr/impl/audio_port_base_implementation.cpp:20-74", "src/libvisr/impl/parameter_port_base_implementation.cpp:19-58"]}
{"id": "C65", "title": "Object messages: encoding and decoding object vectors", "statement": "Encoding a vector of objects and decoding the message into any vector gives the same objects, with all fields of all object types, if the numbers, channel indices and labels are representable; updating another vector replaces or adds exactly these objects. A vector can be encoded exactly if each channel object lists one nonempty set of outputs per channel. Decoding any message leaves consistent objects only (type and content match, one output list per channel, well formed labels, nine subbands, ten filter sections, the channel count of ambisonic sources), and the content of an object depends on the message only, but for unreadable channels. A position is Cartesian or spherical, never mixed. Errors are std::invalid_argument, or std::runtime_error exactly for a message without objects; other outcomes come from reading sequences of numbers.", "quantifier": "all object vectors, all messages, all previous contents of the vector", "why_tests_cant": "The round trip combines nine parsers and writers that are edited separately, with defaults, optional members and text conversions; a member that one side forgets shows only for objects whose value differs from the default, and only after a second decoding.", "anchors": ["src/libobjectmodel/object_vector_parser.cpp:32-141", "src/libobjectmodel/object_parser.cpp:22-80", "src/libobjectmodel/point_source_parser.cpp:19-109", "src/libobjectmodel/point_source_extent_parser.cpp:15-48", "src/libobjectmodel/point_source_with_reverb_parser.cpp:53-195", "src/libobjectmodel/channel_object_parser.cpp:55-186", "src/libobjectmodel/hoa_source_parser.cpp:14-48", "src/librbbl/parametric_iir_coefficient.cpp:200-292", "src/librbbl/biquad_coefficient.cpp:76-163"]}
{"id": "C66", "title": "Sequences of floating point numbers: every text expands to its ranges, or is refused", "statement": "Constructing a FloatSequence from a text gives the concatenation of the ranges its comma separated items denote: a number, start:end, or start:increment:end, the latter two being the rounded partial sums from the start until the end is passed, in the direction of the increment; nothing else is accepted. Ranges over multiples of a power of two are exact arithmetic progressions. A range has an end exactly if none of its numbers absorbs the increment, in particular if the increment is at least a unit in the last place of numbers as large as start and end. A printed list is read back.", "quantifier": "all texts, all numbers of IEEE single and double precision (including infinities and NaN), all lists and separators", "why_tests_cant": "Whether a loop ends depends on rounding of every partial sum, and runs that do not end cannot be observed.", "anchors": ["src/librbbl/float_sequence.cpp:44-138", "src/librbbl/float_sequence.cpp:147-157"]}
{"id": "C67", "title": "Reverberation parameters: after every block the outputs are those of the scene, whatever happened before", "statement": "After each block of the reverberation parameter calculator every single-channel object with reverberation has its own rendering channel, which it keeps as long as it stays in the scene; the signal routing, reflection gains, delays, filters and panning gains, and the late gains of that channel are exactly those of the object, unused reflections are neutral, and unused channels silent and unrouted. Late parameters are sent exactly when they differ by more than 2^-23 from those last sent for the channel, so that those last sent always agree with the scene up to this tolerance. Scenes with too many objects are refused without effect, those with too many reflections without changing the buffered outputs. Late parameters are constructed from one value or nine values per quantity.", "quantifier": "all configurations, all histories of scenes including refused ones, all scenes with valid identifiers", "why_tests_cant": "Stale values of earlier blocks and of other channels only show in particular sequences of scenes, and a tolerance that accumulates only after many blocks.", "anchors": ["src/libreverbobject/reverb_parameter_calculator.cpp:34-330", "src/libobjectmodel/point_source_with_reverb.cpp:105-155", "src/librbbl/object_channel_allocator.cpp:35-110"]}
{"id": "C68", "title": "Late reverberation filters follow the parameters of the scene", "statement": "The filter of a channel is the sum over nine bands of filtered noise times an envelope: silence up to the onset, a linear rise to the level of the band, then exponential decay, never above the level; noise is the response of the band's section to white noise without its settling time. Messages are answered in order with one filter each, and nothing waits as long as no block brings more than the number of updates per block. With the calculator's default, after every block the last filter of each channel is that of the parameters of its object (up to the tolerance for resending), and that of an unused channel is zero.", "quantifier": "all noise sequences, sections, filter lengths, parameters, sequences of messages and sequences of scenes", "why_tests_cant": "The noise is drawn at random in every run, so filters cannot be compared with reference data, and queues overflow only after long runs with particular rates of change.", "anchors": ["src/libreverbobject/late_reverb_filter_calculator.cpp:36-56", "src/libreverbobject/late_reverb_filter_calculator.cpp:86-137", "src/libreverbobject/late_reverb_filter_calculator.cpp:143-175", "src/libreverbobject/late_reverb_filter_calculator.cpp:177-233", "src/libreverbobject/late_reverb_filter_calculator.cpp:261-292", "src/libreverbobject/reverb_object_renderer.cpp:188"]}
{"id": "C69", "title": "Interpolating convolver outputs weighted mixtures of filters", "statement": "An interpolant carries as many indices as weights through every setter. After an interpolant is set, its routing outputs the weighted sum of the convolutions of the input with the filters of the bank it names, as they were when it was set; in a transition the output fades linearly from the previous mixture. Changing filters of the bank is inaudible until the next interpolant. The component applies the filters and then the interpolants waiting at its inputs, in order, and then outputs the block.", "quantifier": "all sequences of calls, filters, weights, routings and input signals, all block lengths and transition lengths, all transforms satisfying the convolution theorem; in particular the half-spectrum DFT over the reals", "why_tests_cant": "Mixing happens in the frequency domain over partitions of filters, and its effect depends on the history of filters, interpolants, transitions and signals; tests compare a handful of runs.", "anchors": ["src/librbbl/interpolation_parameter.cpp:23-137", "src/librbbl/interpolating_convolver_uniform.cpp:15-70", "src/librbbl/interpolating_convolver_uniform.cpp:136-243", "src/librbbl/interpolating_convolver_uniform.cpp:252-341", "src/librcl/interpolating_fir_filter_matrix.cpp:92-146"]}
{"id": "C70", "title": "PortAudio interface passes blocks unchanged", "statement": "In every block the registered callback gets exactly the captured channels and the device gets exactly the channels it returns, for interleaved and non-interleaved device memory, whatever calls of start, stop, registerCallback and unregisterCallback come in between; without a callback and after an exception the device memory is untouched, and after an exception or stop() nothing is played again. The constructor succeeds exactly for known formats and host APIs, devices with enough channels and supported streams.", "quantifier": "all sequences of calls and blocks, all numbers of channels, period lengths and alignments, all callbacks, all device lists and configurations", "why_tests_cant": "The interface needs sound hardware and has no unit tests with checks of the samples; strides, offsets and layouts depend on numbers of channels and alignment.", "anchors": ["src/libaudiointerfaces/portaudio_interface.cpp:30-88", "src/libaudiointerfaces/portaudio_interface.cpp:224-303", "src/libaudiointerfaces/portaudio_interface.cpp:307-412", "src/libaudiointerfaces/portaudio_interface.cpp:449-585", "src/libaudiointerfaces/portaudio_interface.hpp:32-70", "src/librrl/communication_area.hpp:62-79", "src/librrl/communication_area.cpp:20-33"]}
{"id": "C71", "title": "Jack interface: ports, connections and blocks follow the configuration", "statement": "The port configuration is accepted exactly if the entries together give as many names as there are channels, and the ports are then these names in that order. For every sequence of start, stop, registerCallback, unregisterCallback and process calls, with any failures of the server, the server has exactly the configured ports and connections while the interface is started and none otherwise, and in each block the callback gets the samples of capture port i as channel i and its channel j goes to playback port j.", "quantifier": "all configurations, numbers of channels, callbacks, servers (other ports, refusals) and sequences of calls", "why_tests_cant": "The interface needs a running Jack server; failures of the server in the middle of a registration, name clashes and overlong port lists are not reachable in unit tests.", "anchors": ["src/libaudiointerfaces/jack_interface.cpp:165-279", "src/libaudiointerfaces/jack_interface.cpp:291-545", "src/libaudiointerfaces/jack_interface.cpp:567-647", "src/libaudiointerfaces/jack_interface.cpp:715-853"]}
{"id": "C72", "title": "CoreRenderer builds a complete and correct signal flow", "statement": "The constructor of CoreRenderer accepts exactly the configurations in which each loudspeaker and subwoofer has an output channel of its own within range and the output equalisation (if any) has one filter per loudspeaker and subwoofer; otherwise it throws invalid_argument. Every flow it builds passes the integrity checks of the runtime engine (each receiving channel driven exactly once, each sending channel used, all parameter ports connected and compatible), has a schedule, and delivers to each loudspeaker channel the documented combination of VBAP/VBIP panning, decorrelated diffuse part, late reverberation, subwoofer mix, equalisation and adjustment, and silence to all other channels.", "quantifier": "all numbers of inputs and outputs, all channel assignments of loudspeakers and subwoofers, with and without output equalisation, tracking, reverberation and frequency-dependent panning; all behaviours of the components", "why_tests_cant": "The wiring depends on five options and four sizes; the only test builds one configuration without subwoofer gaps, tracking or equalisation and needs loudspeaker files.", "anchors": ["src/libsignalflows/core_renderer.cpp:67-374", "src/librrl/integrity_checking.cpp:100-277", "src/libvisr/impl/composite_component_implementation.cpp:258-309", "src/librcl/hoa_allrad_gain_calculator.cpp:25-40", "src/librcl/panning_calculator.cpp:88-115"]}
{"id": "C73", "title": "PanningGainMatrix follows the transitions it receives, to sample accuracy", "statement": "For each object and loudspeaker the gain applied to sample t is given by the transitions received so far: it changes linearly from the gain at the start of the current transition to its target within its duration, stays constant afterwards, jumps if the duration is zero; a received transition replaces the stored one and becomes current at its start time, beginning with the gain at that time. The output is the sum over the objects of input times gain, independent of the block size and of the previous contents of the output buffers. Transitions in the past are reported and ignored. Messages can be assigned.", "quantifier": "all numbers of objects and loudspeakers, initial gains, block sizes, sequences of blocks, messages and input signals", "why_tests_cant": "The only test plays a file with a few transitions and checks nothing; the state space of start times, durations and block boundaries is unbounded, and the faulty cases need a transition received while another one is in progress.", "anchors": ["src/libpanningdsp/panning_gain_matrix.cpp:61-103", "src/libpanningdsp/panning_gain_matrix.cpp:122-137", "src/libpanningdsp/panning_gain_matrix.cpp:154-280", "src/libpanningdsp/panning_gain_matrix.cpp:282-368", "src/libpanningdsp/panning_gain_matrix.hpp:28-95", "src/libpanningdsp/panning_matrix_parameter.cpp:153-166"]}
{"id": "C74", "title": "Initial filter matrix of the matrix convolver", "statement": "The list of filter files is split at commas and each name is freed from surrounding blanks and quotation marks. The filter matrix contains the impulse responses of all files, each padded with zeros to the filter length, in rows starting at the given index offsets, or consecutively if no offsets are given; all other rows are zero. It has the given size, or is as large as the longest impulse response and the highest row require. Overlapping files, impulse responses or rows beyond the given size, missing or unreadable files and a wrong number of offsets are reported as invalid_argument; nothing is written outside the matrix.", "quantifier": "all lists of names, files, offsets, maximum sizes, alignments and implementations of std::sort", "why_tests_cant": "There is no test; the faulty cases depend on the order of the offsets and corrupt memory silently.", "anchors": ["src/apps/matrix_convolver/init_filter_matrix.cpp:30-173", "src/apps/matrix_convolver/init_filter_matrix.hpp:26-50", "src/libpml/matrix_parameter.cpp:268-320", "src/libefl/basic_matrix.hpp:89-104"]}
{"id": "C75", "title": "Sparse gain matrix", "statement": "SparseGainMatrix outputs, for each output channel, the sum of the input channels weighted with the gains of the entries that the current routing list routes to it. A new list or new gains take effect in a linear transition over the interpolation steps, whose end is the new setting whatever happened before. Routings outside the number of entries, rows or columns are rejected and never applied. Transitions are smooth; individual routing points can be set.", "quantifier": "all numbers of inputs, outputs and entries, block sizes, interpolation steps, routing lists, signals and sequences of updates, including failing ones", "why_tests_cant": "Transitions depend on the whole history of updates; the existing tests cover only the routing list class.", "anchors": ["src/librcl/sparse_gain_matrix.cpp:16-121", "src/librcl/sparse_gain_matrix.hpp:30-115", "src/librbbl/sparse_gain_routing.hpp:23-140", "src/libvisr/impl/component_implementation.cpp:73-82"]}
{"id": "C76", "title": "Wrappers for Matlab, Max and Python", "statement": "The host wrappers run a signal flow block by block on the data of the host: the Matlab wrapper returns the output of the flow for a matrix whose number of columns is a multiple of the period and rejects all others; the Max wrapper converts exactly one period of each channel, leaves everything else of the host buffers alone and handles errors; the Python binding processes any two-dimensional array of the right size whatever its strides. No access lies outside the buffers.", "quantifier": "all signal flows (arbitrary state machines), numbers of channels, periods, matrices, buffers, array strides including negative and zero, and failing blocks", "why_tests_cant": "The wrappers need Matlab, Max or an embedding interpreter; the test suite contains no test of the Matlab and Max wrappers, and the Python tests use contiguous arrays.", "anchors": ["src/libmexsupport/mex_wrapper.cpp:21-192", "src/maxmspexternals/libmaxsupport/signal_flow_wrapper.cpp:20-88", "src/maxmspexternals/gain_matrix/gain_matrix.cpp:190-215", "src/python/rrl/audio_signal_flow.cpp:31-77", "src/librrl/audio_signal_flow.cpp:137-218", "src/libefl/reference/vector_conversions_impl.hpp:67-113", "src/libefl/reference/vector_functions_impl.hpp:337-350"]}
{"id": "C77", "title": "Multichannel FIR filter with upsampled responses", "statement": "FIR::process computes for every filter the convolution of the whole input signal with its coefficients, spread by the upsampling ratio, across block boundaries, wrap-arounds of the circular buffer and changes of the settings. Settings that the buffer cannot hold are rejected, and no access lies outside the buffers. Random tristate filters have the drawn coefficients and consistent index lists.", "quantifier": "all sequences of calls, numbers of filters, lengths, ratios, coefficients, signals and random draws, for all values of the class constants and arbitrary sample arithmetic", "why_tests_cant": "The only test runs 63 coefficients at ratio 1 for a few blocks and does not compare results; wrap-around needs 33 blocks and the wrong taps appear only for particular lengths, ratios and orders of the setters.", "anchors": ["src/librbbl/fir.cpp:22-102", "src/librbbl/fir.hpp:36-123", "src/libefl/basic_matrix.hpp:84-104", "src/libefl/basic_matrix.hpp:145-169"]}
{"id": "C78", "title": "Parameter connections are set up exactly as connected, or refused", "statement": "ParameterConnectionGraph divides the parameter ports into the sets joined by connections and throws LogicError exactly if a connection occurs twice (or in both directions). AudioSignalFlow::initialiseParameterInfrastructure() succeeds exactly if each set of joined ports has one sender, the sender agrees with all receivers in protocol, parameter type and configuration, protocol and parameter can be created, and a protocol for two ports (message queue) has one receiver. After success each sender is the output of exactly one protocol object, whose inputs are exactly the receivers it reaches through the hierarchy, and the external endpoints are exactly the connected ports of the flow. For an atomic flow each port gets its own protocol and endpoint. Refuted: numReceivers() counts receivers; a connection without receiver is refused; a flow that passes the integrity check cannot make the set-up throw (a connection registered twice does).", "quantifier": "all port objects, hierarchies, connection maps, registered protocols and creatable parameters", "why_tests_cant": "The requirements are about connectivity of an arbitrary graph of ports through an arbitrary hierarchy; tests use a few small flows, and the wrong count of receivers is masked by the count of senders.", "anchors": ["src/librrl/parameter_connection_graph.cpp:27-104", "src/librrl/parameter_connection_graph.hpp:33-53", "src/librrl/audio_signal_flow.cpp:385-575", "src/libpml/double_buffering_protocol.cpp:62-89", "src/libpml/message_queue_protocol.cpp:69-97", "src/libpml/shared_data_protocol.cpp:36-62", "src/libvisr/communication_protocol_factory.cpp:99-112"]}
{"id": "C79", "title": "Ambisonics objects are decoded for the current listener position, and orders above the decoder are not rejected", "statement": "The construction of HoaAllRadGainCalculator succeeds exactly if the number of rows of the decoder matrix is a square, its columns are the loudspeakers of the regular array and this array has no virtual loudspeakers; otherwise it throws std::invalid_argument.  After any sequence of blocks, process() sets, for every channel of a Higher-Order-Ambisonics object, the gain to loudspeaker j to the sum over the regular loudspeakers k of decoder coefficient (signal, k) times the panning gain of loudspeaker k on loudspeaker j for the latest listener position; all other channels keep the given gains, and for a shared channel the last object counts.  An object with a wrong number of signals or a channel that does not exist ends the block, keeps what was decoded before, and does not reset the changed flag.  False of the code: an object of an order above that of the decoder is rejected (the decoder matrix is read beyond its end); AllRAD rejects virtual loudspeakers; an object of order 65535 without signals is rejected.", "quantifier": "all sizes, strides, arithmetic operations, panning functions, decoder matrices, object lists, channel lists, orders, listener positions and sequences of blocks", "why_tests_cant": "Tests decode a few objects of one order; the reads beyond a matrix depend on the order of an object received from the network and need not be visible, and the stride and alignment handling holds for every size only by proof.", "anchors": ["src/librcl/hoa_allrad_gain_calculator.cpp:23-140", "src/libpanning/AllRAD.cpp:20-91", "src/libefl/matrix_functions.cpp:19-53", "src/libefl/basic_matrix.hpp:43-213"]}
{"id": "C80", "title": "The diffuse gain of a channel comes from the last mono object on it", "statement": "DiffusionGainCalculator::process() sets the gain of every channel to 1 if the last object with exactly this channel is a diffuse source, to its diffuseness if it is a point source with diffuseness, and to 0 if it has another type or there is none; objects with several channels or a channel that does not exist have no effect, and the gains of earlier blocks have none.  A gain matrix of another size is rejected.", "quantifier": "all numbers of channels, previous gains and lists of objects", "why_tests_cant": "Tests use separate channels and existing indices; that no combination of shared, missing and multi-channel objects leaves old gains behind needs all lists of objects.", "anchors": ["src/librcl/diffusion_gain_calculator.cpp:38-91"]}
{"id": "C81", "title": "The NEON vector kernels compute the elementwise functions", "statement": "For every length, placement of the operands (each source equal to the destination or disjoint from it) and every content of the unused register lanes, each of the 24 ARM NEON kernels (add, multiply, multiply-add and their in-place and constant variants, for float and complex numbers) stores exactly the elementwise function in the destination and changes no other word. It reports an alignment error without changing memory exactly if a pointer is misaligned and the checks are compiled in (debug builds, and always in the complex vectorMultiplyAddInplace). For aligned pointers the outcome is that of the reference function, provided addition and multiplication commute and, for the complex multiply-add functions, addition is associative. Without associativity these functions differ from the reference; in builds with NDEBUG the other functions accept misaligned pointers which the reference rejects.", "quantifier": "all arithmetic operations, lengths, operand positions including in-place use, alignment arguments, memory contents and contents of unused lanes, both build types", "why_tests_cant": "The kernels split a length into groups of four, two and one and read uninitialised lanes in the last step; tests sample lengths and positions and run on one architecture and build type.", "anchors": ["src/libefl/armv7l_neon_32bit/vector_add.cpp:17-364", "src/libefl/armv7l_neon_32bit/vector_multiply.cpp:17-486", "src/libefl/armv7l_neon_32bit/vector_multiply_add.cpp:17-545", "src/libefl/reference/vector_functions_impl.hpp:93-149,205-335"]}
{"id": "C82", "title": "The run-time selection of vector functions installs only versions the processor can execute, and results do not depend on it", "statement": "For every processor architecture, every content of the CPUID registers and every sequence of calls of initialiseLibrary() and uninitialiseLibrary(), every wrapper of a vector function points to an implementation of that function for that element type, and to a version with vector instructions only if the processor announces all instruction sets that version was compiled for. After initialiseLibrary() exactly the functions with accelerated versions use the version for the most instruction sets available. uninitialiseLibrary() restores the reference functions. Calls of the multiply, multiply-add and ramp functions yield the results of the reference functions, whatever was selected.", "quantifier": "for all platforms, machines (CPUID results), sequences of initialisations and deinitialisations, wrappers, and arguments of the vector functions", "why_tests_cant": "A test runs on one processor, so it sees one of the versions; the selection depends on register contents that cannot be set, and a version needing a missing instruction set only fails on a machine that lacks it.", "anchors": ["src/libefl/initialise_library.cpp:18-38", "src/libefl/intel_x86_64/initialise_library.cpp:19-97", "src/libefl/intel_x86_64/cpu_features.cpp:32-86", "src/libefl/armv7l_neon_32bit/initialise_library.cpp:16-78", "src/libefl/function_wrapper.hpp:22-35", "src/libefl/vector_functions.cpp:19-58", "src/libefl/intel_x86_64/CMakeLists.txt:24-54"]}
{"id": "C83", "title": "Array configuration files: what is accepted, what it configures, failing and repeated loads", "statement": "For every sequence of calls of ArrayConfiguration::loadXml() on an object, successful or not, and every further file: the load succeeds exactly if the file is a document with the root arrayconfiguration in which every speaker and subwoofer element has a readable id, exactly one readable attribute gain or gainDB and an optional delay, and the ids of these elements together with those already in the object are 1, 2, ..., n. Afterwards the object contains exactly these loudspeakers, getGains() and getDelays() return the value of the loudspeaker with id k at position k-1 and reject vectors of another size, and the subwoofers are listed in document order. Failures are reported as invalid_argument or runtime_error. At all times the ids are distinct, every subwoofer is among them and the number of loudspeakers does not wrap around. A file that was loaded cannot be loaded again.", "quantifier": "for all sequences of files (missing, unreadable, malformed, arbitrary documents), all conversions of numbers", "why_tests_cant": "There are no tests of this class; documents vary in order, number and attributes of elements, and the state left by failed loads depends on the whole history.", "anchors": ["src/libpml/array_configuration.cpp:29-110", "src/libpml/array_configuration.hpp:31-115"]}
{"id": "C84", "title": "Ids of parameter types and protocols, and the factories", "statement": "The ids of parameter types and of communication protocols are 64 bit FNV-1 hashes of their names. No two of the declared types, and no two of the protocols, have the same id; names that differ in one character never have the same id. After any history of registrations and removals the parameter factory creates for an id the class that was registered first since its last removal, and throws std::invalid_argument for other ids. A registrar adds its types and removes them at its end. After the initialisation of the libraries exactly the types of their lists exist (not LateReverbParameter, BiquadCoefficientParameter and BiquadCoefficientListParameter). The protocol factory never holds two protocols with the same id or name, translates ids to names and back consistently, and a registrar of protocols registers all of its protocols or none.", "quantifier": "all names; all types; all histories of registrations and removals; all lists of protocols", "why_tests_cant": "The freedom from collisions and the behaviour after arbitrary sequences of registrations concern unboundedly many names and histories.", "anchors": ["src/libvisr/detail/compile_time_hash_fnv1.hpp", "src/libvisr/parameter_factory.hpp", "src/libvisr/parameter_factory.cpp", "src/libvisr/communication_protocol_factory.cpp", "src/libvisr/communication_protocol_factory.hpp", "src/libpml/initialise_parameter_library.cpp"]}
{"id": "C85", "title": "Parameter configurations, the objects made from them, and their assignment", "statement": "Configurations of one class compare equal iff their contents are equal, configurations of different classes are rejected. A parameter object is made iff the configuration has the class that describes the type, and it has the dimensions of the configuration; the configuration class declared for ports of a type is this class. A communication protocol holds two, one or no such objects. Assignment makes the target equal to the source or throws and leaves the target as it is; swapping a double buffer with copying leaves the value that receivers see. After a successful set-up of the parameter communication all receivers of a connection get objects of the type and dimensions they expect.", "quantifier": "all types and configurations; all object contents; all registrations; all flows", "why_tests_cant": "The agreement of declared and needed configurations, of dimensions and of the outcome of assignments concerns all types with all dimensions.", "anchors": ["src/libpml/empty_parameter_config.cpp", "src/libpml/vector_parameter_config.cpp", "src/libpml/matrix_parameter_config.cpp", "src/libpml/time_frequency_parameter_config.cpp", "src/libpml/interpolation_parameter.cpp", "src/libpml/biquad_parameter.cpp", "src/libpanningdsp/panning_matrix_parameter.cpp", "src/libvisr/typed_parameter_base.hpp", "src/libpml/double_buffering_protocol.cpp"]}
{"id": "C86", "title": "OSC packets: every datagram is read safely, exactly the valid ones are accepted", "statement": "Whatever bytes a received datagram consists of, PacketReader::init() reads no byte outside of it and terminates, and reading arguments other than blobs stays within the message. Every packet that is encoded by the OSC 1.0 rules (messages, nested bundles with at least one element, elements of size zero) is accepted, and its messages are obtained in order with the time of the innermost bundle, the address, the type tags, and through popInt32() etc. exactly the arguments that were sent, or TYPE_MISMATCH or NOT_ENOUGH_ARG. No other packet is accepted, apart from those with a blob size that overflows.", "quantifier": "all byte sequences; all packets with arbitrary nesting, addresses and arguments; all argument positions", "why_tests_cant": "Datagrams come from the network and are arbitrary; out-of-range reads depend on sizes and paddings that tests do not enumerate.", "anchors": ["3rd/include/oscpkt/oscpkt.hh:105-139", "3rd/include/oscpkt/oscpkt.hh:228-320", "3rd/include/oscpkt/oscpkt.hh:364-470", "3rd/include/oscpkt/oscpkt.hh:505-561", "src/librcl/scalar_osc_decoder.cpp:61-117"]}
{"id": "C87", "title": "ScalarOscDecoder sends the first argument of each message", "statement": "After any calls of setup() the component has exactly the outputs of the types that were passed. For every queue of datagrams process() terminates without undefined behaviour; malformed datagrams have no effect; for valid packets each output receives, in order, one value per message: the first argument, or zero if it is missing or has another type. The output for unsigned integers sends nothing for negative numbers.", "quantifier": "all sequences of setup() calls; all queues of datagrams", "why_tests_cant": "There are no tests of this component; datagrams are arbitrary bytes from the network.", "anchors": ["src/librcl/scalar_osc_decoder.cpp:33-117"]}
{"id": "C88", "title": "Vectors and matrices are read from texts and audio files as they are written", "statement": "A text with numbers that are separated by spaces or single commas, possibly followed by a comment that starts with a percent sign, is read as the vector of these numbers; nothing else is accepted (commas at the beginning or the end or in sequence are errors), and every other text raises std::invalid_argument. The rows of a matrix are the lines, and the parts of a line between semicolons; those without numbers do not count, all others must have the same number of elements, which is the number of columns. A comment extends to the end of the line. An audio file is read as a matrix with one row per channel, or, if it has one channel, as a vector, and a file with fewer samples than its header tells is rejected.", "quantifier": "for all texts, all number notations and parsers that recognise them, all audio files", "why_tests_cant": "The texts are unbounded and combine separators, comments and row breaks in arbitrary order; truncated files and comments with semicolons need particular inputs, and the uninitialised memory in the result is not visible to a test.", "anchors": ["src/libpml/vector_parameter.cpp:99-145", "src/libpml/vector_parameter.cpp:205-253", "src/libpml/matrix_parameter.cpp:91-212", "src/libpml/matrix_parameter.cpp:268-320"]}
{"id": "C89", "title": "Objects created by name are those registered first under the name", "statement": "After any sequence of registrations, the FFT factory creates the implementation that was first registered under the name, irrespective of upper and lower case, and the factories of delay algorithms and audio interfaces that of the exact name; unknown names raise std::invalid_argument (or give no object). The lists of names are complete, sorted and without repetition. With the registrations of the library, the available names are the documented ones, and a delay line of either sample type has the interpolator of the order in its name. A module search path consists of the existing directories separated by commas.", "quantifier": "for all histories of registrations, all names, build options, sample types and path strings", "why_tests_cant": "Histories and names are unbounded; that the table for double is empty shows only if somebody instantiates the delay line with double.", "anchors": ["src/librbbl/fft_wrapper_factory.cpp:36-109", "src/librbbl/fft_wrapper_factory.hpp:94-101", "src/librbbl/fractional_delay_factory.cpp:17-58", "src/librbbl/multichannel_delay_line.cpp:22-42", "src/libaudiointerfaces/audio_interface_factory.cpp:33-85", "src/libpythonsupport/load_module.cpp:64-86"]}
{"id": "C90", "title": "The baseline renderer connects its receiver, decoder and core renderer", "statement": "The constructor of BaselineRenderer succeeds exactly for the configurations that CoreRenderer accepts. The flow it builds passes the integrity checks of the runtime engine, joins its audio inputs and outputs exactly as the core renderer does, passes received messages to the scene decoder and decoded objects to exactly the calculators behind the objectDataInput of the core renderer, has no cyclic dependency, and is accepted and run by the runtime engine. With tracking, messages of the tracking system would have to reach the position decoder; they do not (TrackingReceiver.messageOutput is never connected), so that no flow with tracking passes the checks.", "quantifier": "all loudspeaker arrays, numbers of inputs, outputs and equaliser sections, with and without tracking, reverberation, dual-band panning and output equalisation; all allocations, alignments and block sizes; all behaviours of the components", "why_tests_cant": "The configurations are unbounded combinations of array sizes, channel assignments and options, and that the nested hierarchy is flattened and scheduled correctly depends on resolution through two levels; the missing connection with tracking only shows as a failure of the integrity check or as positions that never arrive.", "anchors": ["src/libsignalflows/baseline_renderer.cpp:32-67", "src/libsignalflows/core_renderer.cpp:66-374", "src/librcl/udp_receiver.cpp:80-95", "src/librcl/scene_decoder.cpp:19-46", "src/librcl/position_decoder.cpp:25-86"]}
{"id": "C91", "title": "Command line options precede option files, and both are read as documented", "statement": "Options::parse() returns Failure for an invalid command line or a missing option file, otherwise Help, Version (in this order) or Success. Afterwards each option has the value given on the command line, else that of the option file, else (switches) false; an option file named inside an option file has no effect. getOption() returns the value in effect if it has the requested type and throws otherwise; getDefaultedOption() returns the default if there is no value. Words in an option file, plain or in quotation marks behind single separators, are read back exactly. Not so: an invalid option file makes parse() throw instead of returning Failure, two separators in a row (such as CR LF) or one at the end produce empty words, and positional arguments have no effect although positional options are registered.", "quantifier": "all sets of registered options with distinct names, all syntax parsers, file systems, arguments and option files", "why_tests_cant": "Command lines and option files are unbounded texts, and the precedence depends on every combination of options in the two sources; the exceptions and empty words only show for unusual files.", "anchors": ["src/libapputilities/options.cpp:23-29", "src/libapputilities/options.cpp:39-46", "src/libapputilities/options.cpp:52-107", "src/libapputilities/options.hpp:75-130"]}
{"id": "C92", "title": "Filter parameters are read and written consistently in JSON and XML", "statement": "Reading an XML element accepts exactly the elements with a known type, frequency and quality (or the five coefficients of a section), and yields the numbers of its attributes, divided by a0 for sections; an optional number (gain, a0) that is missing or no number has its default. Lists consist of the elements of that name in document order, whatever else is there. Single equaliser parameters survive being written to and read from an XML element, lists of equaliser parameters and of sections survive JSON texts. Not so: no non-empty list of equaliser parameters survives its XML form (the writer writes child elements, the reader expects attributes), writeJson() of single parameters to a text writes nothing, no XML text can be read as single parameters (attributes are looked for at the document, and the version for strings takes a file name), and a failed loadJson() leaves a section half changed.", "quantifier": "all parameters and lists, all trees, all XML documents and file systems, all conversions of numbers", "why_tests_cant": "Round trips range over all parameters, lists and documents; that a writer and a reader disagree shows only if both are combined, and the existing tests do not combine them for XML.", "anchors": ["src/librbbl/parametric_iir_coefficient.cpp:199-340", "src/librbbl/parametric_iir_coefficient.cpp:342-482", "src/librbbl/biquad_coefficient.cpp:76-190", "src/librbbl/biquad_coefficient.cpp:250-395"]}
{"id": "C93", "title": "The bunch renderer can be built for every configuration of its core renderer", "statement": "The constructor of BunchRenderer succeeds exactly for the configurations that CoreRenderer accepts and that have as many inputs as outputs; otherwise it throws, because the outputs of the core renderer are connected to as many channels as there are inputs. Without tracking, the flow then equals that of BaselineRenderer, passes the integrity checks, and joins audio and parameters in the same way. With tracking no flow passes the checks, since nothing is connected to the input for the listener position.", "quantifier": "all loudspeaker arrays, numbers of inputs and outputs, with and without tracking, reverberation and dual-band panning", "why_tests_cant": "A test with equal numbers of inputs and outputs passes; that all other configurations fail follows from the connection of the output channels for all widths.", "anchors": ["src/libsignalflows/bunch_renderer.cpp:20-52", "src/libsignalflows/core_renderer.cpp:66-374"]}
{"id": "C94", "title": "The handling of denormalised numbers is set and restored", "statement": "setDenormHandling() sets the bits for flushing to zero (15) and for denormals as zero (6) of the control word as requested, changes no other bit, and returns the previous setting; without argument it sets both. resetDenormHandling() restores both bits and keeps what else has changed in the meantime; nested changes that are reset in reverse order restore the control word.", "quantifier": "all 32 bit control words, all settings, all nestings", "why_tests_cant": "The control word has 2^32 values of which a test meets one, and nestings are unbounded; wrong masks or swapped flags stay unnoticed because audio results hardly change.", "anchors": ["src/libefl/denormalised_number_handling.cpp:20-63", "src/libefl/denormalised_number_handling.hpp:26-75"]}
{"id": "C95", "title": "The programs start and stop the audio interface in order, restore the processor's settings and report errors", "statement": "main() of the matrix convolver and of the baseline renderer create the audio interface with the configuration given by the options (a string, a file's content, or none; both or an unreadable file are an error), register the callback, start, wait for a q, stop (and unregister), in this order, and only after successful parsing; the exit status is 0 only after information was shown on request or a complete session; the control word is restored; every loudspeaker of the baseline renderer gets the diffusion filter of its index.", "quantifier": "all results and exceptions of the called libraries, all option values and file systems, all console inputs, all control words, all numbers of loudspeakers and filter tables", "why_tests_cant": "main() runs until somebody types q and needs an audio device, so no test calls it; the failing paths depend on which of many calls throws, and arrays with more than 64 loudspeakers or an input that ends are not tried.", "anchors": ["src/apps/matrix_convolver/main.cpp:33-184", "src/apps/baseline_renderer/main.cpp:34-201", "src/apps/visr_renderer/main.cpp:45-216", "src/libefl/basic_matrix.hpp:43-74"]}
{"id": "C96", "title": "Threads share the Python interpreter without races or deadlock", "statement": "After InitialisationGuard::initialise(), threads that use the interpreter only within GilEnsureGuard scopes (nested at will) never use it, or release the lock, without holding the lock; at most one thread is within a guard; as long as one has something to do some thread can continue; and when no thread is within a guard the lock is free, so that finalisation does not wait. Wrapper's constructor and destructor use the interpreter only within guards.", "quantifier": "all numbers of threads, all programs with nested guards, all schedules, all stages at which Wrapper's constructor fails", "why_tests_cant": "Interleavings are unbounded, races show only under load, and the test programs use one thread; objects released without the lock usually go unnoticed.", "anchors": ["src/libpythonsupport/initialisation_guard.cpp:20-68", "src/libpythonsupport/gil_ensure_guard.cpp:14-35", "src/libpythoncomponents/wrapper.cpp:101-255", "src/apps/python_runner/main.cpp:45-48"]}
{"id": "C97", "title": "Conversions between numpy arrays and containers keep the elements, and pointers are given out only for accessible elements", "statement": "Every two-dimensional (one-dimensional) array of the element type, whatever its offset and strides (also negative ones), is converted to a BasicMatrix (BasicVector) with the same elements, without accesses outside the array or the matrix, for every alignment; every other array is rejected; converting back gives the same shape and elements. ContainerAccess returns a pointer if and only if the array is one-dimensional, contiguous, has at least the requested number of elements and is writeable if needed, and the elements behind the pointer are those of the array.", "quantifier": "all arrays (buffers, offsets, shapes, strides), all alignments, all matrices and vectors, all requested sizes", "why_tests_cant": "Tests use freshly allocated contiguous arrays; views with arbitrary strides and sizes that overflow the signed type are unbounded in number.", "anchors": ["src/python/libpythonbindinghelpers/matrix_from_ndarray.hpp:23-46", "src/python/libpythonbindinghelpers/ndarray_from_basic_matrix.hpp:22-43", "src/python/libpythonbindinghelpers/vector_from_ndarray.hpp:25-44", "src/python/libpythonbindinghelpers/ndarray_from_basic_vector.hpp:24-29", "src/python/libpythonbindinghelpers/container_access.hpp:38-109"]}
