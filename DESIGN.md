# Formal model of VISR: design

The model is written in Rocq/Coq 8.16 under `rocq/theories`.  The C++ code in
`/repo` is neither built nor run; every model definition carries a comment with
the file and lines it transcribes, and says where it is simplified.

## Conventions

* One area of the code per group of files:
  * `XModel.v`  – transcription of the code, definitions only;
  * `XSpec.v`   – the specification, written without using model helpers
                  (small areas keep the spec at the top of `XProps.v`);
  * `XProofs.v` – lemmas;
  * `XProps.v`  – the public theorems, each `exact`ing a lemma, each followed by
                  `Print Assumptions`, together with concrete `Example`s
                  showing that the hypotheses are met by a non-trivial case.
* Exceptions are explicit results (`Throw e`/`None`) with the state after the
  throw; undefined behaviour (out-of-bounds, division by zero, invalid iterator)
  is a distinct outcome, never a default value.
* Integers are unbounded `Z`/`nat`/`N` unless the property is about ranges.
* Sample arithmetic is exact: an arbitrary commutative ring/field (`Q`, `R` or a
  ring given by Section variables), not IEEE floats.  Rounding is out of scope except
  in C66, which uses the IEEE arithmetic of Flocq.
* Pointers to ports/components are abstract identifiers.
* Where a property stated in `properties.jsonl` is false of the code, the theorem
  `..._refuted` gives a witness in the faithful model and a second theorem proves
  the strongest variant that does hold.

## Mutation log

Each line of `seeded/LOG.jsonl` is one edit of the model. `failed` names the items (lemmas, theorems or
examples) at which the rebuild stopped, `theorems_failed` those of them that are public theorems, and
`theorems_unchecked` the public theorems of the same claim that come later in a stopped file or whose file
was not rebuilt because a file it needs stopped; nothing is known about these from the run. For older lines
the two lists were separated afterwards by the order of the theorems in the current files.
An entry in `failed` means that a proof script no longer passes, which does not by itself show that the
statement has become false. Edits that survived have an empty `failed`; their note says why, by
argument, not by proof.

## Trusted base

* The Coq 8.16.1 kernel and `vm_compute`.
* What `Print Assumptions` prints below each theorem (goal: "Closed under the
  global context"; theorems over the real numbers list the axioms of the standard
  library `Reals`: `ClassicalDedekindReals.sig_forall_dec`, `sig_not_dec`,
  `FunctionalExtensionality.functional_extensionality_dep`, and, where inverse
  trigonometric functions or IEEE numbers (Flocq, itself free of axioms) are used,
  `Classical_Prop.classic`).
* The fidelity of the transcription (no extraction from C++): see the table.
* Not modelled anywhere: floating point rounding (except C66), memory allocation failures,
  the C++ object life cycle, the STL/Boost implementations (modelled by their
  documented contracts), operating system and network, Python bindings.

## Plan per property

| id | modelled | proof |
|----|----------|-------|
| C01 | MessageQueueProtocol data operations as a state machine over a list (deque) | refinement to an abstract FIFO (history of enqueued / delivered) by induction over the operation list |
| C02 | connect/disconnect of MessageQueueProtocol and the port's protocol pointer | invariant by induction over operations |
| C03 | DoubleBufferingProtocol: front/back, per-input changed flags, connect/disconnect | refinement to "value at last swap" spec |
| C04 | same model, incremental edits as functions | fold law for copy=true, exact two-lane law for copy=false, refutation of accumulation |
| C05 | SharedDataProtocol | invariant |
| C06, C07 | CircularBuffer: storage rows of 2*allocated samples as explicit memory with bounds-checked access | refinement to sample history; mirror invariant; safety = no out-of-bounds outcome |
| C08, C09 | FlexibleBufferWrapper over the CircularBuffer model and an arbitrary stateful block function | refinement: fill-level invariant; output stream law; stride refutation |
| C10 | multiplyAndShuffle, scale factors, coefficients over a field | Lagrange basis theorem, uniqueness of the interpolating polynomial |
| C11, C12 | MultichannelDelayLine, LagrangeInterpolator index arithmetic | refinement via C06; refutation at the maximum delay |
| C13, C14 | IndexSequence items and text grammar, ChannelList printing | structural induction; round trip; refutation for constant runs |
| C15 | ChannelRange | arithmetic |
| C16 | ObjectChannelAllocator | invariant over histories; refutation for duplicates |
| C17, C18 | vectorRamp and the SSE/AVX kernels as block loops over bounds-checked arrays | loop invariants, equality with the reference |
| C19, C49 | GainFader, rbbl::GainMatrix, rcl::GainMatrix | transition invariant; refutations |
| C20, C21 | DelayVector/DelayMatrix parameter state machines on top of the delay line model | exact start of a new transition (mirrored), iff characterisation of the continuous cases, refutations; target law for parameters and audio |
| C51 | GainVector with GainFader | output law, target, refutation for running transitions |
| C22 | efl iirBiquad/iirBiquadSingleChannel reference kernels and rcl::BiquadIirFilter (all setters, constructors, process), over an arbitrary commutative ring | history refinement: every call sequence with any block lengths; each channel output satisfies the time-varying difference equations of its cascade; partition independence; refutation for ragged matrices |
| C23 | CoreConvolverUniform (partitioning, input rings, frequency-domain delay line, filter set-up) over any commutative ring of samples; the FFT wrapper is a parameter constrained by `transform_ok` (linearity and the convolution theorem with a scaling constant), discharged for the DFT over any ring with a principal root of unity (Dft.v) and for the half-spectrum real DFT over Coq's Reals (RealDft.v) | invariant relating delay line and rings to the received signal; output = direct convolution for every stream |
| C24, C25 | MultichannelConvolverUniform: routing table as an ordered multiset with the code's comparator, all routing and filter calls, process() | every call history refines a specification with a finite map of routings; order independence; refutation of the return value of removeRoutingEntry (iterator used after erase) |
| C26 | CrossfadingConvolverUniform: two filter sets, ramp counters, padded ramps. Presupposes a block length that is a multiple of the alignment (otherwise the ramp access at rampBlock*blockLength reports an alignment error) | every call history refines a specification that knows, per filter, only new filter, replaced filter and age; end-to-end transition law; ramp weights from C17; refutations: initFilters() when the second set is active, filter indices between maxFilterEntries and twice that |
| C27 | FilterRoutingList, SparseGainRoutingList (all mutators, lookup, constructor, JSON import) on a std::set model (OrdSet.v: sorted list with the code's comparator). Not modelled: the JSON text reader (its result is an input), the float sequence parser (a parameter) | every history refines a finite map; refutations for the size checks of fromJson, for removeRouting(input,output) and for a scalar entry index |
| C28 | SchedulingGraph and initialiseSchedule (SchedModel): predecessor/successor sets, vertex lookup, edges incl. artificial source and sink, boost's depth-first search (white/grey/black, back edges), topological sort. A missing vertex is undefined behaviour, because the exception of line 162 is constructed but not thrown. Diagnostic texts not modelled | depth-first search invariant (edges of finished vertices lead to earlier finished ones or are back edges; a back edge closes a cycle); schedule for arbitrary flat tables, and for the hierarchy itself through C29/C30 |
| C29, C30 | AudioConnectionMap and ParameterConnectionMap over arbitrary component hierarchies (FlowModel): fillRecursive, findReceiveChannel, resolvePlaceholders with the loop detection resp. iteration limit. Components and ports are addresses with attribute tables; diagnostic texts are not modelled | result = pairs of endpoints joined by a chain through inner ports; failure iff an endpoint depends on a loop; refutations: isolated loops, inner parameter ports with several senders |
| C31 | PortLookup, checkAudioConnectionsLocal, checkParameterConnectionsLocal, hierarchical checks | iff characterisation for all composites of a hierarchy; refutation for sample types (line 173 compares a type with itself) |
| C32 | `initialiseAudioConnections` (channel tables per sample type, inserted routing components, second run, capture/playback pointers); `std::partition` is an arbitrary permutation, addresses of inserted components are arbitrary fresh ones | invariant over the placement loops; byte addresses of every flat table and of every checked hierarchy; refuted for mixed sample types (atomic flow, connected ports) and for complex types that need routing |
| C33 | constructor, both `process()` functions and `executeComponents` over a byte memory (DataflowModel), `SignalRoutingInternal::process` with the alignment check of `vectorCopy`; components are arbitrary functions of their input bytes and of a shared world, and may throw. Spec (DataflowSpec): a valuation of the send channels and one evaluation per component in dependency order | simulation of the schedule with the inserted copies by an order of the atomic components (buffers disjoint by C32, order by C28); uniqueness by exchanging independent neighbours; composed with C29/C30 for hierarchies; refuted for copied double channels (alignment) and external ports that are not float |
| C34 | TimeImplementation, AudioSignalFlow::process/executeComponents over an abstract world and arbitrary components (RuntimeModel) | induction over histories of process/profiling calls; counter value before initialisation refuted |
| C35 | RuntimeProfiler over exact rationals (RuntimeModel); recording by executeComponents | refinement to a log of rows (Welford invariant, ring of rows); mean of no samples refuted |
| C36 | SceneDecoder over the double-buffering model | refutation + law with copy |
| C37, C38 | UdpSender/UdpReceiver as transition systems over arrivals, process(), transmission, completion handlers and errors (UdpModel) | invariants over all traces incl. dangling-buffer freedom and draining; embedded NUL (sender) and receive errors (receiver) refuted |
| C39 | control inputs of the FIR matrix components over an abstract convolver, instantiated with the convolver model (ControlModel) | claim refuted for queued messages (blocked forever); what holds of accepted messages and of complete routing lists as partial theorems |
| C40, C41, C42 | SignalRoutingParameter (all members, parse() with the behaviour of the Spirit parsers), SignalRouting (both setup functions, routing calls, process with control update), ChannelObjectRoutingCalculator (constructor, process). Not modelled: ports (the control data is an argument), status messages; loudspeaker labels are any type with decidable equality | refinement to a partial map resp. a relation; grammar soundness and completeness; output = ordered sum of connected inputs without any law of addition; refutations of the channel range, cInvalidIndex, dropped control port |
| C43 | PositionDecoder::process (the JSON parser is a parameter, see C55); one block per call, as the scan starts afresh each time | published = newest position of the smallest face id whenever no smaller face id is older than an earlier larger one; otherwise refuted; corrupt messages irrelevant |
| C44 | ObjectVector and ObjectVectorParser (fill, update, parseObject). Object classes, their parsers, the type registry and the JSON reader are parameters; an object is id, type, body | finite map refinement over all histories, strong exception safety of fill; refutation for aliasing arguments |
| C45, C56, C57 | TimeFrequencyTransform over the circular buffer model and TimeFrequencyInverseTransform, both over any commutative ring with the FFT library as a pair of functions; default window, normalisations and a real-FFT instance over R. Not modelled: FFT error codes, ports | run theorems by induction over blocks; overlap-add for one frame per period, refuted for several; construction limits refuted; constant overlap-add of the Hann window by roots of unity; default normalisation pair refuted |
| C46 | alignment helpers, BasicMatrix layout | arithmetic |
| C47 | ParametricIirCoefficientCalculator (single and list version) over R; frequency response and stability are separate specifications (complex pairs, poles, bounded output through the biquad component of C22) | field algebra, Schur stability, Lyapunov function for bounded output; unchecked cut-off frequency refuted |
| C48 | Quaternion, Position3D, ListenerPosition movements over any commutative ring; boost quaternions by their textbook operations | ring identities; every history of movements refines position + view direction |
| C52, C53, C54 | Quaternion and Position3D members using roots and trigonometry, over Coq's Reals; division by zero is undefined | polar coordinates, Rodrigues' formula, slerp identities; refutations: gimbal lock, ignored constructor flag, orientation angle (square root of the dot product), equal orientations in the interpolation |
| C55 | ListenerPosition::parseJson/writeJson on property trees (the text reader/writer is not modelled) | round trips; refutation for the YPR format in gimbal lock |
| C50 | ListenerCompensation::process over Coq's Reals with bounds-checked vectors; the double-buffered ports are reduced to the vectors written | loop invariants: gains, delays, time and level alignment; refutations: virtual loudspeakers overrun the vectors, coincident loudspeakers divide by zero |
| C58 | panning::VBAP over Coq's Reals (VbapModel): construction, inverse matrices, triplet search, rerouting, power normalisation; array accesses are checked. Spec (VbapSpec): directions, coordinates, enclosing triplets, triangulation. Not modelled: rounding | Cramer's rule in both directions, search invariant, scaling, uniqueness of nonnegative coordinates in a triangulation, rerouting of virtual loudspeakers as a linear substitution; refuted for a source at the listener, degenerate triplets, 2D arrays with the listener off the plane, infinite arrays |
| C59 | panning::CAP and XYZ over Coq's Reals (CapModel): all three branches of calcGains, setListenerOrientation; results that are not a number are UB. Not modelled: rounding | affine gains orthogonal to all admissible differences (unique minimum energy), denominator positive as a variance, limiting factors, squared gains of a pair in the mode HF; axis as a product of rotations; refuted: negative gains are not limited, polarity of two loudspeakers depends on their order, NaN in the mode HF, loudspeakers in the median plane |
| C60 | panning::CAP_VBAP over Coq's Reals (CapVbapModel): setListenerPosition with the boundary flags, the triplet search, calcPlainGains, normalisation, threshold and fade setters. Not modelled: rounding | coordinates of an enclosing triplet are nonnegative and unique, silence otherwise; equality with the VBAP model for enclosed sources; refuted: 2D arrays read past the triplet (UB), negative third gain near a boundary, a new threshold has no effect until the listener moves |
| C61 | rcl::CAPGainCalculator (CapGainModel): constructor, both inputs with their change flags, assignment of objects to channels, gain and high frequency matrices, sequences of blocks; on top of the models of C59 and C60. Not modelled: rounding, messages | invariant: the algorithms follow the listener; by induction over blocks the outputs are those of the last object vector and the listener of that block; totality under the hypotheses of C59 and C60; refuted: a new listener alone has no effect and the initial axis of the ears points ahead, diffuseness is ignored, the high frequency gains are not those of VBIP |
| C62 | rcl::PanningCalculator (PannerModel, the compiled branch): constructor with the label table, both inputs with change flags, channel objects, diffuse sources, plane waves and point sources, normalisation, strided writes into the three padded matrices, sequences of blocks; on top of the VBAP model of C58. Not modelled: rounding, messages, the state after an exception | a strided write changes one column; frame and write lemmas per object, then induction over objects and over blocks; levels by homogeneity of the norms, directions from C58; totality for enclosed sources; refuted: angles of plane waves in degrees, square root of a negative gain, VBAP exception, unknown label, channel out of range (UB), stale gains after a change of the listener alone |
| C63 | panning::LoudspeakerArray (LspModel): the three passes of loadXmlStream over loudspeakers, virtual loudspeakers and subwoofers, triplets, equaliser table, channel tests, operator=, all queries; ids with trimming, character set, splitting of name lists; flat matrices without index test (UB). The document is given as the tree of elements; the XML and number parsers, conversions from decibels and polar coordinates, FloatSequence and the reading of a filter are parameters; the state after an exception is not modelled | separate meaning of a document (LspSpec: stripped names, name lists, rank of a channel, last entry wins); outcome lemma per pass (Ok gives facts, never UB under a condition) and totality lemma per pass, composed; map kept ordered; refuted: padded ids, routes to virtual loudspeakers, loading twice, operator= without equalisers, channel of a virtual loudspeaker (UB), subwoofer channel zero |
| C64 | visr::impl component and port objects (TreeModel): a heap of components and ports referring to each other by address, with UB for an address without object; constructors, destructors, registration, lookup, checkPortParent, the five ways to connect | Invariant of all programs that use existing objects and delete ports first (wf, kept by each operation), and a description of each operation in terms of the fields before and after. Refuted: a child named "this" or "" cannot be found by name; connections by name are accepted with unequal or missing channels; connections stay after their ports are deleted or narrowed; full names are ambiguous with colons or the name of the top; orphaned children share a clock; a port that outlives its component follows a stale pointer. Simplified: addresses not reused, tables in order of insertion, no types, directions or messages |
| C65 | libobjectmodel parsers and writers of all object types, property trees, integer and label texts (MsgModel); the loop over a message is C44's | Lookup tables of the written trees give each field back; per type `parser (writer o) = o` whatever the old content; composed with C44 to vectors (encode, fill, update). Consistency and errors by case analysis over all trees. Float conversions, JSON and FloatSequence are parameters with stated laws (MsgSpec `libraries`); MsgDemo is an instance. Refuted: every source with extent is rejected after encoding, unassigned channels, infinite channel lock, tiny gains, spaces in labels and digits of the late reverberation are lost, ambisonic order 2^32-1 without channels is accepted, an empty channel object is decoded but cannot be encoded |
| C66 | librbbl FloatSequence: parse actions, both loops with IEEE arithmetic (Flocq `binary_float`, generic in precision), grammar, toString (FloatSeqModel); qi::float_ and ostream<< are parameters | Loops characterised by partial sums (`ranges`); finite numbers are multiples of the smallest one and a step towards the end never goes back, so a loop either gets stuck or ends; monotone rounding gives the conditions on the increment; sums of small multiples of a power of two are exact; grammar as in C13, over any lexer satisfying `lexes` (instance: integers). Refuted: "16777216:16777218" never ends in single precision, "0:0.3:0.9" lacks its last element, the printed empty list is not read. |
| C67 | ReverbParameterCalculator: setup, process, processSingleObject, clearSingleObject with every single write into the double buffered outputs and the shared panning matrix (flat memory with stride, out of bounds = UB), late parameter comparison and sending; LateReverb constructors (ReverbModel); allocator of C16, routing table of C41; VBAP gains, biquads and positions are parameters; the six double buffered outputs are swapped as one | Every statement is characterised by the set of cells it writes (`performs`), the set of a block is functional and covers all channels; invariant over all histories including exceptions; refuted: refused blocks leave panning gains and messages, identifier UINT_MAX is silent, default arguments of LateReverb throw |
| C68 | LateReverbFilterCalculator (LateModel): filterBiquad, constructor, process, calculateImpulseResponse with the state kept at an exception, createEnvelope; connected to the messages of C67. Parameters are rationals, samples are Coq reals with the real exponential; white noise is an arbitrary function; queues are lists | Envelope characterised by recurrences that determine it (`is_envelope`), filter by the leading bands that fit (`is_filter`, unique), noise by its difference equation (`responds`); queue by induction over blocks with an exact recursion for the backlog; end to end by the invariant that the sent parameters and the filters correspond one to one. Refuted: documented order of past values of filterBiquad, "skipping calculation" sends the bands calculated so far, negative delays are converted to unsigned (UB), with the renderer's default of one update per block the queue grows without bound; an index out of range blocks the queue for ever |
| C69 | InterpolationParameter, InterpolatingConvolverUniform and InterpolatingFirFilterMatrix::process (InterpConvModel), on top of the crossfading convolver of C26; abstract ring of samples, abstract spectral values, queues as lists with fuel for the two loops of the component | Refinement: the specification keeps the bank as time-domain filters and an interpolant as their weighted sum; every call of every sequence gives the same return and the same audio (`C69_refines`), closed form of a transition (`C69_transition`, over the reals `C69_real`). Refuted: the constructor passes its two limits to the inner convolver in the wrong order (valid routings refused, invalid ones accepted, out-of-bounds access), zero interpolants are not rejected (UB), a refused message stays at the head of the queue and process() never returns |
| C70 | PortaudioInterface::Impl (PortaudioModel): constructor with format, host API and device selection, start/stop, callbacks, the engine callback with the two transfer loops over bounds-checked memory, CommunicationArea. PortAudio is an environment record and a four-state stream; JSON reading is left out; the callback is an arbitrary function | Channel and frame specification of both memory layouts (`C70_layouts`), refinement over all call sequences by an invariant of the pointer arrays (`C70_run`), absorbing states (`C70_final`), exact acceptance condition of the constructor (`C70_construct`). Refuted: selection by name and direction (prefix match, direction ignored), one-directional streams, restart after stop (closed stream); formats other than float32 are accepted and throw out of the C callback in every block (`C70_other_formats`) |
| C71 | JackInterface (JackModel): loadPortConfig with its unchecked writes and sticky optionals, constructor, register/unregister/connect/disconnectPorts, start, stop, callbacks, process. The Jack server is a state machine with ports, connections and an active flag; other clients, refusals and failures are parameters; JSON text, console output and preemption between the threads are left out | Acceptance condition and names as concatenation over the entries (`C71_ports`, `C71_default`, `C71_unindexed`), exact condition of the constructor (`C71_construct`, `C71_leak`), refinement of the life cycle for all call sequences by an invariant on port identities (`C71_run`, `C71_server`, `C71_failed_start`). Refuted: exception for too many names (out-of-bounds write), uniqueness of names (capture names are not compared), per-direction autoconnect, own external ports per entry, connection of names with a colon, no client left after a failed constructor, inactive client after a failed start, destructor that never ends the program |
| C72 | CoreRenderer constructor (CoreModel): components, their ports (width, direction, protocol, type, configuration) and all connections as a function of the configuration, channel assignment with the int/size_t conversions, sorting and the loop for silent channels. The flow is an object of FlowModel. Left out: exceptions inside component constructors, interior of ReverbObjectRenderer (one component here) | Exact set of accepted configurations (`C72_construct`), integrity check (`C72_integrity`, via the characterisation of C31), schedule and block processing (`C72_runs`, via C33), an equation for every output channel for arbitrary component behaviours (`C72_output`), the exact list of parameter connections and their compatibility (`C72_parameters`, `C72_compatible`, also with tracking), the audio connections behind the mixer with tracking (`C72_tracking_compensated`). Refuted: with tracking every flow is rejected by the runtime engine (`C72_tracking`) and the subwoofer signals are lost (`C72_tracking_subwoofers`) |
| C73 | PanningGainMatrix (PanGainModel): constructors, message handling with the state left behind by exceptions, segments of a block, scaling with the ramp into buffers with arbitrary contents; assertions and accesses out of bounds are UB; `operator=` of PanningMatrixParameter. Exact rationals, unbounded times with an infinity | The specification (PanGainSpec) is a trajectory advanced sample by sample. Refinement for all sequences of blocks: as documented if no transition interrupts another one (`C73_output`), and in general with the effect the code has on interrupted transitions (`C73_output_actual`, which includes absence of exceptions and UB). Refuted: interruption at the current time and later (`C73_interrupt_refuted`, `C73_interrupt_later_refuted`), late messages are not ignored but make all blocks fail (`C73_past`), assignment of non-square messages throws (`C73_assign_refuted`) |
| C74 | initFilterMatrix and MatrixParameter::fromAudioFile (FilterInitModel): splitting and trimming of names, both passes over the files, the test for overlaps with its index error, resizing with alignment, copying into bounds-checked memory. The file system is a function, std::sort any function that sorts. Left out: overflow of size_t, failing allocation | Names against an independent description (`C74_names`). `C74_documented`: for files in order (in particular without offsets, `C74_consecutive`) size, contents and errors exactly as documented. `C74_actual`: exact behaviour for other offsets whose smallest is the first; `C74_not_first`: otherwise the function never succeeds. Refuted: overlaps are accepted, disjoint files rejected, reads and writes out of bounds for other orders, blank lists and truncated files are not treated as documented (`C74_*_refuted`) |
| C75 | SparseGainMatrix (SparseGainModel): constructor, setRoutings() with partial writes before an error, process() with swapping of the gain vectors, order of updates, pending flags of the ports and mixing through the gain fader of GainModel. Exact rationals; alignment not modelled | Refinement to a specification with gains as functions of the time (`C75_output`: product with the matrix of momentary gains), safety for arbitrary calls (`C75_safe`), rejection (`C75_construct`, `C75_rejected`), settling after any history (`C75_list_settles`, `C75_gains`: linear from the previous target). Refuted: smooth transitions in five situations, setting of routing points, gain vectors of another size, rejected lists without effect (`C75_*_refuted`) |
| C76 | MexWrapper, SignalFlowWrapper with perform() of an external, wrapProcess() of the Python binding (HostModel): strided accesses to bounded memory, status and exceptions, size_t arithmetic of strides modulo 2^64. The flow is an arbitrary state machine, sample conversion an arbitrary function; allocation and alignment not modelled | Exact outcomes of the constructor (`C76_mex_construct`), of a Max block (`C76_max_block`) and of the Python call (`C76_python`); transfer of the Matlab samples by induction over the blocks, given the expected status (`C76_mex_signal_if_status_zero`). Refuted: the Matlab wrapper ever succeeds (`C76_mex_signal_refuted`, for every flow), flows without channels, handled errors and block length in Max, strides that are not multiples of the sample size |
| C77 | FIR (FirModel): setters, loadFIRs, createWhiteTristateFIRs with arbitrary draws, process with the circular buffer and integer indices; accesses outside arrays and int overflow of the guard are undefined behaviour. Arbitrary sample type and operations; m_gain (never read) and negative sizes not modelled | Refinement of a specification whose state is the signal history, for all admissible call sequences (`C77_refines`); convolution for all settings with (length-1)*ratio <= maximum (`C77_convolution`), guaranteed by an accepted ratio (`C77_ratio_guard`); tristate filters (`C77_tristate`). Refuted: limit on the length, on ratios set before the length, negative ratios, number of tristate filters (`C77_*_refuted`) |
| C78 | InfraModel.v: connection graph (vertices, edges, components by merging labels), division into senders and receivers, creation and connection of protocols with all failure paths of the inner and outer try blocks, atomic flows, external endpoints. Registered protocols and creatable parameters (given protocol, type and configuration) are arbitrary functions. Not modelled: messages; endpoints are identified with ports instead of names. | InfraSpec.v states connectivity as reflexive symmetric transitive closure. Labels are shown equal exactly for joined ports by induction over the edges; outcome and protocols of one connection are characterised exactly and lifted over the list of connections; C30 gives the hierarchical version. `C78_core` instantiates it for the core renderer (C72), which therefore runs with the real set-up (`C78_core_runs`). |
| C79 | BasicMatrix as memory with stride (constructor, access, rows, copy with equal and different strides), efl::product on the memory, AllRAD (constructor, setListenerPosition, updateDecodingCoefficients), HoaAllRadGainCalculator (constructor, process with errors and early return); operations of the samples and VBAP gains arbitrary; accesses outside the memory are UB | matrix contents as a table, loop invariants for copy, product and the columns, then induction over signals, objects and blocks: C79_construct, C79_total, C79_decodes, C79_incomplete, C79_range, C79_allrad, C79_high_order; C79_order_refuted, C79_wrap_refuted, C79_virtual_refuted with witnesses |
| C80 | DiffusionGainCalculator process and processInternal; the first row of the matrix as a list, objects as channel list and type | C80_gains by induction over the objects from the end |
| C81 | NeonModel.v: registers as lists of lanes, structure loads and stores, single lane access with arbitrary old contents, the loops over four, two, one elements, all 24 kernels and the 12 reference functions; arithmetic arbitrary; memory and alignment check as in C18 | NeonProofs.v: invariant over the loops (elements processed so far hold the function, the rest is unchanged), registers element by element; NeonProps.v: one theorem per function and number type, uniqueness gives agreement with the reference; witnesses for the missing check and for rounding |
| C82 | DispatchModel.v: function_wrapper.hpp, vector_functions.cpp (table of the static function pointers: 23 functions, 13 types), cpu_features.cpp (CPUID leaves, register and bit tests), initialise_library.cpp for x86, ARM and other processors. The kernels and reference functions called are those of C18. Not modelled: MSVC flags, static initialisation order, concurrent calls. | DispatchSpec.v states the CPUID bits of the instruction sets, the instruction sets each version is compiled for and the best usable version; DispatchProofs.v: invariant of the table over all sequences of operations; DispatchProps.v: C82_own_function, C82_supported, C82_initialise, C82_success, C82_call_* (with the theorems of C18). C82_uninitialise_partial and C82_uninitialise_refuted: the double multiply-add function is not reset. C82_detection_partial and C82_sse3_refuted: the bit of SSSE3 is taken for SSE3. C82_executable_refuted: support of the operating system for the AVX registers is not checked. |
| C83 | ArrayConfModel.v: the whole class ArrayConfiguration, on the property trees of MsgModel.v; the set ordered by ids, the partially changed state on exceptions. The XML reader, conversions of numbers from text and from decibels are parameters. | ArrayConfSpec.v: what an element describes, accepted documents. ArrayConfProofs.v: sorted insertion, both loops with the speakers added until a failure, adjacency check. ArrayConfProps.v: C83_invariant, C83_counts, C83_accepted, C83_contents, C83_gains, C83_errors, C83_reload. C83_failed_load_refuted: a failing load changes the object. C83_replaces_refuted: a load extends the configuration. |
| C84 | `ParamModel.v`: the hash on words modulo 2^64 with sign-extended characters, the names of all parameter types, the creator tables as association lists, registrars as recursion over the list of types including the destructor of the base class when the constructor throws | `FactoryProps.v`: the FNV prime is invertible modulo 2^64 and xor cancels, so each step of the hash is injective in the state and in the character; the ids of the finitely many types by computation; lookups equal `current` of the history by induction; tables of protocols by the invariant of unique ids and names. Refuted: a shared type survives the end of one of two registrars; all declared types can be created |
| C85 | `ParamModel.v`: the five configuration classes with compare(), the constructors of all parameter classes, copy assignment with the state of the target after an exception, the constructors of the protocols and swapBuffers(); contents of objects are values of an arbitrary type | `ParamProps.v`: exact outcomes by cases over types and configurations; C85_setup composes the factories with the set-up of C78. Refuted: InterpolationParameterConfig::compare() always says equal; the declared configuration of biquad coefficients is not accepted; PanningMatrixParameter::operator= resizes with rows and columns exchanged, throws for matrices that are not square and loses the target; BiquadCoefficientList::operator= does not throw |
| C86 | `OscModel.v`: PacketReader, Message::buildFromRawData() and ArgReader on bytes, with reads outside of the area as undefined behaviour and the 32 bit arithmetic of blob sizes | `OscSpec.v` defines the encoding of packets; soundness and completeness of the reader by induction over tags and over the recursion (fuel equal to the length is shown to suffice). Refuted: a blob size of 2^32-4 is accepted, and popBlob() is then undefined; a bundle without elements is rejected |
| C87 | `OscModel.v`: setup() and process() on top of the packet reader of C86, the queues as lists | `OscProps.v`: by induction over the queue and the messages from C86. Refuted: the default values of the code (largest int, not-a-number) are sent for messages without a suitable argument, and the outputs are independent of each other |
| C88 | TextModel.v: the Spirit grammar with its skipper (lists with optional separator, backtracking over a separator, comments), getline and the split at semicolons, the minimum and maximum row size, the result; fromAudioFile with the contents of memory before reading | TextProps.v against the grammar of TextSpec.v: C88_vector, C88_matrix (what is written is read), C88_vector_only, C88_matrix_only (only that is accepted, otherwise invalid_argument), C88_commas, C88_audio, C88_audio_vector, C88_audio_rejected; C88_comment_refuted (a comment in a matrix ends at a semicolon), C88_vector_comment (in a vector it extends to the end of the text), C88_audio_refuted (a truncated file is accepted with indeterminate samples) |
| C89 | NameModel.v: std::map ordered by std::string with insert and find, to_lower, the three factories, listImplementations, the registrations at start-up depending on the build options, the choice of the interpolator in the constructor of MultichannelDelayLine, pathStringToSequence with the compressing split | NameProps.v: C89_fft, C89_exact (create gives what was registered first), C89_unique, C89_lists, C89_libraries, C89_delay_line, C89_interfaces, C89_path, C89_path_unique; C89_double_refuted (no delay line for double can be created), C89_path_refuted (a directory with a space in its name is not found) |
| C90 | BaselineModel: the constructor on top of the model of CoreRenderer (C72): the components, ports and connections of baseline_renderer.cpp 32-67, audioConnection and parameterConnection with their checks; the core renderer becomes a composite below the top level. The port numbers of the core renderer are kept, new ports get new numbers. Not modelled: what the components compute, exceptions of their constructors | Shape of the result by computation; ports of the core have the same attributes in both object tables, so its checks transfer; paths through the ports of the core by case analysis (audio: transparent; parameters: base_drives); a rank shows that dependencies are acyclic; then C33 and C78 for hierarchies. Refuted with tracking: the receiver and the position decoder are not connected, in the renderer itself (independently of C72_tracking). Spec in BaselineSpec: into, base_drives |
| C91 | OptionModel: the constructor (registered options), parse(), hasOption(), getOption(), getDefaultedOption(), the tokenizer boost::escaped_list_separator with the characters used, and boost::program_options::store (final options, duplicates, unknown names, values that cannot be converted). The syntax parser of boost::program_options is a variable (words to name and value pairs), as are the file system and which values convert to which type. Not modelled: texts of messages, short names and prefixes of options (part of the parser) | Invariant of storing over the list of pairs (store_spec), then by cases of parse(); tokenizer by induction over the words with an accumulated token. C91_positional is an equation of two executions. Spec in OptionSpec: well_formed, gives, in_effect, switched_on, written, separated |
| C92 | FilterModel, on top of the trees of MsgModel (C65): loadXml and writeXml of ParametricIirCoefficient, the JSON and XML functions of ParametricIirCoefficientList, the versions for streams and strings, loadXml of BiquadCoefficient(List), loadJson of BiquadCoefficient as an assignment. XML reader and writer and the conversion of numbers are parameters. Not modelled: BiquadCoefficient(List)::writeXml (not implemented in the code), output to std::cout | Characterisation of accepted elements by cases (uniqueness of attributes), lists by induction (Forall2), round trips from the characterisation and from the lemmas of C65. Refutations for all lists, all readers and all texts. Spec in FilterSpec: has_attr, number, number_or, eq_element, biquad_element, documents |
| C93 | BunchModel: components and connections of bunch_renderer.cpp 33-51 on top of CoreModel (C72) and the connection functions of BaselineModel (C90). Not modelled: what the components compute, exceptions of their constructors | Shape of the result by computation for all widths, equality with baseline_new, then C90; with tracking the local check of the renderer fails by computation |
| C94 | DenormModel: the masks and the three functions on a control word (binary natural numbers), for Intel processors. Not modelled: other processors (the functions do nothing), what the bits do to arithmetic | Bitwise: the bits of the new word for every index, then extensionality of bits; nestings by induction. Spec: bits 15 and 6 of the control word |
| C95 | MainModel: both main functions with the loop on the console, the choice of the configuration, the copy of the diffusion filters in bounds-checked memory, the calls of the audio interface as events, and the control word (DenormModel). Results of the called libraries are given by a record. Not modelled: texts on the console, destructors, signals | Case analysis over all results; the loop by induction on the input; the filter copy by induction over the rows with the lemmas of C74. Refuted: the control word stays changed after help, version, lists and wrong options, and in the baseline renderer after any exception; an exception of the option file terminates the matrix convolver; more than 64 loudspeakers read behind the table; the end of the input does not end the program |
| C96 | GilModel: the interpreter lock and the thread states as a transition system (PyGILState_Ensure, PyGILState_Release, PyEval_SaveThread, PyEval_RestoreThread as documented), programs as nested scopes, initialise(), uses of the interpreter by Wrapper's constructor (for each stage of failure) and destructor. Not modelled: switching of threads within a guard by the interpreter, which returns the lock; what Python code does | Invariant over all schedules (completion by the number of remaining actions): the saved states of a thread's guards, its counter and the owner of the lock agree, and the remaining actions are nested. Spec: number of guards after the executed actions. Refuted: if Wrapper's constructor throws after the module was loaded, its members release their objects after the guard is gone |
| C97 | NdArrayModel: arrays as views (buffer, offset, shape, strides), matrixFromNdArray, vectorFromNdArray (loops with bounds-checked loads and stores), ndArrayFromBasicMatrix, ndArrayFromBasicVector, ContainerAccess for arrays (with the cast to a signed size) and vectors. Simplified: offsets and strides are multiples of the element size; alignment 0 or a power of two; the copies made by pybind11 keep the layout | Induction over the written index pairs. Spec: element at offset plus sum of index times stride. Refuted: requested sizes from 2^63 on become negative and pass the size check for arrays |
