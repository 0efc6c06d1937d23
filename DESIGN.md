# Formal model of xmos/ai_tools in Rocq (Coq 8.16.1)

## 1. Layout

* `properties.jsonl` - the English properties (generated by `tools/gen_properties.py`, plain data).
* `rocq/theories/*Model.v` - executable Gallina models, function by function; each definition cites the lines of /repo it
  models and says where it simplifies.
* `rocq/theories/*Spec.v`, `NdSpec.v`, `ConvSpec.v`, `CopyKernels.v` - small specifications, independent of the models
  (row-major N-d tensors, liveness, convolution sums, TFLite quantisation, numpy indexing, flash reader, USB transfer...).
* `rocq/theories/*Proofs.v` - lemmas.
* `rocq/theories/*Props.v` - the property theorems `Cnn_...`, each followed by `Print Assumptions`, with `Example`s
  showing that the hypotheses are met by a concrete non-trivial case.  Theorems `Cnn_refuted_*` / `Cnn_*_refuted` are
  counterexamples: they prove that the code, as modelled, violates the unrestricted statement.
* `MANIFEST.json` - property -> theorem names (generated by `tools/sync.py` from `tools/manifest_data.py`).
* `seeded/` - mutation experiments: `run.py` applies the edits of `batchN.json` to a scratch copy, rebuilds and appends to
  `LOG.jsonl` which theorems failed.

Build: `cd rocq && coq_makefile -f _CoqProject -o Makefile && make -j4` (about 4 minutes).

## 2. Trusted base

* Coq's kernel, 8.16.1.  No axioms of our own, no `Admitted`, no kernel check switched off, no module types or functors.
* `Print Assumptions` answers **"Closed under the global context"** for every theorem listed in MANIFEST.json (the build
  prints it next to each of them), except the theorems of C68 (softmax), C86_log2_16_real, C94 (magnitudes) and C100 (float32, through Flocq), which use the standard library's real numbers
  (`exp`, `ln`, `sqrt`).  For those it lists exactly the standard library's axioms
  `ClassicalDedekindReals.sig_not_dec`, `ClassicalDedekindReals.sig_forall_dec`,
  `FunctionalExtensionality.functional_extensionality_dep` and `Classical_Prop.classic`.  Everywhere else numbers that are
  floating point in the code are rationals `Q` or elements of an abstract ordered domain.  `coqchk`/`vcheck` list `Coq.ssr.ssrunder.*` among the *loaded*
  libraries' axioms (module-type fields of the standard library's `ssrunder`, loaded through `Lia`/`Zify`); no theorem
  depends on them.
* The reading of the code: every model definition is a hand translation of the cited lines; the code is never run.
* The reading of what is outside the repository (section 5).  /repo/third_party is **empty** at this commit: lib_nn,
  lib_tflite_micro and lib_tflmc are not available, nor are LLVM/MLIR/TensorFlow/flatbuffers.

## 3. Conventions of the models

* Integers are unbounded `Z` unless the comment of the definition says otherwise.  Where 32-bit or 8-bit wrapping is
  observable (sizes, addresses, lookup tables, version words) the wrap is modelled explicitly.  C++ truncating division is
  `Z.quot`/`Z.rem` where operands can be negative.
* Floating point is replaced by exact rational arithmetic (`Q`); theorems say so in their comments, and the manifest notes
  repeat it.  Transcendental functions are arbitrary parameters.
* An out-of-bounds access, a failed assertion, an undefined conversion or a null dereference is an explicit `None` / error
  constructor.  "Pattern does not match" (`failure()`) is a different outcome from "undefined".
* Hash-table iteration orders, rewrite driver orders and scheduler choices are universally quantified parameters.
* Tensors are functions from index lists to values together with a shape (NdSpec) or flat row-major lists of bytes.

## 4. Per property: what is modelled and how it is proved

| id | modelled (in /repo/xformer unless said) | statement and proof |
|---|---|---|
| C01 | Analysis/MemoryPlan.cpp build(), getOffset, the multiset and the size-ordered queue over an explicit SSA graph | invariant of the greedy loop: pairwise disjointness of lifetime-overlapping placed buffers, sortedness of the placed list |
| C02 | as C01 + a byte-arena interpreter (MemExec) against private buffers | simulation relation over the execution prefix, using C01 |
| C03-C05 | as C01 | induction on the queue, permutations, first-fit minimality, pigeonhole over disjoint byte ranges |
| C06, C07 | the overlap chains of MemoryPlan.cpp 156-235 | as C01 with merged buffers; in-place kernel specified as a front-to-back reader/writer; counterexamples for chains and growing elements |
| C08 | Transforms/PlanMemory.cpp | case analysis over the two plans |
| C09-C11 | Utils/ThreadSupport.cpp getImageRegionThreadSplits | tiling = every pixel in exactly one region; induction on the split loop and on the layout loop |
| C12-C16 | Utils/Util.cpp mergeAxes, ReplaceSlice/Pad/Broadcast/Concat.cpp | flat-memory copy kernels (assumed) produce the N-d specification; induction on the rank and loop nests |
| C17-C19 | SplitConcatPattern, ReplaceMean/Sum.cpp, ReplaceStridedSlice.cpp | N-d algebra; numpy indexing specification |
| C20 | OptimizeTranspose.cpp, three patterns on an expression language of bodies | rewriting closure: any sequence of applications preserves denotation |
| C21-C23 | WriteWeights.cpp, FileIO.cpp, TileRamSupport.cpp, ApplyLoadConstantOpPatterns.cpp | state machine over any visiting order; invariant: placed ranges = concatenation of the blobs |
| C24-C28, C45 | OpSplit.cpp patterns | arithmetic on windows; exact characterisation (iff) of the bands for which the code is right |
| C46 | XCoreOptMain.cpp 206-332, MemoryPlan.cpp 426-450 | loop with fuel, termination measure and local optimality |
| C29-C31, C47 | OptimizeConv2D.cpp | integer accumulators as finite sums; reindexing of sums |
| C32-C35, C48 | ApplyTFLPatterns.cpp, OptimizeConv2D.cpp, ReplaceTransposeConv.cpp, ReplaceFCWithConv2D.cpp, ReplaceAvgPoolWithConv2D.cpp | as above |
| C36, C37, C50, C51 | ApplyXCPatterns.cpp, TFLPatterns.td | rounding and saturation over Q; bit/byte reasoning |
| C38, C49, C52-C54 | TFLPatterns.td, XCPatterns.td, Utils.td, Util.cpp, HoistQuantizeAboveConcat | extensional equality of N-d tensors |
| C39-C43 | python/.../flash.py, io_server / usb host (ioserver), XCoreOptMain.cpp metadata and version check, RemoveDynamicShape.cpp | byte-list lemmas; protocol as two communicating state machines |
| C44 | ReplaceAddSub.cpp | error bound of the fixed point map over Q |
| C55, C56 | python xinterpreters: host interpreter python wrapper and its C++ engine | history of calls; refinement to a map of tensors |
| C57-C60, C62 | ConvPatternsTFL.cpp, ConvPatterns.td, ConvRevertPatterns.td, ReplaceMaxPool2D.cpp | kernel contract (section 5) and accumulator equality |
| C61 | ConvPatternsLCE.cpp, TFLPatterns.td 150-173 | Larq semantics, popcount algebra |
| C63, C64 | TranslateToCustomOp.cpp, Util.cpp type sizes | flexbuffers builder specified as an append-only byte buffer |
| C65, C67 | python/.../__init__.py convert, FileIO.cpp text output | parsers as specification (LLVM command line, C initialiser lists) |
| C66 | XCoreOptMain.cpp 380-675 | event trace of the driver |

### 4b. Properties added as the model grew

| id | modelled | statement and proof |
|---|---|---|
| C68 | ApplyXCPatterns.cpp getExpLookupF32, XCPatterns.td softmax patterns; Coq's reals, float overflow/underflow thresholds | each row of the output is the rounded softmax; ratio of exponentials is invariant under the zero point; counterexamples by overflow |
| C69 | ApplyXCPatterns.cpp getBinaryI16Blob, getUnaryI16Blob, getLookupTableI16 and their .td patterns | the value the kernel approximates is the quantised operator's, over Q, when zero points are 0; counterexamples otherwise |
| C70 | XCPatterns.td 193-208 as rewriting of expressions | congruence closure: any sequence of rewrites preserves the denotation |
| C71 | OpSplit.cpp as rewriting of whole networks | any sequence of supported steps anywhere preserves the image; each step by C24-C28 |
| C72 | the pass list of Passes.cpp 34-57 restricted to the copy operators and, since C82, convolutions, pooling and 8-bit activations, SSA functions, greedy driver in any order | one-step simulation for every pattern (C12-C19), termination measure, normal forms (C72_normal_form_copies: exactly which slices, pads and broadcasts remain) |
| C73 | C72 composed with the planner (C01-C05) and the arena interpreter (C02) | composition of simulations: original function on private tensors = lowered function in the planned arena |
| C74 | OptimizeConv2D.cpp / TFLPatterns.td phases on whole networks | one-step soundness of every pattern (C29-C32) lifted to contexts, decreasing measure per phase, normal form |
| C75 | OpSplit.cpp 831-880 (labels) | induction over the walk and over the requests; closed form of the attributes |
| C76 | TFLPatterns.td 64-106, ReplaceAddSub.cpp, ReplaceMul.cpp, Util.h 44-67 on whole networks | `admits` relation (results up to one unit per operator); each pattern refines it, lifted through contexts; a measure for termination |
| C77 | TranslateToCustomOp.cpp 14-300, XCoreOps.td, ReplaceConcat.cpp 140-155 | independent reader of the option maps; round trip by cases, functions by induction |
| C78 | ReplaceTransposeConv.cpp 33-246, OptimizeConv2D.cpp 456-542, ReplaceConv2D.cpp 102-114, ConvPatterns.h 293-311 | chain of convolutions on one output memory, thread writes permuted arbitrarily; composition of C34, C11 and C33 by induction on the chain |
| C79 | ReplaceConv2D.cpp 99-146, ConvPatterns.h 293-311, ReplaceMaxPool2D.cpp 38-70 | operator left by the pass run on one output memory, thread writes permuted arbitrarily; composition of C57, C58, C62 with C09 |
| C80 | host_interpreter.py 51-150, 226-263, 522-579, dll_interpreter.cc 56-113 (HostLifeModel) | heap of engines and self.obj; induction over call histories with an invariant; counterexamples for misuse |
| C81 | MemoryPlan.cpp 311-317, 338-424 (ReportModel) | chart drawn on 60 characters with C++ ints; loop invariant per buffer, disjointness and bounds from C01, C04, C05 |
| C82 | FunOpsModel: ReplaceConv2D.cpp / ConvPatternsTFL.cpp (C36, C57, C62), ReplaceMaxPool2D.cpp (C58), lookup tables (C30-C33) as operators of the whole-function model, on tensors of bytes; the two constants lib_nn packs (weights; multipliers and biases) are operands of the kernel, read back through the contract `q_read`; ConvRunModel for the threads | bytes to images and back, accumulators of the kernels equal TFLite's (C36, C57, C58), writes of the threads (C78); the new patterns enter C72 and C73 |
| C83 | FunLoadModel: the passes LoadConstant and WriteWeights on the functions of FunModel, with the file and load operators of WeightsModel, and the planner's graph of the result | simulation: every operand of the new function holds the value of the operand it replaces; then C08 on the new graph |
| C84 | BetaModel: the patterns of the beta-float option and what their operators export | existence of one kernel for all operators without the lost attributes; refutations over all kernels; iffs: a kernel right for plain operators is right for another one exactly when it has no fused activation (and no bias, fully connected) |
| C85 | MelModel: mel.c, compress_mel.py, the shipped tables and masks of the audio example | loop invariants over paths of first rows, error bounds over Q, kernel computation for the shipped tables |
| C86 | LogModel: log.c, xcore instructions on words | integer statement by powers, one kernel computation with directed rounding over the 2^15 normalised words, lifted to all words; corollary in Reals |
| C87 | FunOpsModel: CFull, conv_of_full, replace_compute; FunModel: pattern PConv1x1 (on fc_conv_shape, fc_filter_shape, fc_squeezed of ConvGeomModel) | simulation of C72 extended by one pattern (reshape, 1x1 convolution, reshape); elements read back from the bytes |
| C88 | FunOptModel: fuse, expand, cancels, opt_step on FunModel (decisions from TransposeModel, PatternModel, ConvGeomModel); FunOptSpec: well-formedness before the passes | simulation as in C72 with producer-consumer patterns; termination by, lexicographically: fused activations, Relus, minimums beneath Relus, operands of other shapes, SAME convolutions, concatenation trees, inversions of pad chains (3^inversions), length; composition with C72, C73, C83 |
| C89 | DetailsModel: py_bytes (str of bytes), strip, details, set_model contents | number of backslashes grows iff a character is not plain; induction over inputs and outputs |
| C90 | AudioModel: the two threads at the granularity of words; AudioSpec: deadline, expected stream | invariant over schedules relating buffers, thread positions and the blocks handed over |
| C91 | AudioModel: slide, window, overlap, keep; AudioTables: the raised cosine | induction over frames; the four windows over a sample add up to 2^30 (kernel computation on the table) |
| C92 | AudioModel: mask_of, apply_masks; AudioTables: the four tables | kernel computation over rows and columns, composed with C85 |
| C93 | FunConvModel: the patterns of ReplaceFCWithConv2D and OptimizeConv2D (decisions and constants of ConvOptModel, C29-C31, C35, C47) applied anywhere in a FunModel function; FunConvSpec: sizes of constants, channel counts | simulation as in C88; termination by counting uneven channel counts and splittable channels; composition with C72, C82, C83, C88 up to the planned arena and the weights file |
| C94 | HypotModel: hypot_i and scale instruction by instruction on 32-bit registers, magnitudes of dsp_calculate_mels | invariants of the CORDIC rotation (norm up to sqrt 2 per step, first coordinate at most second/2^n + n), real numbers; composed with C85 and C86 |
| C95 | SplitGraphModel: OpSplit.cpp on functions in SSA form with labels, numbers of splits, uses, fake slices and means; every pattern of both groups, any schedule | any solution of the equations of the new function is its execution; each pattern keeps the equations; the verifier accepts each step under conditions on its bands (SplitGraphAccept*); refutations by computed schedules |
| C96 | the steps of SplitGraphModel (C95) | each value gets a rank: how many slice rewrites a slice of it, and how many fake-slice rewrites a fake slice of it, can still cause; the rank of an operation is computed from its operands', so it exists by the order of the function; every slice or fake-slice rewrite lowers the sum, erasing lowers the length, splitting lowers the number of operations to split and nothing raises it |
| C97 | ChanModel: data_path.c, dsp_usb.c, button.c as four threads that put and get single tokens on bounded channels | invariant: the tokens in a channel and those still to be sent have the kinds the other side still expects, in three cases (same exchange, audio thread ahead, transport thread ahead); progress by cases on who waits; a measure that every step but the end of a call and a button change lowers |
| C98 | ExampleModel: the copy loop of the two classification applications on the arena of MemExecSpec | the copy step by step (a byte is overwritten before it is read exactly when the input tensor starts inside the image); first fit in order of decreasing size puts a tensor at 0 or behind one at least as large; composed with C08 |
| C99 | ExampleModel: the search of the best classes and the two-class report | the three classes are the best output, the best of those before it and the best of those before that (induction from the end); iff for the second, refutation for winners at class 0 |
| C100 | RunnerModel: modelrunner.py, the inputs it makes, float32 dequantisation (Flocq FLT rounding), comparison and count of failures | relative error of one rounding is below half a step, so rounding is injective on multiples of the scale; threshold of overflow from the tie at the greatest float32; induction over outputs and runs |
| C101 | AcceptModel: the loop and the verdict of integration_tests/runner.py on numpy integers that wrap | the state after t turns is a function of the outputs of the first t runs (induction); cases of the wrapped difference by modular arithmetic; constant runs for the refutations |
| C102 | ArenasModel: events (init, store inputs, invoke) of several compiled models on one flat memory, outputs read through the locations, the macro LARGEST_TENSOR_ARENA_SIZE | frame lemma (stores stay inside the arena because of C08's offsets and sizes), translation by the base address, what a store leaves at an address is either the old byte or independent of it, then C08_chosen_plan_execution |
| C103 | RecurModel: nn_predict_masks as a program over the memory of ArenasModel, with the static state and the masks of AudioModel | induction over the calls with C102_outputs; the state has the right size after every call; unrolling over a prefix |
| C104 | StackSpec: a network compiled from a TFLite function, as C93 compiles it, placed in the memory of ArenasModel; a function with a state | C93's facts give `compiled` and `private_outputs` = evaluate; then C102_outputs; induction over the calls for the masks |
| C105 | FlashStackSpec: what a network finds in the programmed image (the header word of its engine), in the other tile's RAM, in external memory; flash server by contract | C39 gives that the weights file is a prefix of what is served; load operators read within the file, so their results are the same; then C104's composition |
| C106 | DspModel: data_path.c 127-133 as one function of the block, with the static buffers as state, from the models of the parts; DspSpec: the same as streams (windows by position, overlap-add as a sum); resamplers, FFTs, network by contract (arbitrary functions) | induction over the blocks fuses the per-block function into the streams; C90 gives the blocks for every schedule, C91 the gain, C92 the masks of one, C103 the network in shared memory |
| C107 | ServeModel: the device carries out the commands received (HostModel's packets) on the network's arena (ArenasModel); the runtime's server by contract; ServeSpec: the session as calls of the TFLite function (`ideal`) | invariant over the session: what was written and not yet consumed is in the arena (inputs are kept apart: C01, C06), what can be read is the last result; invocation by C102's lemma; packets and arrays by C40 |

Theorems named `*_exactly_when` (C07, C13-C15, C19, C26-C31, C33-C35, C38, C45, C47-C49, C51, C56, C57, C60-C63, C65, C69, C78, C80, C84, C85, C100, C101 and others) are equivalences: they say for which inputs
a rewrite fires (or, for C07, C35 and C51, for which inputs it is harmless; C07_happens says that it takes place), so that a pass that never fires would violate them.
The vocabulary of C13-C15 (which axes an operator changes) is `LowerWhenSpec.v`.

## 5. Assumed contracts (not in /repo, hence trusted as written)

* **MLIR**: a rewrite pattern replaces a matched operation by its result; use lists, dominance order of a block and `Liveness`
  are as documented; the greedy driver applies enabled patterns in an unspecified order.
* **TFLite operator semantics** (convolution windows, SAME padding from `GetWindowedOutputSizeVerbose`, quantisation
  `real = scale * (q - zero_point)`, fused activations as clamps): `ConvSpec.v`, `LutSpec.v`, `NdSpec.v`.
* **lib_nn / lib_tflite_micro kernels**: slice, pad, broadcast and concat as byte copies with the documented loop nest
  (`CopyKernels.v`); convolution kernels compute the exact accumulator over the window they are given, with padding supplied
  only by the "padded indirect" one (`ConvLowerModel.v`, marked "contract"); the lookup-table operator maps byte b to
  table[b]; the element-wise add is a rounding shift with saturation (`AddModel.v`); the 8-bit kernels saturate to the
  output type; lib_nn's reordering of a transposed-convolution kernel and its channel split of 1x1 images.
* **lib_nn softmax, 16-bit element-wise and quadratic-table functions**: `softmax_row` (`SoftmaxModel.v`), `blob_value` and the
  table generator (`Int16Model.v`).  The xcore convolution kernel reads only its operands' bytes and its attributes (C70).
* **lib_nn multiplication**: `mul_contract` (`BinarySpec.v`): with the parameters mul_boggle makes from the scales and zero points,
  the kernel is at most one unit away from the exact product.
* **flatbuffers / flexbuffers**: the builder only appends; vector headers as in the flexbuffers format (`OptionsModel.v`).
* **LLVM command line, C compiler**: option syntax and initialiser lists (`TextSpec.v`).
* **libusb / device**: packets are delivered in order, a short packet ends a transfer (`HostSpec.v`).

## 6. Results

Status of each property is in MANIFEST.json.  "partial" means that the statement of properties.jsonl, taken without side
conditions, is **false of the code**: the manifest then lists both the theorem with the exact side condition (often an iff) and
the counterexample theorem(s).

### Defects of the code found while modelling (each is a theorem `..refuted..` unless marked "reading")

* Memory planner: a chain of in-place operators, an 8-bit -> 16-bit in-place op, a shrinking chain, a function without
  tensors (C03, C07); tensors of bool / int4 elements get zero bytes and sizes wrap at 2^31 (C64).
* Threads: strided regions when the divided dimension is smaller than its stride, or even with a remainder above the sub-position (C11, an iff).
* Lowerings: pad of wide elements with a non-zero zero point (C14), negative axes in concat / mean, duplicate axes (C17, C18),
  strided slice with negative shrink axis or clamped end (C19), 3-to-4-channel pad with padding before (C49).
* OpSplit: empty bands, whole-output slices, thin bands with large filters, dilation, asymmetric padding, column operands,
  overlapping means (C24-C28, C45); the split analysis may loop, index out of bounds or suggest something worse (C46).
* Convolutions: channels lost when the count is not a multiple of 4, empty groups (C29), SAME transpose convolution with small
  kernel / odd output (C33), fully connected with leading dimensions (C35), SAME average pooling border (C48), int16 padding,
  large padding, depth multiplier (C57), lost Relu / Relu6 (C58), transpose-conv helper convolutions reverting to a plain
  convolution (C60), max pooling ignoring padding and activation (C62).
* TFLPatterns: two consecutive pads by nothing are swapped without end (C88).
* Quantisation: merging Relu/Quantize when the intermediate saturates (C51), lookup table for a tiny output scale (C36), add
  bias overflow or negative shift for extreme scale ratios (C44).
* Host side: flash addresses wrap beyond 2^32 (C39), an empty tensor desynchronises the USB protocol (C40), loose version
  format (C42), second dynamic dimension becomes 0 (C43), replacing a model has no effect and models share an engine (C56),
  wrong-size tensors reach memcpy (C55), parameters of 256 bytes or more are misaligned (C63), an empty option value swallows
  the model name (C65), `--verify-diagnostics` hides a failed pipeline (C66), external budget overrun by one constant (C23).
* Softmax: the exponential table overflows or underflows for large scales (>= about 0.35) although the real softmax is well
  defined; the output quantisation is only asserted, so a release build ignores it (C68).
* 16-bit operators: zero points are ignored; a 16-to-8-bit Quantize is turned into an invalid operator; the ELU pattern
  dereferences null for a function argument and uses the type of result 0 of the defining operator (C69).
* Convolution optimisation: the channelwise split builds VALID convolutions whatever the original padding, harmless only because
  SAME was made explicit before (C74); requests of the splitting pass that overlap lose a split (C75).
* Export: the sizes array of a concatenation of fewer than 13 tensors is exported with uninitialised elements, so the bytes of the
  compiled model are not a function of the input (C77).
* Model runner: scales near the end of float32 hide every difference, outputs with several scales always fail, `--bnn`,
  `--input` or a missing `--tc` end in an exception, all runs use the same input (C100).
* Acceptance test: differences wrap in the type of the outputs, so 8-bit outputs wrong by 255 count as wrong by 1 and those wrong by 128
  lower the average error; unsigned outputs fail for being one too high (C101).
* Reading only: a split size of 0 divides by zero, the number of channel groups is rounded down before being rounded up; slices that
  make padding explicit have batch 1; ReplaceStridedSlice tests `beginAttr` twice, a non-constant end is a null dereference; a
  fake slice of a function argument is a null dereference; castArrayRef returns a dangling ArrayRef; XC_Beta_ConcatF32 drops the axis; the beta float
  convolution/FC/transpose patterns drop padding, dilation, activation and bias; filters that are arith constants make
  getArgs dereference null; outputs are not replaced atomically; `--xcore-write-weights-as-array` without a weights file is
  silently ignored; `--mlir-io` with unparsable input dereferences a null module.

## 7. What is not modelled

TableGen-generated code itself (the .td patterns are modelled, their expansion is not), MLIR verifiers, diagnostics text,
the Bazel/CMake build, the integration tests (but the verdict of their runner, C101), the examples other than the mel filter bank and logarithms of audio_network, lib_tflmc's code generation, flatbuffer
serialisation of the model, timing.
