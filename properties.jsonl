{"id": "C01", "title": "Live tensors never share arena bytes (no in-place overlap)", "statement": "In the offline memory plan computed without in-place overlapping, two different non-constant tensors that are both live while some operator of the model executes occupy disjoint byte ranges of the tensor arena.", "quantifier": "every straight-line model graph (any number of arguments, operators, operands, results, any tensor sizes, any constants)", "why_tests_cant": "the collision depends on the relative order of sizes and lifetimes of all tensors; tests only see the graphs somebody thought of", "anchors": ["xformer/Analysis/MemoryPlan.cpp:MemoryPlan::build", "xformer/Analysis/MemoryPlan.cpp:MemoryPlan::getOffset", "xformer/Analysis/MemoryPlan.cpp:MemoryPlan::getAllocatedOffsets"]}
{"id": "C02", "title": "Running in the planned arena computes the same values", "statement": "Executing all operators of the model in program order inside one flat byte arena, with every tensor stored at its planned offset (plan without overlapping), makes every operator read exactly the operand bytes it would have read had every tensor had a private buffer.", "quantifier": "every straight-line graph, every operator semantics (arbitrary functions from operand bytes to result bytes), every input data", "why_tests_cant": "an execution-level statement over all operator functions and all data", "anchors": ["xformer/Analysis/MemoryPlan.cpp:MemoryPlan::getAllocatedOffsets", "xformer/XCoreOptMain.cpp:OfflineMemoryAllocation metadata"]}
{"id": "C03", "title": "The plan is complete and well formed", "statement": "The plan lists exactly one offset per tensor, in tensor-id order; constants get -1; every non-constant tensor gets an offset that is non-negative and a multiple of 8.", "quantifier": "every graph with at least one non-constant tensor, without overlapping; with overlapping: when no result is smaller than the input it is computed in and every overlappable result is used (the other cases are refuted)", "why_tests_cant": "must hold for every tensor of every graph", "anchors": ["xformer/Analysis/MemoryPlan.cpp:MemoryPlan::getAllocatedOffsets"]}
{"id": "C04", "title": "Reported peak memory is exact", "statement": "The reported peak arena size is at least offset+size of every non-constant tensor of the plan, and equals it for some tensor; the plan never needs more bytes than the peak.", "quantifier": "every graph without overlapping; with overlapping: when no result is smaller than the input it is computed in", "why_tests_cant": "the reported size is what users allocate: a single graph under-reported corrupts memory", "anchors": ["xformer/Analysis/MemoryPlan.cpp:MemoryPlan::getAllocatedOffsets", "xformer/Transforms/PlanMemory.cpp"]}
{"id": "C05", "title": "Greedy plan: first fit, bounded by total size, never below live memory", "statement": "Every tensor is placed at the lowest offset at which it does not collide with previously placed (larger) tensors live at the same time; the peak never exceeds the sum of the aligned tensor sizes, and is never below the total size of the tensors live at any one operator.", "quantifier": "every graph (first fit: every function input is used)", "why_tests_cant": "quantifies over all placements and all graphs", "anchors": ["xformer/Analysis/MemoryPlan.cpp:MemoryPlan::getOffset", "xformer/Analysis/MemoryPlan.cpp:MemoryPlan::getAllocatedOffsets", "xformer/Analysis/MemoryPlan.cpp:MemoryPlan::getOpWithMaxMemoryUsed"]}
{"id": "C06", "title": "In-place overlapping keeps unrelated tensors apart", "statement": "With in-place overlapping enabled, two tensors live at the same time that do not belong to the same overlapped chain still occupy disjoint arena bytes.", "quantifier": "every graph, with the exact side conditions the planner relies on stated", "why_tests_cant": "interaction of chain detection, adjusted lifetimes and greedy placement over arbitrary graphs", "anchors": ["xformer/Analysis/MemoryPlan.cpp:MemoryPlan::getAllocatedOffsets"]}
{"id": "C07", "title": "In-place overlapping is safe for a front-to-back kernel", "statement": "When an operator's input is overlapped with its output, a kernel that produces the output front to back while consuming the input front to back never overwrites input bytes that it has not consumed yet; and only data inputs (not tables/weights re-read throughout) are overlapped.", "quantifier": "every graph and every overlapped (input, output) pair", "why_tests_cant": "depends on alignment rounding of every pair of sizes and on which operand is chosen", "anchors": ["xformer/Analysis/MemoryPlan.cpp:MemoryPlan::getAllocatedOffsets", "xformer/IR/XCoreOps.td:MemoryOverlappable"]}
{"id": "C08", "title": "The chosen plan is never worse than the plain one", "statement": "The memory plan written in the output model has a peak not larger than the non-overlapped plan's peak, and the peak usage recorded in the module attribute is the non-overlapped plan's.", "quantifier": "every graph in which no result is smaller than the input it is computed in, and every option setting", "why_tests_cant": "relates two plans of every graph", "anchors": ["xformer/Transforms/PlanMemory.cpp:PlanMemory::runOnOperation"]}
{"id": "C09", "title": "Thread regions tile the output image", "statement": "The image regions handed to the worker threads of a convolution/pool cover every output pixel exactly once and never leave the image.", "quantifier": "every image height/width/depth >= 1 and every thread count >= 1", "why_tests_cant": "off-by-one at image/threads boundaries for unboundedly many shapes", "anchors": ["xformer/Utils/ThreadSupport.cpp:getImageRegionThreadSplits"]}
{"id": "C10", "title": "Thread split is balanced and bounded", "statement": "At most the requested number of threads is used, no region is empty, and region sizes along the split dimension differ by at most one.", "quantifier": "every image shape and thread count", "why_tests_cant": "all shapes", "anchors": ["xformer/Utils/ThreadSupport.cpp:getImageRegionThreadSplits"]}
{"id": "C11", "title": "Strided thread regions tile the strided output grid (transpose convolution)", "statement": "With output stride and sub-position (as used for transpose convolutions), the regions given to the threads together visit every output pixel of the sub-grid (sub + k*stride) exactly once and none outside the image.", "quantifier": "every shape, stride, sub-position and thread count", "why_tests_cant": "the odd-size correction is only right for some residues; all residues must be covered", "anchors": ["xformer/Utils/ThreadSupport.cpp:getImageRegionThreadSplits", "xformer/Transforms/ReplaceTransposeConv.cpp"]}
{"id": "C12", "title": "Axis merging preserves a slice", "statement": "Merging adjacent axes before lowering a slice leaves the selected elements and their order unchanged.", "quantifier": "every rank, shape, begin and size", "why_tests_cant": "all ranks and shapes", "anchors": ["xformer/Utils/Util.cpp:mergeAxes"]}
{"id": "C13", "title": "Slice lowering selects the right bytes", "statement": "The strided-copy parameters generated for a slice make the runtime copy produce exactly the bytes of the N-dimensional slice, in row-major order, without reading outside the input.", "quantifier": "every rank, shape, begin, size and element size for which the lowering fires", "why_tests_cant": "all shapes", "anchors": ["xformer/Transforms/ReplaceSlice.cpp:ReplaceSlicePattern"]}
{"id": "C14", "title": "Pad lowering produces the padded tensor", "statement": "The copy parameters generated for a pad make the runtime produce exactly the row-major bytes of the N-dimensional zero-point-padded tensor.", "quantifier": "every rank, shape and paddings for which the lowering fires; zero point 0 for elements wider than 8 bits", "why_tests_cant": "all shapes", "anchors": ["xformer/Transforms/ReplacePad.cpp:ReplacePadPattern"]}
{"id": "C15", "title": "Broadcast lowering replicates the right elements", "statement": "The (size, copies, broadcasts) parameters generated for a broadcast make the runtime produce the row-major bytes of the N-dimensional broadcast.", "quantifier": "every compatible pair of shapes for which the lowering fires", "why_tests_cant": "all shapes", "anchors": ["xformer/Transforms/ReplaceBroadcast.cpp:ReplaceBroadcastPattern"]}
{"id": "C16", "title": "Concat lowering interleaves inputs correctly", "statement": "The sizes/num_copies parameters generated for a concatenation make the runtime produce the row-major bytes of the concatenation along the given axis.", "quantifier": "every number of inputs up to the limit, every rank, axis and shapes", "why_tests_cant": "all shapes", "anchors": ["xformer/Transforms/ReplaceConcat.cpp:ReplaceConcatPattern"]}
{"id": "C17", "title": "Splitting a wide concat preserves the result", "statement": "Repeatedly concatenating the first 13 inputs terminates, leaves only concatenations of at most 13 inputs, and leaves the overall concatenated tensor unchanged.", "quantifier": "every number of inputs and every non-negative axis, and the axis -1 (other negative axes are refuted)", "why_tests_cant": "unbounded number of inputs", "anchors": ["xformer/Transforms/ReplaceConcat.cpp:SplitConcatPattern"]}
{"id": "C18", "title": "Mean/Sum lowering reduces exactly the requested axes", "statement": "When a mean or sum is lowered, the (outer, reduced, inner) dimensions describe a reduction over exactly the elements of the requested axes.", "quantifier": "every rank, shape and list of distinct axes inside the rank (duplicate and negative axes are refuted)", "why_tests_cant": "all axis lists", "anchors": ["xformer/Transforms/ReplaceMean.cpp", "xformer/Transforms/ReplaceSum.cpp"]}
{"id": "C19", "title": "Strided slice lowering agrees with numpy semantics", "statement": "A unit-stride strided_slice rewritten to slice (+reshape) selects the same elements as the original, including begin/end/shrink masks and negative indices.", "quantifier": "every rank, shape, begin, end, masks", "why_tests_cant": "all masks", "anchors": ["xformer/Transforms/ReplaceStridedSlice.cpp"]}
{"id": "C20", "title": "Transpose hoisting above pad preserves the result", "statement": "Moving the NHWC transpose above a pad (and permuting the paddings) and cancelling inverse transposes leaves the tensor unchanged.", "quantifier": "every shape and padding accepted, every permutation pair that composes to the identity", "why_tests_cant": "all shapes", "anchors": ["xformer/Transforms/OptimizeTranspose.cpp"]}
{"id": "C21", "title": "Weights written to the parameter file are read back exactly", "statement": "For every constant moved to the weights file, the (address, size) recorded in its load operator selects exactly that constant's bytes in the emitted parameters.", "quantifier": "every sequence of constants and users", "why_tests_cant": "all sequences of tensors", "anchors": ["xformer/Transforms/WriteWeights.cpp", "xformer/Utils/FileIO.cpp"]}
{"id": "C22", "title": "Weight ranges are packed and disjoint", "statement": "Ranges of distinct load operators in the parameter file do not overlap, cover the file without gaps, and external (DDR) constants are padded to a multiple of 32 bytes.", "quantifier": "every sequence of constants", "why_tests_cant": "all sequences", "anchors": ["xformer/Transforms/WriteWeights.cpp"]}
{"id": "C23", "title": "External weight selection respects threshold and budget", "statement": "A constant is loaded externally only if it is bigger than the threshold and before the configured total is exhausted; otherwise it stays in the model.", "quantifier": "every sequence of constants of less than 2 GB in all, and all option values", "why_tests_cant": "history-dependent decision", "anchors": ["xformer/Transforms/ApplyLoadConstantOpPatterns.cpp:shouldBeLoadedExternally"]}
{"id": "C24", "title": "Splitting an operator's height reassembles the original output", "statement": "Slicing an operator's output into the requested number of horizontal bands and concatenating them gives back the output: bands are consecutive, non-overlapping and cover the height.", "quantifier": "every height and split count with 1 <= splits <= height", "why_tests_cant": "all heights/splits", "anchors": ["xformer/Transforms/OpSplit.cpp:OpSplitPattern"]}
{"id": "C25", "title": "Replacing a slice by a slice of an existing slice preserves the result", "statement": "When a slice is contained in an existing slice of the same tensor, the replacement slice-of-slice selects the same elements.", "quantifier": "every 4-dimensional shape of batch 1 and every pair of slices", "why_tests_cant": "all pairs of slices", "anchors": ["xformer/Transforms/OpSplit.cpp:combineSliceWithExisting"]}
{"id": "C26", "title": "Raising a slice above a convolution preserves the output rows", "statement": "Slicing the convolution's input instead of its output, with the computed begin/size/padding, produces exactly the sliced rows of the original convolution.", "quantifier": "every input height, filter height, stride, padding kind and band", "why_tests_cant": "all geometries", "anchors": ["xformer/Transforms/OpSplit.cpp:RaiseSlicePattern"]}
{"id": "C27", "title": "Raising a slice above a pad preserves the output rows", "statement": "Slicing the pad's input instead of its output, with the computed begin/size/paddings, produces exactly the sliced rows of the padded tensor.", "quantifier": "every height, padding and band", "why_tests_cant": "all geometries", "anchors": ["xformer/Transforms/OpSplit.cpp:RaiseSlicePadPattern"]}
{"id": "C28", "title": "Raising a slice above an elementwise operator preserves the result", "statement": "Slicing both operands instead of the result of an elementwise binary operator gives the same tensor.", "quantifier": "every shape, band and elementwise function", "why_tests_cant": "all functions/shapes", "anchors": ["xformer/Transforms/OpSplit.cpp:RaiseSliceBinaryPattern"]}
{"id": "C29", "title": "Channelwise convolution split computes all output channels", "statement": "Splitting a convolution's filters into groups and concatenating the group outputs gives the original output; no output channel is lost or duplicated.", "quantifier": "every output channel count and split size", "why_tests_cant": "all channel counts", "anchors": ["xformer/Transforms/OptimizeConv2D.cpp:ChannelwiseSplitConv2DOutputPattern"]}
{"id": "C30", "title": "Padding input channels does not change a convolution", "statement": "Zero-point padding of the input channels together with zero padding of the filter depth leaves the convolution accumulators unchanged.", "quantifier": "every channel count, filter, input", "why_tests_cant": "all data", "anchors": ["xformer/Transforms/OptimizeConv2D.cpp:PadConv2DInputPattern"]}
{"id": "C31", "title": "Padding output channels and slicing gives the original convolution", "statement": "Padding filters and bias to a multiple of the alignment and slicing the result gives the original output channels.", "quantifier": "every channel count, filter, bias, input", "why_tests_cant": "all data", "anchors": ["xformer/Transforms/OptimizeConv2D.cpp:PadConv2DOutputPattern"]}
{"id": "C32", "title": "SAME convolution equals explicit pad plus VALID convolution", "statement": "The explicit paddings inserted in front of a SAME convolution make the VALID convolution compute the same output with the same output size.", "quantifier": "every input size, filter size, stride, dilation", "why_tests_cant": "all geometries", "anchors": ["xformer/Transforms/ApplyTFLPatterns.cpp:getConvPaddingValues", "xformer/Transforms/TFLPatterns.td"]}
{"id": "C33", "title": "SAME transpose convolution equals VALID transpose convolution cropped", "statement": "Computing the VALID transpose convolution and slicing at the computed position gives the SAME transpose convolution.", "quantifier": "every input size, kernel and stride", "why_tests_cant": "all geometries", "anchors": ["xformer/Transforms/OptimizeConv2D.cpp:SameToValidTransposeConvPattern"]}
{"id": "C34", "title": "Transpose convolution equals interleaved ordinary convolutions", "statement": "The stride x stride sub-convolutions generated for a VALID transpose convolution, each writing its own sub-grid, together compute the transpose convolution.", "quantifier": "every input, kernel, stride", "why_tests_cant": "all geometries and data", "anchors": ["xformer/Transforms/ReplaceTransposeConv.cpp"]}
{"id": "C35", "title": "Fully-connected equals 1x1 convolution", "statement": "Reshaping a fully-connected operator's operands to a 1x1 convolution computes the same output.", "quantifier": "every batch and depth", "why_tests_cant": "all shapes and data", "anchors": ["xformer/Transforms/ReplaceFCWithConv2D.cpp"]}
{"id": "C36", "title": "8-bit activation lookup table is the function", "statement": "The 256-entry table generated for an activation, indexed by the input byte as the kernel does, returns for every signed input the clamped quantised function value.", "quantifier": "all 256 inputs, every real activation function whose scaled results are below 2^31 - 256", "why_tests_cant": "every function", "anchors": ["xformer/Transforms/ApplyXCPatterns.cpp:getLookupTableI8"]}
{"id": "C37", "title": "Pad value word replicates the zero point", "statement": "For an 8-bit tensor all four bytes of the 32-bit pad value are the zero point, for negative zero points too; for other quantised types the value is the zero point itself, and 0 for types that are not quantised.", "quantifier": "all zero points", "why_tests_cant": "all values", "anchors": ["xformer/Transforms/ApplyXCPatterns.cpp:getPadValue"]}
{"id": "C38", "title": "Swapping channel and spatial pads preserves the result", "statement": "Exchanging a channel pad and a spatial pad with the same pad value gives the same tensor.", "quantifier": "every shape and padding", "why_tests_cant": "all shapes", "anchors": ["xformer/Transforms/TFLPatterns.td"]}
{"id": "C39", "title": "Flash image: every model and parameter blob is found at its address", "statement": "Following the header of the generated flash image for each engine yields exactly that engine's model and parameter bytes; regions do not overlap.", "quantifier": "every list of models and parameter blobs of less than 4 GB in all", "why_tests_cant": "all lists and sizes", "anchors": ["python/xmos_ai_tools/xformer/flash.py:FlashBuilder"]}
{"id": "C40", "title": "Host transfer protocol delivers exactly the data", "statement": "Data of any length sent in 512-byte blocks with the short/zero-length terminator is reassembled exactly by the receiver.", "quantifier": "every history of calls with non-empty data, incl. lengths that are multiples of 512", "why_tests_cant": "all lengths", "anchors": ["python/xmos_ai_tools/io_server/__init__.py"]}
{"id": "C41", "title": "Offline offsets metadata decodes to the plan", "statement": "The metadata buffer written in the flatbuffer (version, subgraph, count, offsets) decodes to the computed plan, tensor by tensor.", "quantifier": "every plan", "why_tests_cant": "all plans", "anchors": ["xformer/XCoreOptMain.cpp"]}
{"id": "C42", "title": "Compiler/runtime version compatibility decision", "statement": "The version check accepts exactly the runtime versions that are semver-compatible with the compiler.", "quantifier": "all version triples", "why_tests_cant": "all triples", "anchors": ["xformer/XCoreOptMain.cpp:isCompatibleVersion"]}
{"id": "C43", "title": "Dynamic batch removal", "statement": "Replacing a dynamic batch dimension by 1 changes only that dimension and leaves fully static shapes alone.", "quantifier": "every shape whose other dimensions are static and below 2^31", "why_tests_cant": "all shapes", "anchors": ["xformer/Transforms/RemoveDynamicShape.cpp"]}
{"id": "C44", "title": "Quantised add parameters approximate the real affine map", "statement": "The fixed-point multipliers, bias and shift generated for quantised add/sub represent the real affine map within the rounding error, and the multipliers fit their 16-bit fields.", "quantifier": "all zero points and all positive scales with a larger scale ratio between 1/1024 and 32", "why_tests_cant": "all reals", "anchors": ["xformer/Transforms/ReplaceAddSub.cpp"]}
{"id": "C45", "title": "Mean of the means of the bands", "statement": "When a mean is computed on horizontal bands and the band means are averaged, the result is the mean of the whole tensor (exact arithmetic).", "quantifier": "every tensor, every number and position of bands", "why_tests_cant": "all tensors and bands", "anchors": ["xformer/Transforms/OpSplit.cpp:RaiseFakeSliceToSliceMeanPattern"]}
{"id": "C46", "title": "The operation-split analysis ends with a suggestion no worse than not splitting", "statement": "For every model and every resulting memory usage, the analysis terminates without reading outside its tables, and the suggested bottom operator and number of splits need no more arena than the unsplit model.", "quantifier": "every usage function, every liveness table", "why_tests_cant": "unbounded search over arbitrary usages", "anchors": ["xformer/XCoreOptMain.cpp", "xformer/Analysis/MemoryPlan.cpp:getNextBottomOpId"]}
{"id": "C47", "title": "Padding a depthwise convolution's channels preserves its result", "statement": "Padding the input, filter, bias and quantisation parameters of a depthwise convolution to a multiple of 4 channels and slicing the result back gives the original result.", "quantifier": "every depth, filter, bias, input, per-channel or per-tensor quantisation", "why_tests_cant": "all depths and data", "anchors": ["xformer/Transforms/OptimizeConv2D.cpp:PadDepthwiseConv2DPattern"]}
{"id": "C48", "title": "Average pooling equals the generated depthwise convolution", "statement": "The depthwise convolution that replaces an average pooling operator computes the average of the window for every output position.", "quantifier": "every image, window, stride, padding and quantisation", "why_tests_cant": "all geometries and data", "anchors": ["xformer/Transforms/ReplaceAvgPoolWithConv2D.cpp"]}
{"id": "C49", "title": "Padding or concatenating 3 channels to 4 with the dedicated operator", "statement": "Replacing a channel pad, or a concatenation with a zero constant, that turns 3 channels into 4 by the dedicated pad operator gives the same tensor.", "quantifier": "every shape, padding attribute, zero point and tensor", "why_tests_cant": "all shapes and data", "anchors": ["xformer/Transforms/XCPatterns.td"]}
{"id": "C50", "title": "Taking a fused activation out of an element-wise operator preserves the result", "statement": "Computing a fused Relu or Relu6 of add/sub/mul as a separate 8-bit lookup gives the same stored value; dropping a minimum with 127 in front of a Relu changes nothing.", "quantifier": "every scale, zero point and result before saturation", "why_tests_cant": "all reals and integers", "anchors": ["xformer/Transforms/TFLPatterns.td", "xformer/Transforms/ApplyXCPatterns.cpp:getLookupTableI8"]}
{"id": "C51", "title": "Merging a Relu or a Quantize into the operator before it preserves the result", "statement": "The merged operator stores the same value as the two operators.", "quantifier": "every scale and zero point of the two results, every real value", "why_tests_cant": "all reals", "anchors": ["xformer/Transforms/TFLPatterns.td"]}
{"id": "C52", "title": "Quantize commutes with concatenation", "statement": "Quantising the inputs of a concatenation gives the same tensor as quantising its result.", "quantifier": "every number of inputs, axis, shape, data", "why_tests_cant": "all shapes and data", "anchors": ["xformer/Transforms/ApplyTFLPatterns.cpp:HoistQuantizeAboveConcatPattern"]}
{"id": "C53", "title": "Explicit broadcasts of binary operands preserve the result", "statement": "After the insertion of broadcasts both operands have the shape of the result and the operator computes the same tensor.", "quantifier": "every pair of broadcastable shapes, every element function, all data", "why_tests_cant": "all shapes and data", "anchors": ["xformer/Transforms/TFLPatterns.td", "xformer/Utils/Util.cpp:hasSameShape"]}
{"id": "C54", "title": "Pads and slices removed as no-ops return their input", "statement": "A pad or slice that the compiler drops because input and output shapes agree is the identity.", "quantifier": "every shape, padding, begin", "why_tests_cant": "all shapes", "anchors": ["xformer/IR/XCoreOps.cpp:PadOp::fold", "xformer/Utils/Util.cpp:checkSliceNoOp"]}
{"id": "C55", "title": "Host interpreter runs the network on the inputs last set", "statement": "After set_model on a new TFLMHostInterpreter, any sequence of set_tensor, invoke, get_tensor and get_input_tensor with tensors of the right size returns the current inputs and the outputs of the last invoke on them, never anything else.", "quantifier": "every model with supported types, every history of calls with values of the right size", "why_tests_cant": "all histories of calls", "anchors": ["python/xmos_ai_tools/xinterpreters/host_interpreter.py:TFLMHostInterpreter", "python/xmos_ai_tools/xinterpreters/src/dll_interpreter.cc"]}
{"id": "C56", "title": "Host interpreter with several models or a replaced model", "statement": "set_model makes the given model the one that runs for that index, also when the index already had a model, and models of different indices do not disturb each other.", "quantifier": "every sequence of set_model calls", "why_tests_cant": "all histories of calls", "anchors": ["python/xmos_ai_tools/xinterpreters/host_interpreter.py:set_model"]}
{"id": "C57", "title": "The kernels chosen for a convolution compute its accumulators", "statement": "For every 2-D or depthwise convolution that is lowered, the selected xcore kernel with the generated arguments accumulates, for every output position and channel, bias plus the sum of weight times (input minus zero point) over the window, with positions outside the image contributing nothing; the scratch buffer has room for every thread.", "quantifier": "every image, filter, stride, dilation, padding, bias, zero point, depth and output position", "why_tests_cant": "all geometries and data", "anchors": ["xformer/Transforms/ConvPatternsTFL.cpp", "xformer/Transforms/ConvPatterns.td", "xformer/Transforms/ReplaceConv2D.cpp"]}
{"id": "C58", "title": "Lowering a convolution preserves its fused activation", "statement": "The stored results of a convolution with a fused activation are the same after lowering to an xcore kernel.", "quantifier": "every activation, zero point, result type and unclamped result", "why_tests_cant": "all values and quantisations", "anchors": ["xformer/Transforms/ReplaceConv2D.cpp", "xformer/Transforms/ConvPatterns.td", "xformer/Transforms/ConvRevertPatterns.td"]}
{"id": "C59", "title": "Clamping convolution multipliers", "statement": "Clamping with a multiplier factor changes only the channels whose multiplier exceeds factor times the smallest one, sets these to exactly that bound, and the multiplier of a channel is input scale * filter scale / output scale.", "quantifier": "every non-empty list of positive multipliers and every factor", "why_tests_cant": "all reals and channel counts", "anchors": ["xformer/Transforms/ConvPatternsTFL.cpp"]}
{"id": "C60", "title": "A convolution is lowered as a whole or left unchanged", "statement": "After the convolution pass every convolution is either unchanged or one xcore kernel for the same convolution whose quantisation error is at most the configured threshold; no intermediate operator is left.", "quantifier": "every convolution, every threshold and quantisation error", "why_tests_cant": "all convolutions and thresholds", "anchors": ["xformer/Transforms/ReplaceConv2D.cpp", "xformer/Transforms/ConvPatterns.h", "xformer/Transforms/ConvRevertPatterns.td"]}
{"id": "C61", "title": "Binary convolutions", "statement": "A lowered binarised convolution with int8 result computes multiplier * (channels*window - 2*popcount(xor)) + bias per output channel, with the kernel that fits its geometry; SAME padding with zeros is not lowered.", "quantifier": "every geometry, bit pattern and post-activation parameter", "why_tests_cant": "all geometries and data", "anchors": ["xformer/Transforms/ConvPatternsLCE.cpp"]}
{"id": "C62", "title": "Lowered max pooling", "statement": "A max pooling operator lowered to the xcore kernel returns for every output position the maximum over the window positions inside the image.", "quantifier": "every image, window, stride and padding", "why_tests_cant": "all geometries and data", "anchors": ["xformer/Transforms/ReplaceMaxPool2D.cpp"]}
{"id": "C63", "title": "Operator parameters are aligned and readable in the custom options", "statement": "In the serialised options of convolution and pooling operators every parameter of every thread starts at a multiple of four bytes (the runtime accesses it in place) and is read back verbatim.", "quantifier": "every number of threads, every parameter content and length", "why_tests_cant": "all lengths and thread counts", "anchors": ["xformer/Transforms/TranslateToCustomOp.cpp:Conv2DV2Op::buildCustomOptions", "xformer/Transforms/TranslateToCustomOp.cpp:MaxPool2DOp::buildCustomOptions"]}
{"id": "C64", "title": "Tensor sizes used by the memory planner are the bytes of the tensor", "statement": "The size computed for a tensor type is the number of bytes the tensor occupies (a dynamic dimension counting as one).", "quantifier": "every element type of whole bytes and every shape, sizes below 2^31 bytes", "why_tests_cant": "all shapes and types", "anchors": ["xformer/Utils/Util.cpp:getTypeSize", "xformer/Utils/Util.cpp:getShapedTypeSize"]}
{"id": "C65", "title": "convert() passes every parameter and reports the arena size of the last successful compilation", "statement": "The command line built by convert() makes xcore-opt see exactly the given parameters, output file and model; after any history of calls tensor_arena_size() is the size printed by the last call that did not raise.", "quantifier": "every parameter dictionary, every compiler output, every history of calls", "why_tests_cant": "all texts and histories", "anchors": ["python/xmos_ai_tools/xformer/__init__.py:convert", "python/xmos_ai_tools/xformer/__init__.py:tensor_arena_size"]}
{"id": "C66", "title": "A run of xcore-opt accepts exactly the documented options and replaces its outputs in order", "statement": "Invalid option combinations are rejected before anything is read or written; exit code 0 means model, source and header were all written from the same flatbuffer; any failure leaves a prefix of the writes; the thread count recorded in the model is enough for every operator and at most five.", "quantifier": "every option combination, every failing step (crash point), every image size", "why_tests_cant": "all failure points and options", "anchors": ["xformer/XCoreOptMain.cpp:main", "xformer/Utils/ThreadSupport.cpp:getImageRegionThreadSplits"]}
{"id": "C67", "title": "The weights written as C source are the weights", "statement": "The initialiser of the generated array is exactly the bytes of the weights in order (after the tile server header in tile memory) and WEIGHTS_SIZE is their number.", "quantifier": "every list of tensors of less than 2^31 bytes in all", "why_tests_cant": "all weights", "anchors": ["xformer/Utils/FileIO.cpp:writeWeightsToFile", "xformer/Utils/TileRamSupport.cpp"]}
{"id": "C68", "title": "A lowered softmax stores the softmax of every row", "statement": "An 8-bit softmax with beta 1 that is lowered stores, for every row of the last dimension, the softmax of the real numbers of the row rounded to a multiple of 1/256, independently of the input's zero point and preserving the order of the classes; other softmaxes are left alone.", "quantifier": "every input scale, zero point, number of rows and row contents", "why_tests_cant": "all rows and quantisations", "anchors": ["xformer/Transforms/ApplyXCPatterns.cpp:getExpLookupF32", "xformer/Transforms/XCPatterns.td"]}
{"id": "C69", "title": "Lowered 16-bit element-wise operators and activations compute the quantised operator", "statement": "A 16-bit quantize, requantize, dequantize, add, subtract or multiply that is lowered computes the operator on the real numbers the stored values stand for; a lowered 16-bit activation (and ELU of a dequantised tensor) is within the configured error of the function.", "quantifier": "every scale, zero point, stored value, function and error threshold", "why_tests_cant": "all quantisations and values", "anchors": ["xformer/Transforms/ApplyXCPatterns.cpp:getBinaryI16Blob", "xformer/Transforms/ApplyXCPatterns.cpp:getLookupTableI16", "xformer/Transforms/XCPatterns.td"]}
{"id": "C70", "title": "Fusing reshapes with convolutions preserves the result", "statement": "Removing a reshape before or after a lowered convolution, anywhere and in any order, keeps the shape and elements of every result; the fusion ends and leaves no reshape next to a convolution.", "quantifier": "every expression and every order of pattern applications", "why_tests_cant": "all graphs and rewrite orders", "anchors": ["xformer/Transforms/XCPatterns.td"]}
{"id": "C71", "title": "Operation splitting keeps the network's results", "statement": "Cutting a result into bands of rows, computing every band separately by raising its slice through convolutions, pads and element-wise operators and sharing overlapping slices, anywhere in the network, any number of times and in any order, keeps the shape of the network's result and every one of its values.", "quantifier": "every network of convolutions, pads, adds and multiplications, every number of bands, every order of rewriting", "why_tests_cant": "all networks, sizes and rewrite orders", "anchors": ["xformer/Transforms/OpSplit.cpp"]}
{"id": "C72", "title": "Lowering a whole function keeps its results and terminates", "statement": "Applying the slice, pad, broadcast, concatenation, mean/sum, strided-slice, convolution, depthwise-convolution, maximum-pooling and activation-table patterns anywhere in a function, in any order, with forwarding of no-op operators and removal of dead ones, gives a function that computes from every input exactly the same output bytes, never reading outside an operand; the process ends, and what remains contains no strided slice, no concatenation that could be lowered, no reduction of contiguous axes, no 8-bit activation and no convolution or pooling the compiler supports.", "quantifier": "every verified function, every order of pattern applications, every input", "why_tests_cant": "all functions, rewrite orders and inputs", "anchors": ["xformer/Transforms/Passes.cpp:buildXCoreRemainingPassPipeline", "xformer/Transforms/ReplaceSlice.cpp", "xformer/Transforms/ReplacePad.cpp", "xformer/Transforms/ReplaceBroadcast.cpp", "xformer/Transforms/ReplaceConcat.cpp", "xformer/Transforms/ReplaceStridedSlice.cpp", "xformer/Transforms/ReplaceMean.cpp"]}
{"id": "C73", "title": "The compiled function executed in the planned arena returns the original results", "statement": "For every verified function, every way of lowering it and the memory plan computed for the result, executing the lowered operators in one arena with the planned offsets, whatever the arena contained before, returns the bytes the original function computes with separate tensors.", "quantifier": "every verified function, lowering, input and initial arena contents", "why_tests_cant": "all functions, plans, inputs and memory contents", "anchors": ["xformer/Transforms/Passes.cpp:buildXCoreRemainingPassPipeline", "xformer/Transforms/PlanMemory.cpp", "xformer/Analysis/MemoryPlan.cpp:getAllocatedOffsets"]}
{"id": "C74", "title": "Optimising the convolutions of a whole network keeps its results and terminates", "statement": "Making SAME padding explicit and then padding channels, splitting large filters and padding again, anywhere in a network and in any order within each phase, keeps the size and every value of the network's result; every phase ends; afterwards the channels of every quantised convolution are multiples of 4 (16 between 16-bit tensors), and a split convolution is never split again.", "quantifier": "every network of convolutions, depthwise convolutions and other operators, every split size, every order of rewriting", "why_tests_cant": "all networks, sizes, constants and rewrite orders", "anchors": ["xformer/Transforms/OptimizeConv2D.cpp:runOnOperation", "xformer/Transforms/TFLPatterns.td", "xformer/Transforms/Passes.cpp:buildXCoreRemainingPassPipeline"]}
{"id": "C75", "title": "The operation-splitting options select exactly the requested operations", "statement": "With equally long lists of bottom operations, top operations and numbers of bands (lists of different lengths are refused), operations are numbered in program order without constants and terminators; exactly the bottom operations are marked for splitting, exactly those from the top up to the one above the bottom are marked for raising, and when no operation belongs to two requests every bottom is split into exactly the requested number of bands and nothing else is split.", "quantifier": "every function, every list of requests", "why_tests_cant": "all functions and option lists", "anchors": ["xformer/Transforms/OpSplit.cpp:runOnOperation", "xformer/Transforms/OpSplit.cpp:OpSplitPattern"]}
{"id": "C76", "title": "Networks of quantised element-wise operators compile to ones with the same results", "statement": "For every network of 8-bit Add, Sub and Mul operators (with any fused activation and any broadcastable operand shapes) and other operators, whatever order the patterns are applied in, compiling it ends, keeps the type of every result, leaves no 8-bit Add, Sub or Mul, and every result of the compiled network on 8-bit inputs is a result of the original network in which each Add, Sub and Mul is at most one unit away from the exactly computed, rounded and saturated value before its activation.", "quantifier": "every network, every input, every order of pattern application", "why_tests_cant": "networks, inputs, scales and rewriting orders are unbounded", "anchors": ["xformer/Transforms/TFLPatterns.td", "xformer/Transforms/ReplaceAddSub.cpp", "xformer/Transforms/ReplaceMul.cpp", "xformer/Utils/Util.h:checkBinaryCompatibility"]}
{"id": "C77", "title": "Exported custom operators carry every attribute", "statement": "Every xcore operator that is exported to the TFLite model is determined by its custom code and its option map: a reader that looks up each documented key once gets back the kind of operator and all its attributes; exporting a function keeps the operands, results and place of every operation and leaves TFLite operations untouched.", "quantifier": "every operator with legal attributes, every function", "why_tests_cant": "attribute values and functions are unbounded", "anchors": ["xformer/Transforms/TranslateToCustomOp.cpp:buildCustomOptions", "xformer/Transforms/TranslateToCustomOp.cpp:RewriteToCustomOp", "xformer/IR/XCoreOps.td", "xformer/Transforms/ReplaceConcat.cpp:ReplaceConcatPattern"]}
{"id": "C78", "title": "Running a lowered transpose convolution computes the transpose convolution", "statement": "When a constant-weight quantised transpose convolution is replaced by a padding and a chain of convolutions that write one output tensor, every run of the chain, on any number of threads interleaved in any order and from any previous memory contents, leaves in the output tensor exactly the values of the transpose convolution (VALID, or SAME followed by the slice) and changes nothing outside the tensor.", "quantifier": "every transpose convolution, weights, input, thread count, interleaving and initial memory", "why_tests_cant": "all shapes, inputs, thread interleavings and memory contents", "anchors": ["xformer/Transforms/ReplaceTransposeConv.cpp:ReplaceTransposeConvPattern", "xformer/Transforms/OptimizeConv2D.cpp:SameToValidTransposeConvPattern", "xformer/Transforms/ReplaceConv2D.cpp:matchAndRewrite", "xformer/Utils/ThreadSupport.cpp:getImageRegionThreadSplits"]}
{"id": "C79", "title": "Running a lowered convolution computes the convolution", "statement": "Whatever the pass does with an int8 Conv2D or depthwise Conv2D (lower it, with or without a separate Relu, or leave it), every run of the result on any number of threads interleaved in any order, from any previous memory contents, leaves in the output tensor exactly the values TFLite's operator computes from the same accumulators and requantisation, and changes nothing outside the tensor; the same for maximum pooling.", "quantifier": "every convolution, filter, input, quality estimate, thread count, interleaving and initial memory", "why_tests_cant": "all shapes, inputs, thread interleavings and memory contents", "anchors": ["xformer/Transforms/ReplaceConv2D.cpp:matchAndRewrite", "xformer/Transforms/ReplaceConv2D.cpp:runOnOperation", "xformer/Transforms/ConvPatterns.h:getAbstractKernelParamsForMultipleThreads", "xformer/Transforms/ReplaceMaxPool2D.cpp:matchAndRewrite", "xformer/Utils/ThreadSupport.cpp:getImageRegionThreadSplits"]}
{"id": "C80", "title": "The host interpreter never touches a deleted engine and leaves none behind", "statement": "For every sequence of calls on a TFLMHostInterpreter (set_model, reading or running the model, close, leaving a with statement), no engine is used after it was deleted or deleted twice; the engines left are the ones created less the ones deleted, so one set_model and one close leave none; exceptions are raised exactly when no model was given or none was ever set.", "quantifier": "every sequence of calls, any number of models and closes", "why_tests_cant": "all call histories", "anchors": ["python/xmos_ai_tools/xinterpreters/host_interpreter.py:initialise_interpreter", "python/xmos_ai_tools/xinterpreters/host_interpreter.py:set_model", "python/xmos_ai_tools/xinterpreters/host_interpreter.py:close", "xinterpreters/src/dll_interpreter.cc:new_interpreter", "xinterpreters/src/dll_interpreter.cc:initialize", "xinterpreters/src/dll_interpreter.cc:delete_interpreter"]}
{"id": "C81", "title": "The memory plan report is faithful to the plan", "statement": "The chart printed with memory analysis enabled has, for every operation during which memory is needed, one line; each of its 60 columns shows the tensor needed by that operation whose planned bytes reach the end of that column, or a dot if there is none, never a clash; the two sizes are the bytes needed by the operation and the highest planned end, in kilobytes rounded up; printing never reads or writes outside the line or the operation list.", "quantifier": "every function, plan without overlapping, operation and column", "why_tests_cant": "all graphs and plans", "anchors": ["xformer/Analysis/MemoryPlan.cpp:printMemoryPlan", "xformer/Analysis/MemoryPlan.cpp:getOrdinalCharacter", "xformer/XCoreOptMain.cpp:runPassPipeline"]}
{"id": "C82", "title": "Threaded kernels compute the operators they replace", "statement": "The operator put in place of a convolution, a depthwise convolution or a maximum pooling of a function, run on any number of threads with any interleaving of their writes and whatever lies in memory beyond the input tensor, always terminates, leaves in the output tensor exactly the bytes the original operator computes from the same input bytes, and writes nothing else.", "quantifier": "every verified operator, input, number of threads, channel split, schedule and memory content", "why_tests_cant": "all operators, inputs, schedules and memory contents", "anchors": ["xformer/Transforms/ReplaceConv2D.cpp", "xformer/Transforms/ConvPatternsTFL.cpp", "xformer/Transforms/ReplaceMaxPool2D.cpp", "xformer/Utils/ThreadSupport.cpp:getImageRegionThreadSplits"]}
{"id": "C83", "title": "Moving constants to the weights file changes no result", "statement": "A function whose large constants were written to the weights file and replaced by load operators, executed in the planned memory arena with that file and with any bytes initially in the arena, returns exactly the bytes the original TFLite function returns, whichever constants were moved, in whichever order they were visited, packed for flash or for external memory; the memory plan exists.", "quantifier": "every verified function, sequence of lowering steps, choice of constants, visiting order, input and initial arena contents", "why_tests_cant": "all functions, choices, orders, inputs and memory contents", "anchors": ["xformer/Transforms/WriteWeights.cpp", "xformer/Transforms/LoadConstantOpPatterns.td", "xformer/Transforms/Passes.cpp", "xformer/Analysis/MemoryPlan.cpp"]}
{"id": "C84", "title": "Float operators lowered with the beta-float option keep their results", "statement": "With the beta-float option, a float convolution, transpose convolution, fully connected, activation or concatenation that is replaced by a beta operator is replaced by one that determines the original result: one runtime kernel per operator can compute it from the operands and types the exported operator carries; without the option, and for quantised operators, nothing changes.", "quantifier": "every operator, weights, input and output position", "why_tests_cant": "all operators and inputs; that no kernel can recover a lost attribute is a statement about all kernels", "anchors": ["xformer/Transforms/ConvPatterns.td", "xformer/Transforms/XCPatterns.td", "xformer/Transforms/ApplyXCPatterns.cpp:getActivationType", "xformer/Transforms/TranslateToCustomOp.cpp", "xformer/Transforms/ReplaceConcat.cpp:isConcatConvertible"]}
{"id": "C85", "title": "The compressed mel filter bank computes the matrix product", "statement": "With the tables that compress_mel.py generates for a filter bank as described in mel.h, mel_compress never leaves its arrays or overflows, writes in every mel bin the product of the filter bank and the spectrum up to 1 for each column reaching the bin and the rounding of the coefficients, and keeps the sum of the spectrum exactly; mel_expand gives the product by the transpose with the same accuracy, always between the two mel values it mixes, so a constant mask stays constant and a mask of one leaves the audio as it is. The shipped tables are those of the shipped filter bank.", "quantifier": "every filter bank of any size, every spectrum and mask, whatever is in the output array before", "why_tests_cant": "all filter banks, spectra and masks", "anchors": ["examples/audio_network/src/mel.c:mel_compress", "examples/audio_network/src/mel.c:mel_expand", "examples/audio_network/src/compress_mel.py:compress_mel", "examples/audio_network/src/mel_parameters.h", "examples/audio_network/src/dsp.c:dsp_apply_masks"]}
{"id": "C86", "title": "The fixed-point logarithms are accurate for every word", "statement": "For every non-zero 32-bit (64-bit) x, log2_16 (log2_16_64) returns v with v - 1 <= 1024 log2 x < v + 2, log2_8 returns v with v <= 8 log2 x < v + 2, both exact on powers of two; log2_8 is monotone and log2_16 never falls by more than 2 when x grows; log2_8_64 is accurate in the same way.", "quantifier": "every word and double word", "why_tests_cant": "all 2^64 arguments", "anchors": ["examples/audio_network/src/log.c:log2_8", "examples/audio_network/src/log.c:log2_16", "examples/audio_network/src/log.c:log2_8_64", "examples/audio_network/src/log.c:log2_16_64"]}
{"id": "C87", "title": "Fully connected layers in a compiled function", "statement": "A function whose layers include quantised fully connected operators (input of rank two or more whose dimensions before the last two are 1) is compiled so that no fully connected operator is left, and every element of a layer still is the row of the input times the row of the filter plus the bias, requantised and clamped by its activation, for 8-bit and 16-bit values, any number of rows and any order of the passes.", "quantifier": "every fully connected operator, weights, quantisation, input bytes and sequence of pattern applications", "why_tests_cant": "all layers, inputs and pass orders", "anchors": ["xformer/Transforms/ReplaceFCWithConv2D.cpp", "xformer/Transforms/ReplaceConv2D.cpp", "xformer/Transforms/Passes.cpp:buildXCoreRemainingPassPipeline"]}
{"id": "C88", "title": "The optimising passes keep the results of whole functions, and compilation is correct from end to end", "statement": "OptimizeTranspose, the patterns of TFLPatterns that do not change results (SAME convolutions, pads, quantised concatenations, fused activations and broadcast operands of Add, Sub and Mul, Relu after a minimum with 127 or after a convolution quantised alike) and the combination of reshapes, applied to operations anywhere in a function in any order, any number of times, keep the function well formed and its results byte for byte; they stop; at the end no SAME convolution, no cancelling pair of transposes, no hoistable transpose, no quantised concatenation followed by a quantisation, no fused activation and no operand of another shape in an Add, Sub or Mul is left, so that the lowering accepts the function; and the lowered function, executed in the planned arena with its weights file, returns the bytes of the TFLite function the compiler was given.", "quantifier": "every well-formed function, sequence of pattern applications, input and initial memory contents", "why_tests_cant": "all functions, orders of pattern application and inputs; termination is about all executions", "anchors": ["xformer/Transforms/OptimizeTranspose.cpp", "xformer/Transforms/ApplyTFLPatterns.cpp", "xformer/Transforms/TFLPatterns.td", "xformer/Transforms/Passes.cpp:buildXCoreRemainingPassPipeline"]}
{"id": "C89", "title": "What the host interpreter reports about a model", "statement": "get_input_details and get_output_details describe each input and output of the model, in order, with its name, index, shape, type and quantisation; the list of operators names the custom operators as the model does; and the model interpreted is the one given: the bytes passed, or else the contents of the file.", "quantifier": "every list of tensors with any names, types, shapes and quantisation tables, every operator name, every combination of paths and contents", "why_tests_cant": "Names pass through the textual form of Python bytes, whose escapes and quotes depend on every character, and an unsupported type of one output is reported differently depending on the outputs before it: a test has a few names and one or two tensors.", "anchors": ["python/xmos_ai_tools/xinterpreters/host_interpreter.py: get_input_details, get_output_details, modelToOpList, set_model, pathToContent"]}
{"id": "C90", "title": "The audio example passes the stream on, block by block, whatever the threads do", "statement": "Whatever the interleaving of the transport thread and the signal processing thread, word by word, as long as a block has been processed when the next one is handed over: the frames sent back are, after two blocks of latency, the processed blocks of the samples received, each sample once and in order.", "quantifier": "every block size, every processing function, every sequence of samples and button presses, every interleaving that meets the deadline", "why_tests_cant": "The threads share two buffers without locks and synchronise with one token: a test sees one interleaving per run.", "anchors": ["examples/audio_network/src/data_path.c: nn_data_transport_thread, data_to_and_from_nn, nn_dsp_thread"]}
{"id": "C91", "title": "Windowing and overlap-add reconstruct the signal", "statement": "The analysis sees every window of the signal and the synthesis adds up all the frames that cover a sample; with unchanged spectra the output is the input, 384 samples later, with gain one up to the rounding.", "quantifier": "every signal in range, of any length, every sequence of frames, every error bound of the transforms", "why_tests_cant": "The state of the overlap buffers carries over from call to call and int additions wrap: a test with a sine wave checks a few blocks of one signal.", "anchors": ["examples/audio_network/src/dsp.c: dsp_time_to_freq, dsp_freq_to_time", "examples/audio_network/src/raised_cosine.h: raised_cosine_512"]}
{"id": "C92", "title": "The buttons select how much noise is removed", "statement": "For every button state and every output of the network between 0 and 1 the masks are the entries of the selected table in units of 1/256; a higher output never attenuates more; the pass-through setting leaves the spectrum as it is.", "quantifier": "every button state, every output of the network between 0 and 1, every spectrum", "why_tests_cant": "The shift that scales the tables overflows for some of the entries of two of the four tables only, which needs the highest outputs of the network.", "anchors": ["examples/audio_network/src/support.cpp: nn_predict_masks, output_lookup, button_lookup", "examples/audio_network/src/dsp.c: dsp_apply_masks"]}
{"id": "C93", "title": "Padding and splitting convolutions, and replacing fully connected layers, keep the results of whole functions", "statement": "Replacing fully connected layers by convolutions, padding the channels of convolutions and splitting convolutions by output channels, applied to operations anywhere in a function, in any order, keep the function well formed and its results byte for byte; each of them stops; at the end no fully connected layer is left, every channel count is one the kernels take, every filter is smaller than twice the split size, and after lowering only 8-bit convolutions whose quantisation error estimates exceed the threshold are left to TFLite. The whole compilation, including these passes, returns the bytes of the TFLite function.", "quantifier": "every well-formed function, split size, sequence of pattern applications, input and initial memory contents", "why_tests_cant": "all functions, sizes and orders of pattern application; the groups of a split depend on the filter size and the number of channels together", "anchors": ["xformer/Transforms/OptimizeConv2D.cpp", "xformer/Transforms/ReplaceFCWithConv2D.cpp", "xformer/Transforms/Passes.cpp:buildXCoreRemainingPassPipeline", "xformer/XCoreOptMain.cpp"]}
{"id": "C94", "title": "The magnitudes and levels of the spectrum are accurate", "statement": "hypot_i(x, y) is within -104 and +81 of the length of the vector (x, y), for every pair of ints for which that length fits an int, whatever the registers hold; the mel levels computed from a spectrum are the logarithms of the filter bank applied to the true magnitudes, up to stated errors; scale divides 64 bits by 32.", "quantifier": "every pair of ints, every spectrum of 512 ints, every contents of the other registers", "why_tests_cant": "Nineteen rotations with truncations each: the worst cases are a few of the 2^64 pairs, and overflow shows only for the loudest spectra.", "anchors": ["examples/audio_network/src/hypot.S: hypot_i, scale", "examples/audio_network/src/dsp.c: dsp_calculate_mels"]}
{"id": "C95", "title": "Operation splitting keeps the results of whole functions, in any order of the patterns", "statement": "Splitting operations into bands and raising the slices through convolutions, pads, additions, multiplications, means and per-pixel operations, in any order and anywhere in a function, keeps the results and their types, as long as every function on the way passes the verifier, pads are balanced, operands are broadcast along the height or not at all, and a fake slice rises above a mean only when its bands cover the tensor. When the bands do not contain one another the pass ends with no labelled operation on a whole tensor; a broadcast operand may be on either side and come from anywhere; the order of the patterns does not matter.", "quantifier": "every function with labels, every choice of the operation visited next and of the slice combined with, every image", "why_tests_cant": "the patterns apply to each other's results in an order chosen by a worklist, and depend on labels, on counts of uses and on the position of operations in the block", "anchors": ["xformer/Transforms/OpSplit.cpp: OpSplitPattern, isRaisableSlice, combineSliceWithExisting, RaiseSlicePattern, RaiseSlicePadPattern, RaiseSliceBinaryPattern, RaiseFakeSlicePattern, RaiseFakeSliceConstPattern, RaiseFakeSliceToSliceMeanPattern, OpSplit::runOnOperation"]}
{"id": "C96", "title": "Operation splitting ends, whatever the order", "statement": "The driver of the operation-splitting pass cannot go on for ever: starting from a function that the verifier accepts there is no infinite sequence of accepted rewrites (splitting an operation, moving a slice above its producer or folding it into an existing slice, moving or dissolving a fake slice, erasing an unused operation), whichever operation and pattern is tried next; and for each function there is a number that bounds how many slices and fake slices can be rewritten in any continuation.", "quantifier": "all functions in SSA form that the verifier accepts, over any element type, any number of labelled operations with several uses; all infinite schedules of both groups of patterns", "why_tests_cant": "A test sees one schedule of one function; a pattern that recreates what another one matches loops only for particular graphs and orders (the driver then stops at its iteration limit with a half-rewritten function).", "anchors": ["xformer/Transforms/OpSplit.cpp: OpSplitPattern, RaiseSlicePattern, RaiseSlicePadPattern, RaiseSliceBinaryPattern, RaiseFakeSlicePattern, RaiseFakeSliceConstPattern, RaiseFakeSliceToSliceMeanPattern, isRaisableSlice, combineSliceWithExisting"]}
{"id": "C97", "title": "The threads of the audio example never trap, never deadlock and stay in step", "statement": "However the audio thread, the transport thread, the processing thread and the button server are scheduled, and however few tokens their channels hold (at least one), no thread reads a control token as data or data as a control token, some thread can always go on, every call for a sample returns after a bounded number of steps of all threads, and the calls are served one to one in order: frame number i takes the first word of call number i, and that call gets the value of that frame in each of its 16 words.", "quantifier": "all interleavings of the four threads token by token, all channel capacities of at least one token, all words sent, all block lengths, all durations of the signal processing up to a bound, all button changes", "why_tests_cant": "A test runs one schedule with the hardware's buffers; a trap or a deadlock depends on capacities and on which thread is late, and a frame that is lost once shifts all later samples.", "anchors": ["examples/audio_network/src/data_path.c: nn_offload_data_to_dsp_engine, data_to_and_from_nn, nn_data_transport_thread, nn_dsp_thread", "examples/audio_network/src/dsp_usb.c: UserBufferManagement, dsp_main", "examples/audio_network/src/extensions/button.c: button_server"]}
{"id": "C98", "title": "The image kept in the tensor arena reaches the network", "statement": "app_mobilenetv2 and app_yolov8_classification store their sample image at the start of the tensor arena and copy it, byte by byte and minus 128, to the input tensor in the same arena. The input tensor receives the image for every image exactly when it is placed at offset 0 or behind the image. The memory planner gives such a place to every tensor that no in-place operator reads (without in-place operators: to every tensor), so the network executed in the planned arena after the copy computes what it computes from the image. When the first operator runs in place (pad 3 to 4 channels), the input tensor is inside the image and the image is destroyed by the copy.", "quantifier": "all images, sizes and contents of the arena; all functions, plans and iteration orders of the planner's hash map", "why_tests_cant": "Where the input tensor is placed depends on the sizes and lifetimes of all tensors of the network; a test runs one network with one image, and an overlapping copy still yields a plausible image.", "anchors": ["examples/app_mobilenetv2/src/support.cpp: tensor_arena, run", "examples/app_yolov8_classification/src/support.cpp: run", "xformer/Analysis/MemoryPlan.cpp: MemoryPlan::getOffset, MemoryPlan::getAllocatedOffsets", "xformer/Transforms/PlanMemory.cpp"]}
{"id": "C99", "title": "The example applications report the most probable classes", "statement": "The class reported first is the class with the greatest output, the first of them on a tie, and -1 exactly when all outputs are -128. The second class reported is the one with the second greatest output; this is true exactly when such a class comes before the winner (and is above -128): the loop keeps only the outputs that were a maximum when they were met. The two-class applications report the greater of the two outputs and a percentage between 0 and 100, rounded down.", "quantifier": "all numbers of classes and all output values", "why_tests_cant": "Whether the second and third class are right depends on the order of all outputs; the sample images always give the same order.", "anchors": ["examples/app_mobilenetv2/src/support.cpp: run", "examples/app_single_model_on_two_tiles/src/support.cpp: run", "examples/app_single_model_on_one_tile_and_DDR/src/support.cpp: run", "examples/app_flash_single_model/src/support.cpp: run"]}
{"id": "C100", "title": "The model runner's verdict on a compiled model", "statement": "xformer/modelrunner.py compiles a network, runs it next to the reference interpreter and reports how many outputs differ. For outputs without scale, or with one scale (values of at most 16 bits, no overflow of float32), the number reported is the number of runs times the number of outputs that are not the same, hence 0 exactly when the compiled network is right on the input used; rounding of the dequantised values hides no difference. The inputs stay in the range of their type and repeat the same round of values in every run (8-bit networks only ever see even numbers). The checksum printed makes the bytes sum to 0 modulo 256.", "quantifier": "all integer inputs and outputs, all float32 scales and zero points, any number of outputs and runs", "why_tests_cant": "whether two different integers dequantise to the same float depends on all scales and values; a script that reports 0 failures is trusted", "anchors": ["xformer/modelrunner.py: checksum_calc, dequantize, test_inference"]}
{"id": "C101", "title": "What passing the acceptance test means", "statement": "integration_tests/runner.py accepts a compiled network when, over the fewest random runs that give 2048 outputs, no output differs from the reference by more than a limit and the average difference and average absolute difference are within limits. For signed outputs none of which differs by half the range of the type or more, the verdict is exactly that; without this condition a passing 8-bit network has only pairs that differ by 0, 1, 128 or 255. The test ends whenever every run gives at least one output.", "quantifier": "all widths of integer outputs, all sequences of runs and outputs, all limits", "why_tests_cant": "the test is itself what decides whether a compiler is released; whether it can pass a wrong network depends on how numpy's integers wrap, which no sample run shows", "anchors": ["integration_tests/runner.py: test_model, get_params"]}
{"id": "C102", "title": "Networks sharing one memory compute what each computes alone", "statement": "When several compiled models keep their tensors in one memory, as in the example applications with two models, storing the inputs of a model, invoking it and reading its outputs gives what that model computes from those inputs, whatever ran before, and whatever other models whose arenas are elsewhere do between and after these steps; this also holds when two models share the same arena bytes, provided nothing else uses the arena between storing the inputs and reading the outputs. No event changes a byte outside the arena of its own model, and the shared array (LARGEST_TENSOR_ARENA_SIZE) is large enough for every model.", "quantifier": "all compiled functions and operator semantics, all numbers of models, arena positions, inputs and previous memory contents, and all histories of starts, stores and invocations", "why_tests_cant": "There are unboundedly many histories and arena placements; the hardware examples run one fixed order with one fixed image per model.", "anchors": ["examples/app_flash_two_models/src/main.cpp: nn_thread", "examples/app_flash_two_models_one_arena/src/main.cpp: nn_thread", "examples/app_flash_two_models_one_arena/README.rst", "examples/audio_network/src/model_audioi16.tflite.h: LARGEST_TENSOR_ARENA_SIZE", "xformer/Transforms/PlanMemory.cpp: PlanMemory", "xformer/Analysis/MemoryPlan.cpp"]}
{"id": "C103", "title": "The audio example's network remembers the previous frames, and nothing else", "statement": "The masks nn_predict_masks gives for a frame are those of the network run, frame after frame from the zero state, on the spectra received so far, each time with the state it computed for the frame before: whatever model_init leaves in the tensor arena, whatever else runs between the calls, also in the arena, and whatever comes later.", "quantifier": "all compiled networks with a state of 64 floats, all operator semantics, all sequences of calls with any spectra and button states, all contents of the memory, and all events of other networks between the calls", "why_tests_cant": "There are unboundedly many sequences of frames and arena contents; a test runs a few frames with one memory.", "anchors": ["examples/audio_network/src/support.cpp: nn_predict_masks, state", "examples/audio_network/src/data_path.c: nn_predict_masks", "xformer/Transforms/PlanMemory.cpp: runOnOperation"]}
{"id": "C104", "title": "What an application reads after an invocation is what the TFLite function returns, with several compiled networks in one memory", "statement": "For every TFLite function that the compiler turns into a network (passes before, in and after OptimizeConv2D, lowering, constants moved to the weights file, memory plan) whose results are tensors of the arena: after writing inputs of the right sizes and invoking the network, whatever was in memory, whatever happened before, and whatever other compiled networks in separate arenas do between the writes, the invocation and the reading, the bytes behind the output pointers are the results of the TFLite function on those inputs. In the applications with two models the two readings are the results of the two functions, with two arenas or with one; in the audio example the masks are those of the TFLite function unrolled over the spectra of the calls.", "quantifier": "all functions, inputs, compilations (any order of the rewrites, any schedule of the weight loads), memories, histories of events, and other networks", "why_tests_cant": "It composes the compiler's choices with the memory's contents at run time; a test fixes one model, one compilation and one history.", "anchors": ["xformer/XCoreOptMain.cpp", "xformer/Transforms/Passes.cpp:buildXCoreRemainingPassPipeline", "xformer/Transforms/PlanMemory.cpp", "xformer/Transforms/WriteWeights.cpp", "examples/app_flash_two_models_one_arena/src/main.cpp:33-55", "examples/app_flash_two_models/src/main.cpp:33-50", "examples/audio_network/src/support.cpp:105-143"]}
{"id": "C105", "title": "Each of several networks finds its own weights in the one flash image", "statement": "When the flash image is generated from the model and parameter files of several networks, programmed, and read by every network at the address in its engine's header, each network computes after any history what its TFLite function computes, whatever the other engines' files contain. The same holds for weights in the RAM of the other tile (behind the header written with them) and in external memory.", "quantifier": "all lists of files, networks, positions in the list, contents of the other files, inputs, memories and histories (images of less than 4 GB)", "why_tests_cant": "The address depends on all engines before; a wrong offset reads another network's weights and only shows for particular combinations.", "anchors": ["python/xmos_ai_tools/xformer/flash.py:generate_flash", "xformer/Transforms/WriteWeights.cpp", "xformer/Utils/FileIO.cpp:writeWeightsToFile", "xformer/Utils/TileRamSupport.cpp", "examples/app_flash_two_models/src/main.cpp:33-50"]}
{"id": "C106", "title": "The audio example from end to end, and with the pass-through setting the sound comes back", "statement": "Whatever the interleaving of the two threads, as long as a block is processed before the next handover: the words sent back are the uninitialised stack, a block of zeros, and then one computation on the stream of samples received: a third of the rate, overlapping windows, transforms, masks from the network with its state under the button settings of the blocks, transforms back, overlap-add, full rate. The masks are those of nn_predict_masks on the compiled network whatever else uses the memory. With the pass-through setting the low-rate signal comes back 384 samples later, up to 20 + 4e, whatever the network answers between 0 and 1.", "quantifier": "all sample streams, schedules that meet the deadlines, button presses, networks, resamplers and transforms with error e; all memories and other networks", "why_tests_cant": "Five stages with state carried from block to block and two threads; a test sees one recording, one interleaving and one network.", "anchors": ["examples/audio_network/src/data_path.c: nn_dsp_thread, nn_data_transport_thread", "examples/audio_network/src/dsp.c: dsp_time_to_freq, dsp_calculate_mels, dsp_apply_masks, dsp_freq_to_time", "examples/audio_network/src/support.cpp: nn_predict_masks"]}
{"id": "C107", "title": "What the host reads over USB is what the TFLite function computes", "statement": "With a compiled network behind the I/O server, whatever a host session does - input tensors written in any order and more than once, any number of inferences, results read in any order and repeatedly - every array returned by read_output_tensor is the result of the original TFLite function on the inputs last written, for every content of the device's memory and every padding of the sent tensors, provided every input is written before each inference and results are read before the next input is written. start_inference always addresses model 0.", "quantifier": "all functions, inputs, sequences of host calls meeting the stated order, memories, replies and paddings", "why_tests_cant": "Packets of 512 bytes, tensors that share memory, and a history of commands: tests read once after one fixed sequence with a few tensor sizes.", "anchors": ["python/xmos_ai_tools/io_server/__init__.py: write_input_tensor, read_output_tensor, start_inference, bytes_to_arr", "examples/app_no_flash_with_ioserver/src/support.cpp: run", "xformer/Analysis/MemoryPlan.cpp"]}
