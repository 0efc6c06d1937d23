claims = []
def c(prop, status, theorems, note):
    claims.append({"property": prop, "status": status, "theorems": theorems, "note": note})

c("C01", "proved", ["C01_live_tensors_disjoint"], "Plan without overlapping; live_together quantifies over every executing op and pairs of inputs.")
c("C02", "proved", ["C02_arena_execution"], "Arbitrary operator semantics; operand bytes seen by every op are equal, arena initial contents arbitrary.")
c("C03", "proved", ["C03_plan_complete", "C03_overlap_plan_complete", "C03_shrinking_chain_refuted", "C03_no_tensor_refuted"],
  "With overlapping under the stated side conditions (chains do not shrink, overlappable results used); the shrinking and empty cases are shown to fail in the code.")
c("C04", "proved", ["C04_peak_exact", "C04_overlap_peak_exact"], "Sizes rounded up to 8 bytes as the planner does.")
c("C05", "proved", ["C05_first_fit", "C05_peak_at_most_total", "C05_peak_at_least_live"], "First fit assumes every function input is used.")
c("C06", "proved", ["C06_overlap_keeps_apart", "C06_overlap_arena_execution"], "Side conditions: wf_overlap, chain_grows.")
c("C07", "partial", ["C07_front_to_back_in_place", "C07_in_place_safe_partial", "C07_chain_refuted", "C07_lookup_table_refuted", 'C07_exactly_when', 'C07_happens'],
  "Full property is false of the code (two counterexample theorems). C07_exactly_when: the exact distance between operand and result, and an iff: every front-to-back kernel is right exactly when the distance is at least what the result is longer; C07_in_place_safe_partial: always so for the last op of a chain and for sizes multiple of 8. C07_happens: the overlap really happens, with its exact distance, for every operator whose operands allow it.")
c("C08", "proved", ["C08_chosen_plan", "C08_chosen_plan_execution", "C08_no_plan_when_disabled"], "")
c("C09", "proved", ["C09_regions_tile_image"], "lib_nn's channel split (1x1 images) is a parameter assumed consecutive.")
c("C10", "proved", ["C10_split_balanced","C10_even_when_divisible"], "")
c("C11", "partial", ["C11_strided_regions_partial", "C11_stride_at_most_2", "C11_stride3_refuted", "C11_small_image_refuted", "C11_exactly_when", "C11_fits_concrete"],
  "C11_exactly_when is an iff: the dimension divided among the threads must be at least its stride, and odd or with its remainder at most the sub-position (all cases for strides 1 and 2); the refutations show the full property is false of the code.")
c("C12", "proved", ["C12_merge_axes_same_slice"], "")
c("C13", "proved", ["C13_slice_lowering", "C13_params_bounded", 'C13_exactly_when', 'C13_exactly_when_meets'], "Copy kernel meaning assumed (CopyKernels). C13_exactly_when: lowered iff one axis is cut, or two with only unit axes before the first.")
c("C14", "proved", ["C14_pad_lowering", "C14_wide_zero_point_refuted", 'C14_exactly_when', 'C14_exactly_when_meets'], "Zero point 0 for element types wider than 8 bits, as the TFLite quantisation spec requires; the refutation shows the code relies on it. C14_exactly_when: lowered iff one axis grows, or two with only unit axes before the first, rows growing from three to four bytes excepted.")
c("C15", "proved", ["C15_broadcast_lowering", 'C15_exactly_when', 'C15_exactly_when_meets'], "C15_exactly_when: lowered iff the changed axes have size one and no wider axis lies between two of them.")
c("C16", "proved", ["C16_concat_lowering"], "")
c("C17", "proved", ["C17_split_concat", "C17_negative_axis_refuted"], "Axis nonnegative or -1; other negative axes are out of bounds in the code (refutation).")
c("C18", "proved", ["C18_mean_reduces_axes", "C18_mean_scale", "C18_duplicate_axes_refuted", "C18_negative_axis_refuted"], "Distinct in-range axes; refutations for duplicate and negative ones. scale_mul in exact arithmetic.")
c("C19", "partial", ["C19_strided_slice_partial", "C19_strided_slice_left_alone", "C19_negative_shrink_refuted", "C19_end_clamp_refuted", 'C19_exactly_when', 'C19_exactly_when_meets'], "C19_exactly_when is an iff (results with at least one element): the slice put in its place is legal and right exactly for in-range bounds and end = begin + 1 on shrunk axes; the refutations show the full numpy semantics is not implemented.")
c("C20", "proved", ["C20_transpose_rewrites_preserve_results", "C20_transpose_folded_into_input"], "Any sequence of applications of the hoist/cancel patterns anywhere in any well-typed body; input folding for every body whose argument is only used through the transpose.")
c("C21", "proved", ["C21_weights_read_back", "C21_array_file"], "Any graph, any constants (splat or not), any visiting order of the rewrite driver. Also: the load operator precedes its users.")
c("C22", "proved", ["C22_weights_packed"], "")
c("C23", "proved", ["C23_external_selection", "C23_limit_exceeded", "C23_budget_used_by_small_constants",'C23_refuted_huge'], "The statement as given holds; the two refutations record that the configured limit may be exceeded by one constant and that small constants use up the budget.")

c("C24", "proved", ["C24_bands_partition", "C24_refuted_more_splits_than_rows"], "More splits than rows give empty bands (second theorem).")
c("C25", "proved", ["C25_combined_slice"], "Batch 1, rank 4 (the shapes OpSplit works on), explicit slice sizes.")
c("C26", "partial", ["C26_valid", "C26_same_partial", "C26_small_filters", "C26_refuted_whole", "C26_refuted_thin", "C26_refuted_dilation", 'C26_dilation_exactly_when'], "VALID: all bands, dilation 1. SAME: exactly the supported bands (iff), which include all proper bands for filters of height at most 3. The full property is false of the code: whole-output slice, thin bands with large filters, dilation (three counterexamples). C26_dilation_exactly_when: the rows of a band come out exactly when the filter has one row or the dilation is 1.")
c("C27", "partial", ["C27_pad_partial", "C27_refuted_asymmetric", 'C27_exactly_when'], "C27_exactly_when is an iff: every band the rewrite can take from the input is right exactly when both paddings are split as before = (before+after)/2; other paddings are changed by the code (counterexample). C27_pad_partial: exactly the supported bands.")
c("C28", "partial", ["C28_binary_partial", "C28_refuted_column",'C28_dynamic_batch', 'C28_exactly_when'], "C28_exactly_when is an iff (bands that do not start at 0): each operand has the shape of the result or height 1; an operand of shape [1;H;1;1] is not sliced by the code (counterexample).")
c("C45", "partial", ["C45_mean_of_means_partial", "C45_refuted_overlapping", 'C45_exactly_when'], "C45_exactly_when is an iff: equal bands give the mean of all rows exactly when every row is in the same number of bands; the code does not check this (counterexample). Exact rationals, no requantisation between the means.")
c("C46", "partial", ["C46_analysis_partial", "C46_refuted_worse", "C46_refuted_out_of_bounds", "C46_refuted_endless",'C46_next_candidate'], "Termination and local optimality of the number of splits when values die late (single input, single results); the full property is false of the code (three counterexamples).")

c("C29", "partial", ["C29_channelwise_split_partial", "C29_refuted_not_multiple_of_4", "C29_refuted_empty_group", 'C29_exactly_when'], "C29_exactly_when is an iff for any number of output channels: the convolutions compute the first 4*(n/4) of them, so nothing is lost exactly when it is a multiple of 4 (else the channels left over are lost: counterexample); groups may be empty for many splits (counterexample). One output pixel at a time, any channel function.")
c("C30", "proved", ["C30_pad_input_channels", 'C30_exactly_when'], "Exact accumulator; symmetric weights or any zero points.")
c("C31", "proved", ["C31_pad_output_channels", 'C31_exactly_when'], "The slice taken afterwards has batch 1, as in the code.")
c("C32", "proved", ["C32_same_conv_equals_pad_and_valid"], "tensorflow's GetWindowedOutputSizeVerbose written from its documentation.")
c("C33", "partial", ["C33_same_transpose_conv_partial", "C33_refuted_small_kernel", "C33_refuted_odd_output", 'C33_exactly_when', 'C33_exactly_concrete'], "C33_exactly_when is an iff over all output sizes TFLite allows (in*stride - r) and all kernels; the other cases are wrong in the code (two counterexamples).")
c("C34", "partial", ["C34_transpose_conv_partial", 'C34_covered_exactly_when'], "Strides at most the kernel size; lib_nn's reordering of the kernel is an assumed contract (library not in the repository). C34_covered_exactly_when: for larger strides, exactly when every output position is computed at all (a single input row or column).")
c("C35", "partial", ["C35_fully_connected_partial", "C35_refuted_leading_dimension", "C35_refuted_rank_4_result", 'C35_exactly_when'], "C35_exactly_when is an iff: what the pass makes is legal, with the shape of the result replaced, exactly when the dimensions before the last two are 1, the last is the length of a filter row and the result has rank 2 or 3; then it is right. Other shapes are mishandled by the code (counterexamples).")
c("C47", "proved", ["C47_pad_depthwise", 'C47_exactly_when', 'C47_constants'], "Depth multiplier 1, as the pattern requires. C47_constants: the padded constants (bias, filter and bias scales) have one entry per padded channel.")
c("C48", "partial", ["C48_average_pool_partial", "C48_valid_windows", "C48_refuted_same_border", 'C48_exactly_when', 'C48_same_exactly_when'], "Exactly the windows inside the image (iff; all windows for VALID, SAME exactly without padding), exact real arithmetic, the float 1/(h*w) taken exact; SAME border windows are wrong in the code (counterexample).")

c("C36", "proved", ["C36_lookup_table", "C36_refuted_tiny_output_scale"], "Scaled results below 2^31 - 256 in absolute value (else the conversion in the code is undefined: second theorem). Double arithmetic taken exact; tanh and exp are arbitrary functions.")
c("C37", "proved", ["C37_pad_value"], "")
c("C38", "proved", ["C38_swap_pads", "C38_swap_terminates", 'C38_exactly_when'], "Same pad value for both pads.")
c("C49", "partial", ["C49_pad3to4_partial", "C49_concat_pad3to4", "C49_refuted_padding_before", 'C49_exactly_when'], "C49_exactly_when is an iff: nothing padded before the channels; such a pad matches too and is changed by the code (counterexample). Concatenation: every case of rank 4. Kernel contract assumed.")
c("C50", "proved", ["C50_unfuse_activation", "C50_minimum_127"], "TFLite's fused clamp written from its documentation; exact arithmetic.")
c("C51", "partial", ["C51_same_quantisation_partial", "C51_merge_partial", "C51_refuted_saturation", 'C51_quantize_exactly_when'], "Equal when both results have the same quantisation; within 1 + s1/(2 s2) units when the intermediate does not saturate; arbitrary difference when it does (counterexample). C51_quantize_exactly_when is an iff: every result kept exactly when both quantisations are the same.")
c("C52", "proved", ["C52_hoist_quantize_above_concat", "C52_quantize_reshape_never"], "No fused activation on the concatenation.")
c("C53", "proved", ["C53_insert_broadcasts"], "Static shapes.")
c("C54", "proved", ["C54_no_op_pad", "C54_no_op_slice"], "Static shapes.")
c('C39','proved',['C39_flash_image','C39_regions','C39_file','C39_generate','C39_generate_fails','C39_refuted_beyond_4GB','C39_preamble'],'Image smaller than 2^32 bytes (beyond, addresses wrap: refuted). Reader of the flash specified in HostSpec.v.')
c('C40','proved',['C40_session','C40_upload','C40_transfer_exists','C40_bytes_to_arr','C40_refuted_empty'],'Any history of calls with non-empty tensors; an empty tensor desynchronises the protocol (refuted). libusb packetisation and the device are specified, not in the repository.')
c('C41','proved',['C41_offline_metadata'],'Little-endian host.')
c('C42','proved',['C42_version_check','C42_overflow','C42_no_version','C42_format_is_loose'],'All triples of numbers; the accepted format is looser than a.b.c.')
c('C43','proved',['C43_remove_dynamic','C43_result_static','C43_refuted_other_dynamic'],'Static other dimensions below 2^31; another dynamic dimension becomes 0 (refuted).')
c('C44','proved',['C44_fields_fit','C44_accuracy','C44_output','C44_equal_scales_exact','C44_refuted_bias_overflow','C44_refuted_negative_shift'],'Double arithmetic exact; fields fit when the larger scale ratio exceeds 1/1024; bias overflow and negative shift outside (refuted). Kernel rounding assumed.')
c('C55','proved',['C55_host_interpreter','C55_sizes','C55_refuted_overflow','C55_refuted_given_array','C55_refuted_short_value'],'One model at index 0, values of the right size; wrong sizes reach memcpy (refuted).')
c('C56','partial',['C56_first_model_partial','C56_refuted_replace','C56_refuted_two_models', 'C56_which_model_runs', 'C56_exactly_when'],'C56_exactly_when is an iff over all histories: the model given last runs exactly when no other was given before for its index (the first given runs: C56_which_model_runs). Holds for the first model of an index only; replacing a model has no effect and two models share one engine (refuted).')

c('C57','partial',['C57_conv2d_accumulator_partial','C57_depthwise_accumulator_partial','C57_kernel_selection','C57_scratch_of_all_threads','C57_int16_padding_refuted','C57_depth_multiplier_refuted','C57_wide_padding_refuted','C57_scratch_overflow_refuted', 'C57_int16_exactly_when', 'C57_depth_multiplier_always_wrong'],'All int8 convolutions with paddings below 32768, int16 ones without padding, depthwise ones with depth multiplier 1; the other cases are wrong in the code (three counterexamples). lib_nn kernel contracts assumed; exact accumulators. int16: an iff (every tap inside the image); depth multipliers above 1: wrong at every position, for some image.')
c('C58','partial',['C58_activation_iff','C58_activation_preserved_partial','C58_lost_activation_refuted'],'An iff: exactly which activations survive. The full claim is false of the code (int16 Relu, depthwise Relu, Relu6 lost).')
c('C59','proved',['C59_clamp_only_large_multipliers','C59_ratio_bounded','C59_default_factor_no_change','C59_effective_scale','C59_zero_factor_refuted'],'Rational arithmetic instead of float.')
c('C60','partial',['C60_lowered_or_unchanged','C60_transpose_conv_reverts_wrongly_refuted', 'C60_exactly_when'],'Convolutions and depthwise convolutions of the model; the intermediate convolutions of a transpose convolution revert to a plain convolution (counterexample). C60_exactly_when is an iff: which convolutions become kernels.')
c('C61','proved',['C61_int8_output','C61_kernel_selection','C61_same_one_padding','C61_same_zero_rejected','C61_channels','C61_packed_bits', 'C61_exactly_when'],'Larq semantics and kernel contract specified; rational arithmetic.')
c('C62','partial',['C62_maxpool_partial','C62_same_padding_refuted','C62_activation_ignored_refuted', 'C62_exactly_when'],'Exactly the pools that need no padding (iff); the code drops the padding and the fused activation (counterexamples).')

c('C63','partial',['C63_parameters_aligned_partial','C63_refuted_long','C63_refuted_odd','C63_keys', 'C63_exactly_when', 'C63_exactly_when_short'],'Aligned exactly when the lengths line up (iff, any lengths; below 256 bytes: all but the last multiples of 4); contents always read back verbatim; longer or odd ones are misaligned by the code (counterexamples). flexbuffers builder specified, not in the repository.')
c('C64','proved',['C64_size_modulo','C64_size_exact','C64_refuted_bool','C64_refuted_large'],'Element widths that are multiples of 8 and sizes below 2^31; booleans get zero bytes and larger tensors wrap (counterexamples).')
c('C65','partial',['C65_command_line_partial','C65_arena_size','C65_arena_size_printed','C65_history','C65_raises','C65_arena_size_line','C65_not_a_number','C65_refuted_empty_value', 'C65_command_line_exactly_when'],'C65_command_line_exactly_when is an iff: the command line is understood as meant exactly when no option that requires a value is given without one (otherwise it swallows the next argument: counterexample). The arena size part is proved in full. LLVM command-line parser specified.')
c('C66','proved',['C66_options_validated','C66_success','C66_failure_prefix','C66_enough_threads','C66_refuted_verify','C66_exit_code'],'Without --verify-diagnostics for the success part (with it a failed pipeline goes unnoticed: counterexample).')
c('C67','proved',['C67_array_text','C67_size_text'],'Fewer than 2^31 bytes for the size.')
c('C68','partial',['C68_softmax','C68_zero_point_irrelevant','C68_order_preserved','C68_selection','C68_single','C68_refuted_overflow','C68_refuted_underflow','C68_refuted_output_type'],'Real numbers (standard library Reals and their axioms); input scale at most 1/4 and rows of at most 2^20 values: beyond, the float table overflows or underflows (counterexamples); output quantisation 1/256, -128 (only asserted: counterexample). Kernel contract assumed.')
c('C69','partial',['C69_values_partial','C69_exactly_when','C69_lowered_iff','C69_activation','C69_elu_partial','C69_refuted_zero_point','C69_refuted_narrowing','C69_refuted_elu_argument','C69_refuted_elu_second_result'],'Zero points 0 (C69_exactly_when is an iff on the zero points); other zero points, 16 to 8 bit quantize and ELU of a function argument or of a second result are wrong in the code (counterexamples). lib_nn blobs represented by their arguments; exact arithmetic.')
c('C70','proved',['C70_fusion_preserves','C70_fusion_removes_a_reshape','C70_fusion_complete'],'Convolution kernel assumed to depend on memory and attributes only.')
c('C71','partial',['C71_splitting_preserves_partial','C71_concrete','C71_refuted_unsupported'],'Any order and number of pattern applications; missing, because the code is wrong there: dilation above 1, bands that need padding on both sides (C26, C27; counterexample), asymmetric pads, more bands than rows. Un-sliced operand constant along the height.')
c('C72','proved',['C72_lowering_preserves','C72_lowering_terminates','C72_normal_form','C72_concrete', 'C72_normal_form_copies', 'C72_normal_form_copies_meets'],'The operators of the copy family, mean/sum (kernel arithmetic as a parameter), convolutions, depthwise convolutions, maximum pooling and 8-bit activations (FunOpsModel; geometry and activation conditions of C36, C57, C58, C62) lowered, every other operator opaque. Verified functions: pads of 8-bit or zero-point-0 tensors (C14), strided slices with in-range bounds (C19). Kernel contracts of CopyKernels.v. C72_normal_form_copies: exactly which slices, pads and broadcasts may remain (empty axes excluded).')
c('C73','proved',['C73_end_to_end','C73_plan_exists','C73_concrete'],'Composition of C72 with C08. Operators read their operands before writing (in-place kernels: C07); overlapping chains must not shrink (C03_shrinking_chain_refuted).')
c('C74','proved',['C74_optimise_preserves','C74_optimise_terminates','C74_optimise_aligns','C74_concrete','C74_refuted_split_before_same'],'Batch 1, phases in the order of the pipeline (the splitting pattern alone changes SAME convolutions: counterexample). A quantised convolution has a quantised result. Transpose convolutions not included (C33, C34).')
c('C75','proved',['C75_labels','C75_splits','C75_concrete','C75_refuted_nested','C75_refuted_same_bottom','C75_refuted_slice_of_argument','C75_labels_any_bottom','C75_concrete_slice'],'All bottoms for the labels (C75_labels_any_bottom); the numbers of bands when bottoms are not slices and requests are separate (nested requests lose a split, a shared bottom takes the last number, a slice of a function argument dereferences null: counterexamples). Function without nested regions.')
c('C76','proved',['C76_compiled','C76_terminates','C76_concrete','C76_refuted_lowering_alone'],'8-bit operators (16-bit: C69); scales of Add and Sub within the range in which their parameters are representable (C44); the multiplication kernel of lib_nn by contract (mul_contract). The lowering alone, without the TFLite patterns before it, forgets the fused activation (counterexample).')
c('C77','proved',['C77_round_trip','C77_injective','C77_function','C77_concat','C77_concrete','C77_refuted_activation','C77_refuted_threads','C77_refuted_deterministic'],'For legal attributes (32-bit integers, known enumerators, 13 concat sizes, as many kernel parameters as threads; the fused activation of xc.add, which is not exported, must be NONE: see C76). The encoding of a map as bytes is flexbuffers (contract). The unused sizes of a concat are uninitialised memory: the exported bytes are not determined by the input (counterexample).')
c('C78','partial',['C78_transpose_conv_partial','C78_same_transpose_conv_partial','C78_refuted_stride_3','C78_refuted_stride_over_kernel','C78_concrete','C78_crash', 'C78_exactly_when', 'C78_applied'],'C78_exactly_when is an iff for VALID: right on every run exactly when the dimension divided among the threads has stride at most 2, or size a multiple of the stride, or odd size. Strides at most the kernel size (larger ones: counterexample). SAME: every output size for which C33 (an iff) holds. Input and output of the same type (checked by the TFL dialect). lib_nn and the runtime by contract.')
c('C79','partial',['C79_conv2d_run_partial','C79_depthwise_run_partial','C79_maxpool_run_partial','C79_concrete','C79_concrete_pool'],'Missing are exactly the cases in which the code is wrong: activations lost by the lowering (C58 is an iff), int16 with padding, depth multipliers above 1, paddings of 32768 and more (C57), pools with padding (C62). Kernels of lib_nn by contract; requantisation is a parameter.')
c('C80','partial',['C80_no_use_after_free','C80_engines_left','C80_with_statement','C80_with_concrete','C80_second_model_leaks_refuted','C80_close_without_model_refuted','C80_use_after_close_refuted','C80_unloadable_model_refuted','C80_large_model_refuted', 'C80_exactly_when', 'C80_exactly_concrete'],'C80_exactly_when is an iff over all histories of calls: no memory is touched that is not there exactly when nothing is used after close and, at every set_model, the model first given for that index fits the 50 MB buffer. Holds for histories that use nothing after close and whose models fit the 50 MB buffer; otherwise the code dereferences a null pointer or overflows the buffer (counterexamples). Also refuted: a second set_model forgets the first engine, a model that cannot be loaded is not reported, leaving a with statement before any set_model raises AttributeError. The engine library is a contract; failures it reports are not modelled.')
c('C81','proved',['C81_report_faithful','C81_report_complete','C81_no_clash_shown','C81_labels_distinct','C81_concrete','C81_large_arena_refuted'],'For arenas of up to 35,791,394 bytes; above, the scaled address overflows an int (counterexample). Operations are printed by kind; columns are scaled exactly as printed.')
c('C82','proved',['C82_threaded_kernel','C82_concrete'],'Operators as verified by compute_ok (batch 1, geometry as TensorFlow defines it; 16 bits without padding; pooling without padding); kernels of lib_nn and their requantisation by contract. The composition with the whole function and with the arena is C72 and C73, which range over these operators too.')
c('C83','proved',['C83_weights_file','C83_end_to_end','C83_plan_exists','C83_concrete'],'Composes C72/C82 (lowering), C24/C25 (file and load operators) and C01-C08 (arena). Hypotheses: the driver visits every load operator, result names are new, C08 hypotheses on overlapping chains.')
c('C84','partial',['C84_convolution_partial','C84_transpose_convolution_partial','C84_fully_connected_partial','C84_activations','C84_only_floats','C84_refuted_bias','C84_refuted_fc_activation','C84_refuted_conv_activation','C84_refuted_dilation','C84_refuted_transpose_activation','C84_refuted_concat','C84_concrete', 'C84_fully_connected_exactly_when', 'C84_convolution_exactly_when', 'C84_transpose_convolution_exactly_when', 'C84_exactly_concrete'],'The exactly_when theorems are iffs over all kernels that are right for plain operators: they are right for another one exactly when it has no fused activation (fully connected: and no bias). Proved without fused activation, bias of a fully connected, or dilation; the code drops those (no kernel can be right: refutations quantified over all kernels). Rational arithmetic; kernels of the runtime are not in the repository, the theorems say what they can compute.')
c('C85','partial',['C85_mel_compress','C85_mel_expand','C85_constant_mask','C85_mask_values','C85_shipped_tables','C85_shipped','C85_tones','C85_last_row_refuted','C85_first_row_refuted', 'C85_exactly_when'],'C85_exactly_when is an iff over all filter banks whose first column starts in the first row: mel_compress stays inside its array exactly when the last row is not the first row of a column (else every call leaves it). Proved when the first column starts in the first row and the last row is never the first row of a column; for the other filter banks mel.h allows, mel_compress writes outside the array or into the wrong row (refuted). Sum of magnitudes below 2^31.')
c('C86','partial',['C86_log2_16','C86_log2_16_64','C86_log2_16_real','C86_log2_8','C86_monotone','C86_powers','C86_values','C86_zero','C86_log2_8_64_partial','C86_not_monotone','C86_log2_8_64_refuted'],'Everything but log2_8_64, which is wrong above 32 bits (adds base instead of 8*base): refuted for all such arguments. The signed count of shl is taken from the comment in log.c. C86_log2_16_real uses the axioms of Reals.')
c('C87','proved',['C87_fully_connected_layer','C87_no_fully_connected_left','C87_concrete'],'Static shapes with leading dimensions 1 and a result of rank 2 or 3 (the others are refuted in C35); conditions of C82 on activation and quantisation; kernels of lib_nn by contract. C72, C73, C82 and C83 range over functions with fully connected layers too.')
c('C88','partial',['C88_passes_preserve','C88_ready_for_lowering','C88_tfl_normal_form','C88_transpose_normal_form','C88_explicit_padding_reached','C88_compilation','C88_transposes_terminate','C88_reshapes_terminate','C88_tfl_patterns_terminate','C88_tfl_patterns_finish','C88_end_to_end','C88_end_to_end_weights','C88_concrete','C88_wide','C88_sums','C88_zero_pads_refuted'],'Everything but termination of TFLPatterns on functions with pads by nothing: two such pads in a row are swapped for ever (refuted; only the iteration limit of the MLIR driver ends it). Not in the whole-function model: the patterns that change results (merges at different scales, C51; bconv, C61) and fused activations other than 8-bit Relu and Relu6 (C50). Fully connected operands carry their zero point. The combination of reshapes is TensorFlow\'s canonicalisation (contract).')
c('C89','partial',['C89_dtypes','C89_tensor_name','C89_unnamed_tensor','C89_operator_name','C89_compiler_operators','C89_input_details','C89_output_details_partial','C89_output_dtype_refuted','C89_loaded','C89_empty_content_refuted', 'C89_names_recoverable', 'C89_names_distinct'],'Missing are exactly the cases in which the code is wrong: names with quotes, backslashes or non-ASCII bytes (iff), operator names with a b at an end (iff; none of the compiler has one), outputs of a type other than the four (reported with the type of the output before). str(bytes), str.strip and the flatbuffers accessors are assumed as documented.')
c('C90','partial',['C90_stream','C90_concrete','C90_late_refuted','C90_first_block_refuted'],'Channels by contract, with unbounded buffering of the end token. Without the deadline the claim is false (counterexample: a block is processed that was never sent); the first block sent is uninitialised memory (refuted).')
c('C91','proved',['C91_overlap_add','C91_analysis','C91_table','C91_unity','C91_unity_shipped'],'The FFTs of lib_xcore_math and the resamplers by contract: transforms inverse up to an error e per sample, of which the bound keeps track; int additions wrap, as on the xcore.')
c('C92','partial',['C92_settings','C92_masks','C92_monotone','C92_passthrough','C92_negative_refuted','C92_range_refuted'],'False of the code for the harsh and the medium setting when the output of the network is high: the shift overflows and the mask is negative (iff). The product with 255.0 is exact in double.')
c('C93','partial',['C93_padding_preserves','C93_splitting_preserves','C93_channels_fit','C93_filters_small','C93_padding_terminates','C93_splitting_terminates','C93_padding_finishes','C93_optimize_conv','C93_full_terminates','C93_no_full_left','C93_compilation','C93_end_to_end','C93_all_lowered','C93_concrete','C93_empty_convolution_refuted','C93_empty_concrete'],'For split sizes of at least four filters (input channels rounded up); with larger filters the pass makes convolutions without output channels (refuted for all such convolutions; with the default size a 3x3 convolution of 4096 inputs and 16 outputs). Transposed convolutions are not in it (C32, C48). That the driver runs until no pattern applies (its iteration limit is not reached) is a hypothesis where named finished. The per-channel quantisation of the new constants is related to the old one by contract (C29-C31, C47 prove how it is computed).')
c('C94','partial',['C94_magnitude','C94_int','C94_overflow_refuted','C94_arguments_only','C94_scale','C94_mels','C94_mels_hypothesis','C94_mels_concrete','C94_concrete'],'False of the code when the length exceeds an int: the result is then negative (refuted for all such pairs; the 32 bits are right as unsigned). The meaning of the XS2 instructions is assumed as documented; the multiplication of the level by a float is not modelled. Uses the axioms of Reals.')
c('C95','partial',['C95_pass','C95_step','C95_accepted','C95_sound_pass','C95_instance_sound','C95_instance','C95_instance_mean','C95_refuted_left','C95_refuted_argument','C95_refuted_leftover','C95_refuted_order','C95_refuted_dominance','C95_refuted_mean'],'Results and types are kept for every order (proved); C95_accepted: the steps the verifier always accepts, so that runs made of them need no further premise (C95_sound_pass). False of the code: a broadcast operand on the left (use of an erased operation), one that is an argument (null operation), one computed outside the split range (a fake slice stays in the function), bands contained in one another (the order decides whether the pass stops early or makes a slice of a value defined later), a mean raised before all bands are recorded.')
c('C96','proved',['C96_pass_ends','C96_no_loop','C96_sound_no_loop','C96_rewrites_bounded','C96_instance'],'Well-foundedness of the accepted steps of both groups of patterns in any interleaving; C96_sound_no_loop assumes nothing about the functions on the way; the bound of C96_rewrites_bounded is reached in C96_instance.')
c('C97','proved',['C97_no_trap','C97_in_step','C97_no_deadlock','C97_calls_end','C97_concrete'],'Token-level semantics of XS2 channel ends (outputs wait while the channel is full, inputs while it is empty, the wrong kind of token traps). The values sent by the transport thread are free here; C90 says what they are and treats an exchange as one step, which C97_in_step justifies.')
c('C98','partial',['C98_copy_exactly','C98_plain_plan','C98_written_plan','C98_network_sees_image','C98_spoiled','C98_refuted_in_place','C98_instance'],'False of the code when the first operator runs in place (refuted for all images but those whose bytes 0 and z differ by 128). Everything else proved, from the copy to the execution of the network in the planned arena.')
c('C99','partial',['C99_best_class','C99_none','C99_first_of_three','C99_second_exactly_partial','C99_refuted_second','C99_human_report','C99_instance'],'The second class: an iff; false of the code otherwise (refuted for every output whose winner is class 0). The probability printed (product of floats) is not modelled.')
c('C100','partial',['C100_output_exactly_when','C100_total_partial','C100_no_failure_partial','C100_inputs','C100_int8_inputs_even','C100_checksum','C100_comparable','C100_two_runs','C100_refuted_overflow','C100_refuted_channel_scales','C100_refuted_options','C100_refuted_more_fails_than_runs'],'C100_output_exactly_when is an iff over all float32 scales (an output passes exactly when all values are equal or overflow on the same side). False of the code otherwise: scales near the end of float32 hide differences, several scales always fail, --bnn, --input or a missing --tc end in an exception (refutations). float32 is the format of Flocq; axioms of Reals. --cifar is not modelled.')
c('C101','partial',['C101_verdict_partial','C101_pair_exactly_when','C101_pass_means','C101_ends','C101_right_network','C101_refuted_wrap','C101_refuted_half_range','C101_refuted_unsigned','C101_refuted_never_ends'],'C101_pair_exactly_when is an iff over all widths and values. False of the code otherwise, because the differences wrap in the type of the outputs: a network with a quarter of its outputs as wrong as possible passes, unsigned outputs one below the reference fail, outputs without elements are tested for ever (refutations). Averages are exact rationals. The tool is part of the repository, not of the compiler.')
c('C102','proved',['C102_outputs','C102_own_arena_only','C102_one_arena','C102_two_arenas','C102_arena_size','C102_array_suffices','C102_instance','C102_shared_inputs_refuted','C102_shared_outputs_refuted','C102_invoked_again_refuted'],'Composes with the planner (C08): the offsets are those plan_memory writes. model_init belongs to the generated runtime (not in the repository) and may leave arbitrary bytes in its arena. The refutations show that the provisos are needed.')
c('C103','proved',['C103_masks','C103_causal','C103_instance'],'Composes with C102 and the planner (C08). How a float is stored in four bytes is an arbitrary function; the two inputs are stored in the other order than the code does (different tensors). What the masks are for given outputs is C92.')
c('C104','partial',['C104_tflite','C104_two_arenas','C104_one_arena','C104_masks','C104_concrete'],'Composes C93 (and with it C08, C72, C82, C83, C88) with C102 and C103. A result that is a constant (never in the arena) is excluded; operators without a modelled pass compute an arbitrary function; what the compilation models leave out (see C93) is left out here too.')
c('C105','partial',['C105_flash','C105_two_models','C105_tile','C105_external','C105_concrete'],'Composes C39 (flash.py) with C83 and C104; the flash server and the runtime by contract (not in the repository); what the compilation models leave out (see C93, C104) is left out here too. C105_concrete also shows that reading at the address of another engine gives other results.')
c('C106','partial',['C106_audio','C106_pass_through','C106_defined','C106_network','C106_concrete'],'Composes C90, C91, C92, C85/C94 (definedness), C103 and through it C102 and the planner. By contract, as arbitrary functions with state: the resamplers, the FFTs of lib_xcore_math (pass-through: an error bound on the frames that occur) and the float multiplication of the levels; missing: a bound on what the FFTs and resamplers do themselves. C106_concrete meets the hypotheses of C106_audio and C106_pass_through (six blocks); an instance of the recurrent network of C106_network is C103_instance.')
c('C107','partial',['C107_session','C107_round','C107_model_zero','C107_concrete'],'Composes C40 (packets, arrays) with C102, C104 (the arena) and the planner (the inputs of a function are kept apart). model_ioserver is in lib_tflite_micro, not in the repository: by contract it carries out the commands it receives, with one network. Missing: a session that fails or is reset; the two-network server; reset and tensors without bytes (C40_refuted_empty) are excluded; what the compilation models leave out (see C93, C104).')
