{"claims": [
 {"property": "C01", "status": "proved", "theorems": ["C01_balanced_tiling"], "note": ""},
 {"property": "C02", "status": "proved", "theorems": ["C02_load_balanced"], "note": ""},
 {"property": "C03", "status": "proved", "theorems": ["C03_whole_partition_decomposition"], "note": ""},
 {"property": "C04", "status": "proved", "theorems": ["C04_rank_index_bijection", "C04_coordinates"], "note": "C04_coordinates is the part about the workers of a partition."},
 {"property": "C05", "status": "proved", "theorems": ["C05_overlap_agreement"], "note": ""},
 {"property": "C06", "status": "proved", "theorems": ["C06_index_filters"], "note": ""},
 {"property": "C07", "status": "proved", "theorems": ["C07_broadcast_partitions"], "note": ""},
 {"property": "C08", "status": "partial", "theorems": ["C08_transposed_broadcast_partial", "C08_transposed_broadcast_refuted"], "note": "The documented pairing holds exactly when the source has at most one dimension with extent other than one; the general claim is refuted (3x2 source transposed onto 2x3)."},
 {"property": "C09", "status": "partial", "theorems": ["C09_reduction_mirrors_broadcast_partial", "C09_member_order_refuted"], "note": "Same acceptance, same error, same root and members; order after the root only when the partitions are disjoint, otherwise refuted."},
 {"property": "C10", "status": "proved", "theorems": ["C10_group_creation_no_deadlock"], "note": ""},
 {"property": "C11", "status": "proved", "theorems": ["C11_allreduction_groups"], "note": "Axes in range; axes beyond the dimension are refused."},
 {"property": "C12", "status": "proved", "theorems": ["C12_union_order"], "note": ""},
 {"property": "C13", "status": "proved", "theorems": ["C13_neighbour_ranks"], "note": ""},
 {"property": "C14", "status": "proved", "theorems": ["C14_broadcast_delivers"], "note": "All partition pairs, tensors and rings; forward value and shape of the broadcast layer on every worker."},
 {"property": "C15", "status": "proved", "theorems": ["C15_broadcast_adjoint"], "note": "Inner-product identity over an arbitrary commutative ring; no rounding."},
 {"property": "C16", "status": "proved", "theorems": ["C16_sum_reduce"], "note": "Sum over an arbitrary commutative ring, forward and adjoint."},
 {"property": "C17", "status": "proved", "theorems": ["C17_all_sum_reduce"], "note": "Sum over an arbitrary commutative ring for every axis set the constructor accepts."},
 {"property": "C18", "status": "proved", "theorems": ["C18_repartition_preserves"], "note": "All pairs of partitions of equal dimension, all block layouts, all rings, all executions of the point-to-point model, after any earlier calls."},
 {"property": "C19", "status": "proved", "theorems": ["C19_repartition_adjoint_inverse"], "note": "Adjoint over all workers, backward of forward, forward of backward, and the round trip by a second layer, in all executions."},
 {"property": "C20", "status": "proved", "theorems": ["C20_repartition_schedules"], "note": "Arbitrary histories of forward and backward calls in an asynchronous point-to-point semantics with an arbitrary buffering oracle."},
 {"property": "C21", "status": "partial", "theorems": ["C21_repartition_refusals_partial", "C21_repartition_refusals_refuted"], "note": "Proved for tensors whose rank is the dimension of P_x. Refuted in general: a tensor of higher rank passes the rank check, then P_x workers raise a numpy error while the others wait."},
 {"property": "C22", "status": "proved", "theorems": ["C22_no_aliasing"], "note": "Arrays and buffers are heap objects; all histories of requests, expansions, view requests and writes on one manager."},
 {"property": "C23", "status": "proved", "theorems": ["C23_contents_and_views"], "note": "View shapes: not the empty tuple (np.prod gives a float there), no negative extents."},
 {"property": "C24", "status": "partial", "theorems": ["C24_attached_partial", "C24_attached_refuted", "C24_write_lost_after_growth"], "note": "Holds if the buffer is not enlarged between obtaining the view and the write; otherwise the write is lost (proved), so the claim is refuted."},
 {"property": "C25", "status": "proved", "theorems": ["C25_halo_exchange_fills"], "note": "All partitions, layouts and halo widths no wider than the adjacent bulk; any earlier calls; every execution."},
 {"property": "C26", "status": "proved", "theorems": ["C26_halo_exchange_adjoint"], "note": "All halo widths for which the slices lie inside the padded tensors (always so for plans of the layers, layer_given); outside that numpy broadcasts, wraps or raises."},
 {"property": "C27", "status": "proved", "theorems": ["C27_halo_exchange_schedules"], "note": "Plans computed by compute_exchange_info and, more generally, all halos whose slices lie inside the tensors."},
 {"property": "C28", "status": "proved", "theorems": ["C28_send_equals_neighbour_halo"], "note": "Any shapes, windows, partitions; unbalanced blocks included."},
 {"property": "C29", "status": "partial", "theorems": ["C29_halos_sufficient_minimal_partial", "C29_halos_minimal_refuted"], "note": "Sufficiency proved in full. Minimality is false in general (a worker without outputs, or dilation with implicit padding: C29_halos_minimal_refuted, C29_dilation_witness); proved for dimensions where the worker has an output and either padding is 0 or dilation is 1 and padding < kernel."},
 {"property": "C30", "status": "partial", "theorems": ["C30_feature_layers_partial", "C30_convolutions_partial", "C30_common_layers_partial", "C30_common_convolutions_partial", "C30_pooling_kernels", "C30_all_parameters_refuted"], "note": "Proved for every layer (kernel, stride, padding, dilation, groups, any function of the window; asynchronous halo exchange, any history of calls) satisfying 'within': every worker has an output, the inputs its outputs read reach no further than the adjacent blocks, no room for one more output in a block. 'common' is a closed form that implies it. For all accepted parameters the claim is refuted: a 'same' convolution with kernel 5 of four numbers on four workers gives wrong numbers. Constant padding only; gradients are C51 and C52."},
 {"property": "C31", "status": "proved", "theorems": ["C31_output_size_formula"], "note": "binary64 semantics from Flocq; numerator plus stride below 2^52."},
 {"property": "C32", "status": "proved", "theorems": ["C32_linear"], "note": "Any leading dimensions, any feature counts, any fi x fo grid. The weight blocks are those of the constructor; workers outside P_x pass any tensor with a dimension."},
 {"property": "C33", "status": "partial", "theorems": ["C33_channel_conv_partial", "C33_general_conv_partial", "C33_general_common_partial", "C33_groups_refuted", "C33_single_worker_refuted"], "note": "Output blocks of the channel- and generally-distributed convolutions equal the sequential convolution, for every grid, channel counts, window, bias, schedule. Hypotheses: no groups when channels are distributed (refuted otherwise), a single weight worker is also the only input and output worker (refuted otherwise), at least one channel per worker, and for the general layer the halo condition of C30. Zero padding mode only."},
 {"property": "C34", "status": "partial", "theorems": ["C34_statistics", "C34_histories_partial", "C34_running_variance_refuted", "C34_momentum_zero_refuted"], "note": "On every worker the mean and variance are those of the assembled tensor, for every partition, every cut of batch and features and every arithmetic; every history of calls gives the blocks of a sequential layer's outputs and statistics, for a sequential layer that averages the biased variance and with momentum other than 0. torch averages the unbiased variance and treats momentum 0 as no update: both differences are refuted with witnesses. Rounding is not modelled."},
 {"property": "C35", "status": "proved", "theorems": ["C35_losses"], "note": "For every partition, every layout in blocks and every elementwise loss; sum additionally uses that division by one changes nothing. Rounding is not modelled; a worker outside the partition raises AttributeError (the builtin input has no clone)."},
 {"property": "C36", "status": "partial", "theorems": ["C36_upsampling_ranges_partial", "C36_float_refuted", "C36_double_refuted", "C36_channels_refuted"], "note": "Proved in exact arithmetic for all partitions, extents and modes with an input in balanced blocks (and, for the kernel as a whole, with batch and channels in one piece for linear interpolation). Refuted for the float and double kernels (an index computed by the kernel differs from the one of the setup by rounding) and for linear interpolation with distributed channels (the kernel writes past the end of the output)."},
 {"property": "C37", "status": "proved", "theorems": ["C37_interpolation_adjoint"], "note": "Any arithmetic for indices and weights, any weight map into any commutative ring, both modes, 1-3 feature dimensions, any offsets; local input and output have the same numbers of batches and channels (the kernels assume it; C36 shows a caller that violates it)."},
 {"property": "C38", "status": "partial", "theorems": ["C38_plan_matches_input_partial", "C38_batchnorm_refuted", "C38_failed_setup_sticks"], "note": "All layers and all histories of calls, including setups that raise: whenever forward completes, everything it reads was built for the current structure. For every layer but batch normalisation a used plan is torn down before a new one is stored, a changed structure starts with the teardown, and an unchanged one rebuilds nothing. Batch normalisation rebuilds in every call without teardown (refuted)."},
 {"property": "C39", "status": "partial", "theorems": ["C39_agreement_partial", "C39_refuted", "C39_receivers_refuted"], "note": "The claim is false: 10 then 11 entries over 3 workers makes only the second worker rebuild, and pure receivers of a broadcast, reduction or repartition never notice a change. Proved instead: exactly when all workers of a balanced input agree (nothing changes, type or flag changes, or an extent changes by at least the number of workers along it)."},
 {"property": "C40", "status": "proved", "theorems": ["C40_structure_exchange"], "note": "Values for every receiver, every interleaving of every history of setup, forward, backward and teardown, and assembly of the global structure."},
 {"property": "C41", "status": "proved", "theorems": ["C41_type_codes"], "note": "Tables built entry by entry as the dict displays/comprehensions do; NumPy's type numbers are any injective numbering."},
 {"property": "C42", "status": "proved", "theorems": ["C42_padding"], "note": "Also for negative paddings (cropping)."},
 {"property": "C43", "status": "partial", "theorems": ["C43_zero_volume_partial", "C43_zero_volume_refuted"], "note": "The gradient of a zero-volume input has shape (b,0), which is the input's shape only if the input is of that form; refuted with shape (0,5)."},
 {"property": "C44", "status": "partial", "theorems": ["C44_selector_partial", "C44_selector_refuted", "C44_agreement_refuted", "C44_batch_refuted"], "note": "Dispatch and acceptance are as claimed for partitions that do not divide the batch (and channels for the feature class); those restrictions are unchecked, and a mismatch between partitions is raised only by workers of the partition concerned."},
 {"property": "C45", "status": "partial", "theorems": ["C45_release_partial", "C45_synchronous_release_refuted"], "note": "Holds when releasing a communicator is local; refuted when it synchronises: two workers that broadcast to each other release their groups in opposite orders."},
 {"property": "C46", "status": "proved", "theorems": ["C46_loss_gradients"], "note": "The derivative of the elementwise loss is a parameter."},
 {"property": "C47", "status": "proved", "theorems": ["C47_interpolation_parallel"], "note": "Same generality as C37; interleavings at the granularity of C++ assignments."},
 {"property": "C48", "status": "partial", "theorems": ["C48_upsample_output_partial", "C48_upsample_output_divisible", "C48_all_parameters_refuted"], "note": "Exact arithmetic, every worker has outputs, batch and channels in one piece for linear interpolation (C36 shows what goes wrong otherwise), and every element a block of outputs is computed from lies in the same or an adjacent block of the input; the last holds in particular where the number of workers divides both extents. Refuted without it: nine elements to fourteen on seven workers. Missing: the floating-point kernels (refuted in C36)."},
 {"property": "C49", "status": "proved", "theorems": ["C49_upsample_adjoint"], "note": "Exact arithmetic. torch's own gradients of slicing and of F.pad are modelled from their documentation (ModelGradients). Unlike C48 no condition on how the blocks lie."},
 {"property": "C50", "status": "proved", "theorems": ["C50_linear_gradients", "C50_gradient_formulas"], "note": "torch's own gradients of F.linear are modelled by their formulas; C50_gradient_formulas shows that these are the transposes of the linear maps."},
 {"property": "C51", "status": "proved", "theorems": ["C51_feature_adjoint", "C51_convolution_kernels", "C51_average_kernels"], "note": "For every linear kernel; the two kernel theorems show that convolution without bias and average pooling are. The outputs need not be the sequential ones. Rounding is not modelled; max-pooling is not linear and not covered."},
 {"property": "C52", "status": "proved", "theorems": ["C52_feature_gradients"], "note": "For every linear kernel (see C51) under the condition 'within' of C30, which is part of the claim."},
 {"property": "C53", "status": "proved", "theorems": ["C53_conv_gradients"], "note": "Under the condition 'within' of C30, which is part of the claim. torch's own convolution gradients are modelled by their formulas (C51 shows the input's is the adjoint)."},
 {"property": "C54", "status": "proved", "theorems": ["C54_channel_conv_gradients"], "note": "Under C33's condition 'plain', which is part of the claim. torch's own convolution gradients are modelled by their formulas, as for C53."},
 {"property": "C55", "status": "proved", "theorems": ["C55_general_conv_gradients"], "note": "Same side conditions as C33's general theorem (ungrouped or undivided channels, windows within the neighbours' blocks, zero padding). Every completed run of the halo layer, after any calls of the same shape."},
 {"property": "C56", "status": "proved", "theorems": ["C56_batchnorm_gradients", "C56_gradient_unique", "C56_moving_output", "C56_real_derivative"], "note": "Gradients are taken as pairings with all directions, computed with dual numbers; over the reals they are shown to be derivatives. Rounding is not modelled; the order in which torch's engine calls the backward passes is that of the forward pass reversed on every worker."},
 {"property": "C57", "status": "proved", "theorems": ["C57_max_pooling_gradients", "C57_locally_linear", "C57_first_maximum"], "note": "For every choice that is a function of the window's values, under the condition 'within' of C30, which is part of the claim; torch's choice without NaN is an instance."},
 {"property": "C58", "status": "proved", "theorems": ["C58_networks_of_layers", "C58_chain_rule"], "note": "networks of feature-distributed convolutions, pools and pointwise torch layers on one partition; parameters given"},
 {"property": "C59", "status": "proved", "theorems": ["C59_feature_modes", "C59_channel_modes", "C59_general_modes", "C59_modes_ready_refuted"], "note": "Channel and general layers under C33's conditions (ungrouped or undivided channels; a lone P_w worker is the only one of P_x and P_y), feature and general layers where the outputs lie within reach (C30). C59_modes_ready_refuted records that the other modes are not available once features are distributed."},
 {"property": "C60", "status": "proved", "theorems": ["C60_windows", "C60_convolutions", "C60_bits", "C60_torch_layers"], "note": "where the outputs lie within reach (C30); torch's layers are arbitrary functions that compute some result the relation allows for every window"},
 {"property": "C61", "status": "proved", "theorems": ["C61_sum_reduce", "C61_broadcast", "C61_all_sum_reduce", "C61_exact", "C61_linear"], "note": "Arithmetic is arbitrary: the operations of the machine satisfy no law, MPI_SUM may add in any order and another one on each worker, torch may sum and fuse its products in any way."},
 {"property": "C62", "status": "proved", "theorems": ["C62_sums", "C62_two_results", "C62_reductions", "C62_linear"], "note": "IEEE 754 binary formats of any size through Flocq, rounding to nearest even; uses the standard library's axioms of the real numbers. Accumulators are of the element type."},
 {"property": "C63", "status": "proved", "theorems": ["C63_training", "C63_batchnorm_derivative"], "note": "Layers run their communication to completion one after the other; the optimizer treats elements one by one. Conditions per layer are those of C30, C32, C33, C18, C34, C48 and the gradient properties; batch normalisation in training mode, on a partition of all workers (its constructor reads every worker's index), with running statistics of any values."},
 {"property": "C64", "status": "proved", "theorems": ["C64_print_sequential"], "note": "Any number of calls on any partitions, every execution with any buffering of sends."},
 {"property": "C65", "status": "proved", "theorems": ["C65_allreduce", "C65_allgather", "C65_shapes"], "note": "Integer elements without overflow; the arguments dtype and op are the same on all workers."},
 {"property": "C66", "status": "proved", "theorems": ["C66_subtopology", "C66_assemble", "C66_integers_refuted"], "note": "Flags given as a list of booleans, as documented. C66_integers_refuted: with flags 0 and 1 the shape does not fit the workers."},
 {"property": "C67", "status": "proved", "theorems": ["C67_lifetimes", "C67_world", "C67_teardown", "C67_groups_refuted", "C67_inactive_groups_refuted", "C67_exceptions_refuted", "C67_root_refuted"], "note": "C67_groups_refuted, C67_inactive_groups_refuted: groups are left behind. C67_exceptions_refuted: a mismatch leaves the union's communicator. C67_root_refuted: with a root other than MPI.COMM_WORLD, releasing it breaks unions of the partitions derived from it."},
 {"property": "C68", "status": "proved", "theorems": ["C68_ranges", "C68_threads", "C68_division", "C68_layer", "C68_safe_refuted"], "note": "Threads, memory layouts and the exact condition for the division by zero; C68_safe_refuted shows that layers which can be set up may divide by zero."},
 {"property": "C69", "status": "partial", "theorems": ["C69_upsample_gradients_partial", "C69_upsample_gradients_divisible", "C69_all_parameters_refuted", "C69_sequential_gradient"], "note": "Exact arithmetic and the conditions of C48: every element a block of outputs is computed from lies in the same or an adjacent block of the input, in particular where the number of workers divides both extents. Refuted without it: nine elements to fourteen on seven workers."},
 {"property": "C70", "status": "proved", "theorems": ["C70_channel_conv", "C70_general_conv", "C70_exact"], "note": "For every machine arithmetic (addition, product and fused product arbitrary functions, order of additions and padding terms torch's and MPI's choice). Generally-distributed layers under the exact condition of C60 on the windows."},
 {"property": "C71", "status": "proved", "theorems": ["C71_two_results", "C71_channel_conv", "C71_general_conv"], "note": "IEEE 754 formats of any size, rounding to nearest even, overflow included."},
 {"property": "C72", "status": "proved", "theorems": ["C72_equality", "C72_identity"], "note": "On the objects of C67. MPI_IDENT is the same handle for communicators and the same members in order for groups; a communicator's group is the one it was created from."},
 {"property": "C73", "status": "proved", "theorems": ["C73_linear", "C73_feature_conv", "C73_channel_conv", "C73_general_conv", "C73_batchnorm"], "note": "For the convolutions with distributed channels: whenever the constructor returns on every worker; it does when channels are not grouped or not distributed."},
 {"property": "C74", "status": "proved", "theorems": ["C74_channel_gradients", "C74_exact"], "note": "DistributedChannelConv in machine arithmetic; torch's gradients of a single layer and MPI's reduction are assumed to evaluate their terms in some order."},
 {"property": "C75", "status": "proved", "theorems": ["C75_two_results", "C75_channel_gradients"], "note": "Corollary of C74 with C62; rounding to nearest even."},
 {"property": "C76", "status": "proved", "theorems": ["C76_halo_gradients", "C76_forward", "C76_safe", "C76_ring", "C76_copies"], "note": "For every addition, history and MPI schedule; halos no wider than the adjacent block."},
 {"property": "C77", "status": "partial", "theorems": ["C77_near", "C77_reproducible_partial", "C77_reproducible_refuted"], "note": "Bit-by-bit reproducibility is refuted in general (an entry sent to both neighbours gets its two contributions in order of arrival) and proved whenever no entry is sent to both neighbours in one dimension; the error bound holds always."},
 {"property": "C78", "status": "proved", "theorems": ["C78_feature_gradients"], "note": "Earlier calls on the halo layer are arbitrary. C74_exact relates the sums to C53's gradients."},
 {"property": "C79", "status": "proved", "theorems": ["C79_feature_gradients"], "note": "From C78 and C62; C75_two_results compares two results."},
 {"property": "C80", "status": "proved", "theorems": ["C80_losses", "C80_exact"], "note": "Targets that torch would broadcast are not modelled; workers outside the partition fail (C35)."},
 {"property": "C81", "status": "proved", "theorems": ["C81_losses"], "note": "Relative to the machine's own elementwise losses."},
 {"property": "C82", "status": "proved", "theorems": ["C82_histories", "C82_exact"], "note": "With exact arithmetic only the statistics are compared with C34; the averages are distdl's own (C34 refutes torch's unbiased variance)."},
 {"property": "C83", "status": "proved", "theorems": ["C83_statistics"], "note": "The bound of the variance refers to the machine's squares."},
 {"property": "C84", "status": "proved", "theorems": ["C84_windows", "C84_convolutions", "C84_pools"], "note": "C84_windows covers any sliding-window layer, average pools and convolutions are instances; layouts restricted as in C30 (halos cover the windows)"},
 {"property": "C85", "status": "proved", "theorems": ["C85_convolutions", "C85_pools"], "note": "errors of convolutions and average pools; layouts as in C84"},
 {"property": "C86", "status": "proved", "theorems": ["C86_pool_gradients"], "note": "torch's gradient of the pool is a parameter; each worker may add in its own order"},
 {"property": "C87", "status": "proved", "theorems": ["C87_pool_gradients"], "note": "bounds for any IEEE 754 format"},
 {"property": "C88", "status": "proved", "theorems": ["C88_pool", "C88_convolution", "C88_upsampling", "C88_unknown_mode"], "note": "Constructors of pools, feature convolutions and upsampling on every worker; C88_unknown_mode is the witness that several workers, unlike one, take a padding mode that does not exist."},
 {"property": "C89", "status": "partial", "theorems": ["C89_checkpoint_partial", "C89_count_refuted"], "note": "Proved for layers with a momentum (other than 0, see C34), without statistics, or not trained any further. Refuted for momentum None: the count of the calls is no buffer, so state_dict does not contain it, and the first training call after restoring replaces the restored statistics."},
 {"property": "C90", "status": "partial", "theorems": ["C90_number", "C90_returns", "C90_cut_partial", "C90_cut_refuted"], "note": "Another number of channels is refused on all workers without any effect (C90_number). Inputs whose channels are cut otherwise than the parameters: proved without affine parameters and statistics (C90_returns, C90_cut_partial); refuted with affine parameters, where torch's broadcasting applies the factor of one channel to others."},
 {"property": "C91", "status": "partial", "theorems": ["C91_movement", "C91_layers", "C91_loss_partial", "C91_outside_refuted"], "note": "Broadcast and SumReduce forward and backward, AllSumReduce forward with axes_reduce, and the forward passes of linear layers and of channel, general and feature convolutions hand a worker outside of the partitions its input back, and no other worker's result depends on what such a worker holds, for all partitions. In both runs the parameters, element types and requires_grad flags are the same, the inputs of the forward pass are the same when gradients are compared, and so are the shapes of all inputs at setup for the general and feature convolutions. Missing: the backward pass of AllSumReduce and of the layers with parameters, and the influence of such workers on batch normalisation. The full claim fails (C91_outside_refuted): a worker outside of P_x gets an error from every loss (loss.py:160 clones Python's builtin input) and cannot construct batch normalisation (batchnorm.py:60-63); for losses the independence of the others is proved (C91_loss_partial)."}
]}
