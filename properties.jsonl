{"id": "C01", "title": "Balanced decomposition tiles the tensor exactly", "statement": "For any global tensor shape and any Cartesian partition shape with positive extents, give every worker the half-open box [start, stop) that the public slicing helpers report for its Cartesian index. Every multi-index of the global tensor then belongs to the box of exactly one worker, every index in a worker's box is a valid global index, and a worker's box has exactly the shape reported for its subtensor.", "quantifier": "all global shapes (including zero and smaller than the partition), all partition shapes with positive extents, all worker indices, all dimensions", "why_tests_cant": "There are infinitely many (shape, partition) pairs and the remainder arithmetic differs in each residue class; a test samples a handful.", "anchors": ["src/distdl/utilities/slicing.py: compute_subshape, compute_start_index, compute_stop_index"]}
{"id": "C02", "title": "Balanced decomposition is load balanced", "statement": "In every dimension the local extents of any two workers differ by at most one, extents never increase with the worker coordinate, and the extents along a dimension add up to the global extent.", "quantifier": "all global extents, all partition extents, all pairs of workers", "why_tests_cant": "Needs the inequality for all pairs and all residues, not for sampled shapes.", "anchors": ["src/distdl/utilities/slicing.py: compute_subshape", "src/distdl/utilities/tensor_decomposition.py: compute_subtensor_shapes_balanced"]}
{"id": "C03", "title": "Whole-partition decomposition agrees with the per-worker one", "statement": "The start and stop index arrays that are computed from the array of all subtensor shapes give, for every worker, the same box as the per-worker start/stop formulas when the shapes are the balanced ones. For any other (unbalanced) assignment of extents to worker coordinates along each dimension, the same routines still produce boxes that tile the assembled global tensor: each global index is in exactly one box.", "quantifier": "all partition shapes and dimensions, all balanced and all unbalanced per-dimension extents", "why_tests_cant": "Unbalanced layouts are an unbounded family; only a few balanced ones occur in tests.", "anchors": ["src/distdl/utilities/tensor_decomposition.py: compute_subtensor_shapes_balanced, compute_subtensor_start_indices, compute_subtensor_stop_indices"]}
{"id": "C04", "title": "Worker rank and Cartesian index determine each other", "statement": "Enumerating the Cartesian indices of a partition lists each valid index exactly once, and the position of an index in that enumeration is its row-major flat index: the flat index of the r-th enumerated index is r, distinct valid indices have distinct flat indices, and flat indices fill 0..size-1. The column-major flat index is likewise a bijection onto 0..size-1. The rank layout array stores at each index that index's rank. The index that a partition gives the worker of rank r is the r-th enumerated index, asking for the rank of this index gives r, every index belongs to exactly one worker, and inactive workers have neither.", "quantifier": "all partition shapes of any dimension, all ranks, all indices", "why_tests_cant": "Bijectivity over all shapes and dimensions cannot be enumerated.", "anchors": ["src/distdl/utilities/slicing.py: range_index, worker_layout", "src/distdl/utilities/index_tricks.py: cartesian_index_c, cartesian_index_f", "src/distdl/backends/mpi/partition.py:1024"]}
{"id": "C05", "title": "Both ends of a transfer agree on the overlap", "statement": "For any two boxes, the slice computed on the sending side (relative to its own tensor) and the slice computed on the receiving side (relative to its own tensor) are both present or both absent, have the same shape, stay inside their local tensors, and denote the same set of global indices, namely the intersection of the two boxes. They are absent exactly when the intersection is empty.", "quantifier": "all pairs of boxes in any dimension; in particular all pairs of workers of any two partitions of any tensor", "why_tests_cant": "A mismatch shows up only for particular overlaps; agreement is a statement about every pair of boxes.", "anchors": ["src/distdl/utilities/slicing.py: compute_intersection, compute_partition_intersection, assemble_slices, compute_nd_slice_shape, compute_nd_slice_volume", "src/distdl/utilities/tensor_decomposition.py: compute_subtensor_intersection_slice"]}
{"id": "C06", "title": "Index filters select exactly the matching workers", "statement": "Iterating over the indices of a shape with a filter built from an index and a set of dimensions yields, in row-major order and without repetition, exactly those valid indices that agree with the given index on the selected dimensions (on the complementary dimensions when inverted).", "quantifier": "all shapes, all indices, all dimension sets, both polarities", "why_tests_cant": "Quantifies over all dimension subsets and shapes.", "anchors": ["src/distdl/utilities/slicing.py: filtered_range_index, assemble_index_filter"]}
{"id": "C07", "title": "Broadcast partitions follow the documented broadcast rules", "statement": "Creating broadcast partitions between a source and a destination partition (neither or both transposed) fails exactly when the source has more dimensions than the destination or some dimension violates the rule 'equal or source extent one' after left-padding the source with ones. When it succeeds, every destination worker is in exactly one group whose root (rank 0) is the source worker whose coordinates are the destination's coordinates projected onto the source (zero where the source extent is one), and every source worker is the root of exactly one group which contains all destination workers projecting to it.", "quantifier": "all source and destination partition shapes and dimensions, all placements of the two partitions on world ranks, all workers", "why_tests_cant": "Broadcastability and the pairing must hold for every pair of shapes and every overlap of rank sets.", "anchors": ["src/distdl/backends/mpi/partition.py: MPIPartition.create_broadcast_partition_to, _build_cross_partition_groups", "docs/code_reference/nn/broadcast.rst"]}
{"id": "C08", "title": "Transposed broadcasts pair workers as if the partition shape were reversed", "statement": "When exactly one of the two partitions is transposed, the broadcast behaves as if that partition's shape (and its coordinates) were reversed: each destination worker receives from the source worker whose (reversed) coordinates are the projection of the destination's coordinates.", "quantifier": "all shapes for which the broadcast is accepted, both choices of the transposed side", "why_tests_cant": "The existing tests only transpose partitions with one non-trivial matching dimension, where any pairing rule gives the same answer.", "anchors": ["src/distdl/backends/mpi/partition.py: MPIPartition.create_broadcast_partition_to, create_reduction_partition_to", "src/distdl/utilities/index_tricks.py: cartesian_index_f", "docs/code_reference/nn/broadcast.rst"]}
{"id": "C09", "title": "Sum-reduction groups mirror broadcast groups", "statement": "The groups built for reducing from A to B are the groups built for broadcasting from B to A with the transpose flags swapped: the same pairs of shapes are accepted, every worker's send group for one is its receive group for the other, with the same member order and the same root.", "quantifier": "all pairs of partitions, both transpose flags, all workers", "why_tests_cant": "A relation between two separately written 130-line routines over all inputs.", "anchors": ["src/distdl/backends/mpi/partition.py: create_broadcast_partition_to, create_reduction_partition_to, _build_cross_partition_groups"]}
{"id": "C10", "title": "Creating send/receive groups cannot deadlock", "statement": "When all workers of the union build their broadcast (or reduction) partitions concurrently, each group creation being collective over the group, no reachable state is stuck: as long as some worker is unfinished, some group creation can complete, whatever the relative speeds of the workers.", "quantifier": "all partition shapes and placements, all interleavings", "why_tests_cant": "Deadlock depends on scheduling; a test sees one schedule per run.", "anchors": ["src/distdl/backends/mpi/partition.py: _create_send_recv_partitions"]}
{"id": "C11", "title": "All-reduction groups partition the workers", "statement": "For any subset of axes, the all-reduction groups of a partition are disjoint, cover all its workers, contain the worker that created them, and two workers share a group exactly when their indices agree on all axes that are not reduced; all members compute the same group in the same order and its size is the product of the reduced extents.", "quantifier": "all partition shapes, all axis subsets, all workers", "why_tests_cant": "Consistency between the views of all workers for all shapes.", "anchors": ["src/distdl/backends/mpi/partition.py: create_allreduction_partition", "src/distdl/utilities/slicing.py: filtered_range_index, assemble_index_filter"]}
{"id": "C12", "title": "Partition union orders workers deterministically", "statement": "The union of two partitions with the same root contains exactly the workers of either, each once, first those of the first partition in their rank order and then the remaining workers of the second in theirs (so worker 0 of the union is worker 0 of the first partition). Union with a partition of a different root is refused. Rank lookup of a worker through the union inverts the numbering.", "quantifier": "all pairs of rank lists", "why_tests_cant": "Arbitrary overlap patterns of two rank lists.", "anchors": ["src/distdl/backends/mpi/partition.py: create_partition_union, create_partition_inclusive, broadcast_data"]}
{"id": "C13", "title": "Neighbour ranks are mutual", "statement": "In a Cartesian partition, along every dimension, worker b is worker a's right neighbour exactly when a is b's left neighbour; the neighbour's index differs from the worker's by one in that dimension only; a worker has no left (right) neighbour exactly when its coordinate is the first (last).", "quantifier": "all partition shapes, all workers, all dimensions", "why_tests_cant": "Halo exchange posts sends and receives on this relation; mutuality must hold for every worker.", "anchors": ["src/distdl/backends/mpi/partition.py: MPICartesianPartition.neighbor_ranks, cartesian_index"]}
{"id": "C14", "title": "Broadcast delivers the root's tensor to every destination", "statement": "After a Broadcast layer's forward pass, every destination worker holds a tensor equal in shape and value to the input of the source worker it is paired with; workers outside the destination partition hold a zero-volume tensor, with the batch size kept when requested; the source tensors are unchanged.", "quantifier": "all partitions accepted by the broadcast rules, all input tensors, all workers, all completion orders", "why_tests_cant": "All values, shapes, overlap patterns and completion orders.", "anchors": ["src/distdl/backends/mpi/functional/broadcast.py: BroadcastFunction.forward", "src/distdl/nn/broadcast.py: Broadcast.forward"]}
{"id": "C15", "title": "Broadcast backward is the adjoint of forward", "statement": "For every input x on the source partition and every cotangent dy on the destination partition, the inner product of forward(x) with dy over the destination workers equals the inner product of x with backward(dy) over the source workers; backward delivers to each source worker the sum of the cotangents of exactly the destination workers that received its tensor.", "quantifier": "all accepted partitions, all x and dy over any commutative ring", "why_tests_cant": "The adjoint test in the suite checks one random pair within a tolerance; a missing or double-counted contribution on some layouts is not excluded.", "anchors": ["src/distdl/backends/mpi/functional/broadcast.py: BroadcastFunction.backward"]}
{"id": "C16", "title": "Sum-reduce delivers the sum of its group, and its backward is the adjoint", "statement": "After SumReduce's forward pass each destination worker holds the element-wise sum of the inputs of exactly the source workers that project to it, each counted once (also when the destination worker is itself a source), other workers hold zero-volume tensors; and <forward(x), dy> = <x, backward(dy)> for all x, dy.", "quantifier": "all accepted partitions, all tensors over any commutative ring", "why_tests_cant": "Double counting or omission depends on the overlap of the partitions, an unbounded family.", "anchors": ["src/distdl/backends/mpi/functional/sum_reduce.py: SumReduceFunction", "src/distdl/nn/sum_reduce.py"]}
{"id": "C17", "title": "All-sum-reduce equals reduce-then-broadcast and is self-adjoint", "statement": "AllSumReduce over a set of axes leaves on every worker the sum of the inputs of all workers agreeing with it on the kept axes, which is also what SumReduce to the reduced partition followed by Broadcast back would give; and <forward(x), y> = <x, forward(y)>.", "quantifier": "all partitions, axis sets, tensors over any commutative ring", "why_tests_cant": "All partitions and axis subsets.", "anchors": ["src/distdl/backends/mpi/functional/all_sum_reduce.py", "src/distdl/nn/all_sum_reduce.py"]}
{"id": "C18", "title": "Repartition preserves the global tensor", "statement": "If the input partition's local tensors are the blocks of a global tensor (balanced or not), then after Repartition every output worker holds exactly its balanced block of the same global tensor, with the right shape and every element written exactly once; workers not in the output partition hold zero-volume tensors.", "quantifier": "all pairs of partitions of equal dimension with arbitrary overlap of workers, all block layouts of the input, all tensors, all completion orders", "why_tests_cant": "Correct only if every global element is routed exactly once for all shapes, layouts and message orders.", "anchors": ["src/distdl/nn/repartition.py: Repartition", "src/distdl/backends/mpi/functional/repartition.py: RepartitionFunction.forward", "src/distdl/backends/mpi/repartition.py"]}
{"id": "C19", "title": "Repartition backward is both adjoint and inverse of forward", "statement": "For all x, dy: <forward(x), dy> = <x, backward(dy)>. Backward applied to forward(x) returns x on every worker, and a Repartition P_x to P_y followed by a Repartition P_y to P_x returns a balanced input unchanged.", "quantifier": "all pairs of partitions, all tensors over any commutative ring", "why_tests_cant": "Adjointness and invertibility are universally quantified identities.", "anchors": ["src/distdl/backends/mpi/functional/repartition.py: RepartitionFunction.backward", "src/distdl/nn/repartition.py"]}
{"id": "C20", "title": "Repartition is schedule independent and terminates", "statement": "Whatever the order in which messages are delivered and requests complete, every worker's wait loop terminates after consuming each of its requests exactly once, no state in between is stuck, and the output does not depend on the order. Padding requests for absent transfers never cause an unpack and never block.", "quantifier": "all partitions, all interleavings of posts, deliveries and completions", "why_tests_cant": "Interleavings are exponential in number; tests observe one.", "anchors": ["src/distdl/backends/mpi/functional/repartition.py: forward, backward"]}
{"id": "C21", "title": "Rejected repartitions are rejected on every worker", "statement": "A Repartition is refused when partition dimensions differ from each other or from the tensor's, or when the tensor has extent one in a dimension where the output partition does not; acceptance depends only on globally shared data, so either all workers of the union accept or all raise the same error.", "quantifier": "all partition and tensor shapes", "why_tests_cant": "Agreement across workers for all shapes.", "anchors": ["src/distdl/nn/repartition.py: __init__, _distdl_module_setup"]}
{"id": "C22", "title": "Communication buffers never alias within one transfer plan", "statement": "The buffers handed out for one Repartition are pairwise distinct, one for every transfer that leaves or enters the worker and none for absent or local transfers; buffers requested from a shared manager are stable across requests (asking again returns the same objects first) and never shared between element types.", "quantifier": "all overlap plans, all histories of requests to a shared manager", "why_tests_cant": "Histories of a shared manager are unbounded.", "anchors": ["src/distdl/backends/mpi/repartition.py: allocate_repartition_buffers", "src/distdl/backends/mpi/buffer.py: MPIBufferManager.request_buffers"]}
{"id": "C23", "title": "Expandable buffers keep their contents and serve correct views", "statement": "After any sequence of view requests, writes and expansions, a view obtained for a shape has exactly that shape, fits in the buffer, and shows the buffer's leading elements; growing the buffer preserves all previously stored elements, never shrinks it, and views obtained later see them.", "quantifier": "all histories of operations on a buffer", "why_tests_cant": "State-machine histories are unbounded.", "anchors": ["src/distdl/backends/mpi/buffer.py: MPIExpandableBuffer"]}
{"id": "C24", "title": "A previously obtained view stays attached to its buffer", "statement": "Writing through a view obtained earlier is visible through views of the same buffer obtained later.", "quantifier": "all histories including expansions between the two requests", "why_tests_cant": "Only fails on histories that expand between obtaining and using a view.", "anchors": ["src/distdl/backends/mpi/buffer.py: MPIExpandableBuffer.expand, get_view"]}
{"id": "C25", "title": "Halo exchange fills every ghost cell with the neighbour's data", "statement": "After a halo exchange each worker's padded tensor agrees, on the bulk and on every halo cell including edges and corners, with the global tensor at the corresponding global index, provided each halo is no wider than the adjacent worker's bulk; bulk values are unchanged.", "quantifier": "all partition shapes and dimensions, all non-negative halo widths satisfying the proviso, all tensors", "why_tests_cant": "Corner cells travel through two or more workers; correctness needs an induction over dimensions and all layouts.", "anchors": ["src/distdl/backends/mpi/functional/halo_exchange.py: HaloExchangeFunction.forward", "src/distdl/nn/halo_exchange.py: HaloExchange._assemble_slices"]}
{"id": "C26", "title": "Halo exchange backward is the adjoint of forward", "statement": "For all padded inputs x and cotangents dy: <forward(x), dy> = <x, backward(dy)> summed over all workers, including ghost cells.", "quantifier": "all partition shapes, dimensions, halo widths; all x, dy over any commutative ring", "why_tests_cant": "One random check within tolerance does not establish an identity over all halo layouts.", "anchors": ["src/distdl/backends/mpi/functional/halo_exchange.py: HaloExchangeFunction.backward"]}
{"id": "C27", "title": "Halo exchange messages match pairwise and cannot deadlock", "statement": "In every dimension step, a worker sends to a neighbour if and only if that neighbour posts a receive for it with the same tag and the same message shape; every interleaving completes, and the result is the same for every interleaving even when workers are in different dimension steps at the same time.", "quantifier": "all partitions, halo plans produced by the layer, all interleavings", "why_tests_cant": "Interleavings and drift between workers cannot be enumerated.", "anchors": ["src/distdl/backends/mpi/functional/halo_exchange.py", "src/distdl/nn/mixins/halo_mixin.py: _compute_exchange_info", "src/distdl/backends/mpi/halo_exchange.py"]}
{"id": "C28", "title": "Send sizes equal the neighbour's halo sizes", "statement": "For every worker and dimension, the number of layers it plans to send to a neighbour equals the number of layers that neighbour plans to receive from it; workers at the boundary plan to send nothing across it.", "quantifier": "all tensor shapes, partitions, kernels, strides, paddings, dilations", "why_tests_cant": "Parameter space is unbounded.", "anchors": ["src/distdl/nn/mixins/halo_mixin.py: _compute_exchange_info, _compute_halo_shape"]}
{"id": "C29", "title": "Halos are sufficient for every local output", "statement": "For convolution and pooling layers, every in-range global input index needed by an output that the balanced output decomposition assigns to a worker lies in that worker's block extended by its halos; halos are minimal: when positive, the outermost layer is needed by some local output.", "quantifier": "all tensor extents, partitions, kernels, strides, paddings, dilations for which the sequential layer is defined", "why_tests_cant": "Rounding in the output-size formula interacts with balanced remainders; only a proof covers all parameters.", "anchors": ["src/distdl/nn/mixins/halo_mixin.py: _compute_halo_shape", "src/distdl/nn/mixins/conv_mixin.py", "src/distdl/nn/mixins/pooling_mixin.py"]}
{"id": "C30", "title": "Distributed feature convolution and pooling equal the sequential layer", "statement": "Applying the sequential kernel locally to the padded, exchanged and trimmed block yields on each worker exactly the block of the sequential layer's output that the balanced decomposition of the output assigns to it: same shape, same values.", "quantifier": "all global shapes, partitions, kernels, strides, paddings, dilations accepted by the layer, all tensors", "why_tests_cant": "End-to-end equality for all parameters.", "anchors": ["src/distdl/nn/conv_feature.py", "src/distdl/nn/pooling.py", "src/distdl/nn/mixins/halo_mixin.py: _compute_needed_ranges"]}
{"id": "C31", "title": "The output-size formula is the sequential layer's", "statement": "The output extent computed with floating-point division and floor equals the integer formula floor((n + 2p - d(k-1) - 1)/s) + 1, and it counts exactly the window positions that fit in the padded input.", "quantifier": "all extents in the range where the float computation is exact, all parameters", "why_tests_cant": "Float division can round up to an integer; needs a bound argument.", "anchors": ["src/distdl/nn/mixins/halo_mixin.py: _compute_out_shape"]}
{"id": "C32", "title": "Distributed linear layer equals the sequential layer", "statement": "With input, weights and outputs partitioned as the layer requires, the output blocks assemble to x W^T + b of the assembled operands; the bias is added exactly once.", "quantifier": "all partition shapes P_x, P_w, P_y accepted, all feature sizes, all operands over any commutative ring", "why_tests_cant": "Bias double-counting and block misalignment depend on partition shapes.", "anchors": ["src/distdl/nn/linear.py: DistributedLinear"]}
{"id": "C33", "title": "Channel- and generally-distributed convolution equal the sequential layer", "statement": "With weights and input distributed over output channels, input channels and features, the assembled output equals the sequential convolution of the assembled input with the assembled weights plus bias, the bias being added exactly once per output element.", "quantifier": "all partition shapes accepted, all channel counts, all operands over any commutative ring", "why_tests_cant": "Every split of channels must be summed once.", "anchors": ["src/distdl/nn/conv_channel.py", "src/distdl/nn/conv_general.py"]}
{"id": "C34", "title": "Distributed batch normalisation uses global statistics", "statement": "The mean and variance used on every worker are those of the assembled global tensor over all dimensions except channels, for every partition of batch and feature dimensions, and running statistics follow the sequential layer's update.", "quantifier": "all partitions, all tensors, all histories of training steps", "why_tests_cant": "Depends on all partition shapes and on histories.", "anchors": ["src/distdl/nn/batchnorm.py"]}
{"id": "C35", "title": "Distributed losses equal sequential losses", "statement": "With reduction mean, sum or (KLDiv) batchmean, the value delivered on the root worker equals the sequential loss of the assembled tensors, for balanced and unbalanced partitions of the batch.", "quantifier": "all partitions, all tensors", "why_tests_cant": "Local means must be re-weighted by local sizes; balanced test cases hide this.", "anchors": ["src/distdl/nn/loss.py"]}
{"id": "C36", "title": "Upsampling blocks cover what local interpolation reads", "statement": "For every worker, the range of input indices it obtains covers every input index read by the interpolation of its own output block, both end points, in every mode, and the local kernel reads inside its local tensor without clamping except where the sequential kernel clamps.", "quantifier": "all input and output extents, partitions, modes", "why_tests_cant": "Rounding of scaled indices depends on all extents.", "anchors": ["src/distdl/nn/mixins/interpolate_mixin.py", "src/distdl/nn/upsampling.py", "src/distdl/functional/interpolate/src/interpolate.h"]}
{"id": "C37", "title": "Interpolation adjoint kernel is the adjoint of the forward kernel", "statement": "For constant and linear interpolation in one, two and three feature dimensions, <forward(x), dy> = <x, adjoint(dy)> for all x, dy, for any index offsets.", "quantifier": "all extents, offsets, weights, tensors over any commutative ring", "why_tests_cant": "Identity over all inputs.", "anchors": ["src/distdl/functional/interpolate/src/interpolate_constant_cpu.cpp", "src/distdl/functional/interpolate/src/interpolate_linear_cpu.cpp"]}
{"id": "C38", "title": "A layer's cached setup always matches the current input", "statement": "Whenever a layer's forward runs, its cached communication plan was built for an input of exactly the current structure (shape, element type, gradient flag); a changed structure tears the old plan down before building the new one; an unchanged structure does not rebuild.", "quantifier": "all sequences of inputs to one layer object", "why_tests_cant": "Histories are unbounded.", "anchors": ["src/distdl/nn/module.py: Module._distdl_forward_pre_hook", "src/distdl/utilities/torch.py: TensorStructure", "src/distdl/nn/repartition.py", "src/distdl/nn/broadcast.py"]}
{"id": "C39", "title": "All workers agree on when to rebuild a plan", "statement": "Whenever the global input structure changes between two calls, either all workers of the layer rebuild their plan (which is collective) or none does.", "quantifier": "all sequences of global inputs and all partitions", "why_tests_cant": "Fails only when a global change is invisible to some workers' local shapes.", "anchors": ["src/distdl/nn/module.py", "src/distdl/nn/repartition.py: _distdl_input_changed", "src/distdl/backends/mpi/tensor_comm.py: assemble_global_tensor_structure"]}
{"id": "C40", "title": "Tensor structure reaches every destination worker and cannot deadlock", "statement": "After the structure exchange of a broadcast or reduction, every receiving worker knows the shape, element type and gradient flag of the tensor it will receive, whatever the receiver's own initial values; the exchange completes in every interleaving although receivers must learn the dimension before the shape. The assembled global shape is the sum of the local extents along each dimension.", "quantifier": "all partitions, tensor structures, interleavings", "why_tests_cant": "Interleavings; all dimensions.", "anchors": ["src/distdl/backends/mpi/tensor_comm.py: broadcast_tensor_structure, assemble_global_tensor_structure"]}
{"id": "C41", "title": "Element type codes round-trip", "statement": "Encoding a supported tensor element type as an integer, sending it and decoding it gives the same element type, and conversion between the tensor library's and the array library's types round-trips; distinct types have distinct codes.", "quantifier": "all supported element types", "why_tests_cant": "Finite but table-driven with duplicate keys where later entries win; the property is exhaustive, not sampled.", "anchors": ["src/distdl/utilities/dtype.py"]}
{"id": "C42", "title": "Padding specification conversion pads the intended dimensions", "statement": "Converting an array of per-dimension (left, right) paddings to the flat format of the tensor library's pad routine makes that routine pad dimension i by exactly entry i.", "quantifier": "all dimensions and paddings", "why_tests_cant": "All dimensions.", "anchors": ["src/distdl/utilities/torch.py: distdl_padding_to_torch_padding"]}
{"id": "C43", "title": "Zero-volume correction is transparent", "statement": "A tensor with elements passes through forward and backward unchanged; a zero-volume tensor is replaced by a scalar placeholder in forward and its backward returns a zero-volume gradient of the original shape, so no gradient is invented.", "quantifier": "all tensors", "why_tests_cant": "All shapes.", "anchors": ["src/distdl/functional/zero_volume_corrector.py"]}
{"id": "C44", "title": "Convolution front-end picks an implementation able to handle the partitions", "statement": "The public convolution constructor dispatches to the feature-, channel- or generally-distributed implementation (or refuses) purely by the partition shapes, so that an implementation never receives a partition it cannot handle.", "quantifier": "all combinations of partitions", "why_tests_cant": "Case analysis over all partition shapes.", "anchors": ["src/distdl/nn/conv.py: DistributedConvSelector"]}
{"id": "C45", "title": "Releasing a layer's groups cannot deadlock", "statement": "A change of the input structure makes a Broadcast or SumReduce layer release its send and receive groups and create new ones; this completes in every interleaving, also with an MPI implementation in which releasing a communicator waits for its other members (MPI permits this).", "quantifier": "all partitions, histories of setups, passes and teardowns, interleavings", "why_tests_cant": "Tests run on MPI implementations whose release is local, with few workers and one history each.", "anchors": ["src/distdl/nn/broadcast.py: _distdl_module_teardown", "src/distdl/nn/sum_reduce.py: _distdl_module_teardown", "src/distdl/backends/mpi/partition.py: deactivate"]}
{"id": "C46", "title": "Distributed losses deliver the sequential gradient", "statement": "With reduction mean, sum or (KLDiv) batchmean, every worker's gradient with respect to its input is its block of the gradient of the sequential loss of the assembled tensors, and only the cotangent of the first worker's output enters. Without reduction it is its block of the elementwise gradient for the assembled cotangent.", "quantifier": "all partitions, balanced and unbalanced layouts, all tensors, all cotangents", "why_tests_cant": "Depends on all partition shapes and on local sizes; tests use a few balanced cases.", "anchors": ["src/distdl/nn/loss.py", "src/distdl/functional/zero_volume_corrector.py"]}
{"id": "C47", "title": "Interpolation kernels stay inside their tensors and their parallel loops do not race", "statement": "For every mode, floating-point arithmetic, scale factor, align_corners flag, offsets and global sizes, and for local input and output tensors with the same number of batches and channels and one to three feature dimensions: every element that a forward or adjoint interpolation kernel reads or writes lies inside the tensor, and however the iterations of its at::parallel_for are interleaved, the kernel leaves the same output as when they run one after the other.", "quantifier": "all arithmetics, modes, sizes, offsets, interleavings of the iterations, buffer contents", "why_tests_cant": "Out-of-bounds accesses and races show up only for some sizes, offsets and thread schedules; a test runs a handful of sizes under one schedule.", "anchors": ["src/distdl/functional/interpolate/src/interpolate.h:58", "src/distdl/functional/interpolate/src/interpolate_constant_cpu.cpp:84", "src/distdl/functional/interpolate/src/interpolate_linear_cpu.cpp:86"]}
{"id": "C48", "title": "Distributed upsampling computes the blocks of the sequential result", "statement": "DistributedUpsample on a tensor in balanced blocks: on every worker the layer can be set up and its input be padded, its halo exchange neither blocks nor overtakes, and the output is the worker's block of the tensor that sequential interpolation (nearest, linear, aligned corners, with or without a scale factor) of the assembled tensor gives, for every number of previous calls and every interleaving of the messages; workers outside the partition return their input.", "quantifier": "all partitions, tensors of 3 to 5 dimensions, extents, sizes and scale factors, call histories, message interleavings and buffering behaviours", "why_tests_cant": "Whether a worker reaches the elements it needs depends on how the blocks of input and output lie against each other: the smallest nearest-neighbour case that goes wrong has 7 workers and 9 elements.", "anchors": ["src/distdl/nn/upsampling.py:109", "src/distdl/nn/upsampling.py:262", "src/distdl/nn/mixins/interpolate_mixin.py"]}
{"id": "C49", "title": "The backward pass of distributed upsampling is the adjoint of its forward pass", "statement": "DistributedUpsample in exact arithmetic, on inputs in balanced blocks and output gradients in the balanced blocks of the output: no step of the forward or backward pass raises, the output has the shape of the output gradient and the input gradient that of the input, and the inner product over all workers of output and output gradient equals that of input and input gradient. This holds after any previous calls and for every interleaving of the messages, also where the forward values differ from sequential interpolation (C48).", "quantifier": "all partitions (batch and channels in one piece for linear interpolation), tensors of 3 to 5 dimensions, extents and scale factors that agree, sizes with at least one output per worker, call histories, message interleavings and buffering behaviours", "why_tests_cant": "An adjoint test compares one random pair of vectors for a few sizes; a gradient that is dropped at a block border shows only for the sizes and partitions whose halos touch it.", "anchors": ["src/distdl/nn/upsampling.py:262", "src/distdl/backends/mpi/functional/halo_exchange.py:77", "src/distdl/functional/interpolate/interpolate.py:104"]}
{"id": "C50", "title": "The gradients of the distributed linear layer are the blocks of the sequential gradients", "statement": "DistributedLinear after a forward pass on an input in blocks: given the output's gradient in blocks on P_y, the backward pass gives every worker of P_x its block of the sequential layer's input gradient, every worker of P_w its block of the weight gradient, and the workers of P_w's first column (and no others) their block of the bias gradient; workers of P_w or P_y outside P_x get an empty tensor, workers outside all three partitions the gradient they passed.", "quantifier": "all partitions P_x = 1 x P_fi, P_y = 1 x P_fo, P_w = P_fo x P_fi over any workers, overlapping or not, all features not necessarily divisible, leading dimensions, weights, biases, inputs and gradients in any commutative ring", "why_tests_cant": "An adjoint test checks the input gradient against one random vector for a few partitions and cannot see a weight gradient that is summed twice or belongs to another block.", "anchors": ["src/distdl/nn/linear.py:82", "src/distdl/backends/mpi/functional/sum_reduce.py:140", "src/distdl/backends/mpi/functional/broadcast.py:134"]}
{"id": "C51", "title": "The backward pass of convolution and average pooling over distributed features is the adjoint of the forward pass", "statement": "DistributedFeatureConv (without bias) and average pooling on any blocks of a tensor: no step before the halo exchange raises in forward or backward, and whenever the forward pass returns outputs, the backward pass on gradients of their shapes returns input gradients of the inputs' shapes such that the inner product over all workers of outputs and output gradients equals that of inputs and input gradients. This also holds where the outputs differ from the sequential layer's (C30), after any previous calls and for every interleaving of the messages.", "quantifier": "all partitions and block sizes, any number of feature dimensions, kernels, strides, paddings, dilations, groups and weights with at least one output overall, all inputs and gradients in any commutative ring, call histories, message interleavings and buffering behaviours", "why_tests_cant": "An adjoint test uses one random pair of tensors for a few sizes; a gradient that a halo drops or doubles at a corner shows only for the sizes and partitions whose halos touch it.", "anchors": ["src/distdl/nn/conv_feature.py:357", "src/distdl/nn/pooling.py:276", "src/distdl/backends/mpi/functional/halo_exchange.py:77"]}
{"id": "C52", "title": "Input gradients of convolution and average pooling over distributed features are the blocks of the sequential gradient", "statement": "DistributedFeatureConv (without bias) and average pooling, where the forward pass gives the sequential layer's blocks because the inputs of every output reach no further than the adjacent blocks (the condition of C30): given the output's gradient in balanced blocks, the backward pass gives every worker of the partition its block of the sequential layer's input gradient, which collects from all outputs that see an input; a worker outside the partition gets the gradient it passed.", "quantifier": "all partitions (channels in one piece for convolutions), block sizes, kernels, strides, paddings, dilations, groups and weights satisfying the condition, all gradients in any commutative ring, call histories, message interleavings and buffering behaviours", "why_tests_cant": "Comparing with sequential gradients covers a few sizes; contributions across a block border depend on kernel, stride, dilation, padding and the remainder of the sizes together.", "anchors": ["src/distdl/nn/conv_feature.py:357", "src/distdl/nn/pooling.py:276", "src/distdl/backends/mpi/functional/halo_exchange.py:77"]}
{"id": "C53", "title": "All gradients of the convolution over distributed features equal the sequential layer's", "statement": "DistributedFeatureConv with or without bias, where the forward pass gives the sequential layer's blocks (the condition of C30): given the output's gradient in balanced blocks, the backward pass raises nothing before the halo exchange and gives every worker of the partition its block of the sequential input gradient, and the first worker, which holds the parameters, the sequential layer's weight gradient and bias gradient over the whole batch and all features, although every worker convolves with its own broadcast copy on overlapping halo regions. A single worker uses the torch layer with its own padding and gets the same gradients. A worker outside the partition gets the gradient it passed.", "quantifier": "all partitions with the channels in one piece, block sizes, kernels, strides, paddings, dilations, groups, weights and biases satisfying the condition, all inputs and gradients in any commutative ring, forward and backward runs after any call histories, message interleavings and buffering behaviours", "why_tests_cant": "A weight gradient that counts an input in a halo twice, or misses one, differs from the sequential one only for some combinations of kernel, stride, dilation, padding and uneven sizes; tests compare a few.", "anchors": ["src/distdl/nn/conv_feature.py:357", "src/distdl/nn/conv_feature.py:373", "src/distdl/backends/mpi/functional/broadcast.py:134"]}
{"id": "C54", "title": "All gradients of the channel-distributed convolution equal the sequential layer's", "statement": "DistributedChannelConv with or without bias, where the forward pass gives the sequential layer's blocks (C33: ungrouped channels, or channels in one piece; a lone worker of P_w is also the only one of P_x and P_y): given the output's gradient in balanced channel blocks on P_y, the backward pass raises nothing and gives every worker of P_x its channel block of the sequential input gradient, every worker of P_w the block of the sequential weight gradient for its output and input channels, and the workers of P_w in the first input-channel column the block of the bias gradient, each counted once; no other worker has a bias gradient. Workers outside P_x get a tensor without elements, and workers outside all three partitions the gradient they passed.", "quantifier": "all partitions 1 x ci x 1..., 1 x co x 1..., co x ci x 1... on any ranks, disjoint or overlapping, all channel counts (balanced or not), kernels, strides, paddings, dilations, weights, biases, inputs and gradients in any commutative ring", "why_tests_cant": "The input gradient is a sum over a column of workers and the weight gradient pairs blocks from two different broadcasts; a swapped or unbalanced block shows only for uneven channel counts on non-square grids, of which tests use few.", "anchors": ["src/distdl/nn/conv_channel.py:323", "src/distdl/nn/conv_channel.py:209", "src/distdl/backends/mpi/functional/sum_reduce.py:140"]}
{"id": "C55", "title": "All gradients of the generally-distributed convolution equal the sequential layer's", "statement": "DistributedGeneralConv with or without bias, where the forward pass gives the sequential layer's blocks (C33: ungrouped channels, or channels in one piece; a lone worker of P_w is also the only one of P_x and P_y; every worker's windows lie within its own block and its neighbours'): given the output's gradient in balanced blocks on P_y, every execution of the backward pass that completes, after any forward and backward passes of the same shape, raises nothing and gives every worker of P_x its block of the sequential input gradient (including the contributions of windows of neighbouring workers), every worker of P_w in the first position of each feature dimension the block of the sequential weight gradient for its output and input channels, summed over all feature positions and batches, and those of them in the first input-channel column the block of the bias gradient, each output entry counted once; no other worker has a bias gradient. Workers of P_w or P_y outside P_x get a tensor without elements, and workers outside all three partitions the gradient they passed.", "quantifier": "all partitions 1 x ci x S, 1 x co x S, co x ci x S on any ranks, disjoint or overlapping, all input layouts (balanced or not), channel counts, kernels, strides, paddings, dilations, weights, biases, inputs and gradients in any commutative ring, all schedules of the halo exchange and all earlier calls of the same shape", "why_tests_cant": "Correctness needs the adjoint halo exchange, the slices, two broadcasts and a sum-reduction to compose to the exact transpose; tests compare a few configurations on few workers, where missing or doubled halo contributions can vanish.", "anchors": ["src/distdl/nn/conv_general.py:536", "src/distdl/nn/conv_general.py:567", "src/distdl/nn/conv_general.py:570", "src/distdl/backends/mpi/functional/halo_exchange.py:77"]}
{"id": "C56", "title": "All gradients of distributed batch normalisation equal the sequential layer's", "statement": "DistributedBatchNorm, for any call (in training or evaluation, with or without tracked statistics, affine or not, in any state its history can have left): given the output's gradient in the blocks of the input's layout, the backward pass raises nothing and gives every worker its block of the sequential layer's input gradient, including what flows through the global mean and variance, and gives the workers of P_sum, which hold gamma and beta, the gradients of their channels, summed over the entries of all workers. The gradient is the only tensor whose product with every direction of input, gamma and beta is the rate of change of the loss; over the real numbers, with eps > 0, that rate is the derivative of the sequential layer's loss.", "quantifier": "all partitions of at least two dimensions on any ranks, all layouts of batch and features, all channel counts, inputs, parameters, statistics, eps, momentum and gradients in any commutative ring with a division by multiplication with inverses and any square root", "why_tests_cant": "The gradient passes twice through a sum-reduction and a broadcast (mean and variance); a missing path or a doubled contribution only shows for particular gradients, and tests compare a few tensors within a tolerance.", "anchors": ["src/distdl/nn/batchnorm.py:133", "src/distdl/nn/batchnorm.py:158", "src/distdl/nn/batchnorm.py:225", "src/distdl/nn/batchnorm.py:229", "src/distdl/backends/mpi/functional/broadcast.py:134"]}
{"id": "C57", "title": "The gradient of distributed max pooling equals the sequential layer's", "statement": "DistributedMaxPool{1,2,3}d on parameters where its output is the sequential one (C30): every worker's windows hold the same values as the sequential layer's, so it chooses the same elements, and given the output's gradient in its blocks the backward pass (scatter to the chosen elements, slice, halo exchange backwards, padding) raises nothing and gives every worker its block of the sequential input gradient, for every choice that depends on the window's values only; contributions to chosen elements in a neighbour's block arrive there, those to padding are dropped. Workers outside the partition get their cotangent. Where a change of the input leaves the choices alone, the loss changes by exactly its product with this gradient. torch's choice is the first of the greatest elements in row-major order and never a padding element if the window has another.", "quantifier": "all partitions, layouts and windows (kernel, stride, padding, dilation) as in C30, all tensors including those with equal elements, all rings of values, all histories and interleavings of both passes", "why_tests_cant": "Ties and windows across block borders decide where the gradient goes; a different scan order or a border window seeing padding instead of the neighbour's data changes a few elements for particular inputs only.", "anchors": ["src/distdl/nn/pooling.py:109", "src/distdl/nn/pooling.py:286", "src/distdl/nn/pooling.py:298", "src/distdl/nn/pooling.py:300", "src/distdl/backends/mpi/functional/halo_exchange.py:131"]}
{"id": "C58", "title": "Networks of distributed layers: output and gradient of any sequence of passes, without synchronisation", "statement": "A network of sliding-window layers (feature-distributed convolutions with bias, average and max pools) and pointwise torch layers such as ReLU on one partition, every layer as in C30: for every sequence of forward and backward passes of such networks, where workers run ahead from layer to layer and from pass to pass and all halo exchanges share the partition's communicator and two tags, no worker ever waits forever or raises, every posted request completes exactly once, and in the end every worker holds, for every pass, its block of the output of the sequential network and its block of the gradient for the sequential network's input. A message of one layer or pass is never taken for another's; the output blocks of a layer are the blocks the next was set up for; the values kept for the backward pass are used in the reverse order. The gradient satisfies the chain rule: against any direction of the input it gives the derivative of the output along it.", "quantifier": "all networks of any depth (windows, kernels, weights, slopes), all sequences of uses with any tensors, all partitions and worlds, all interleavings and eager/rendezvous choices, all rings of values", "why_tests_cant": "Tags and communicators are reused by every layer, so a confusion of messages needs a worker that is one or more layers ahead of its neighbour; tests run few layers with nearly synchronous workers.", "anchors": ["src/distdl/nn/conv_feature.py:357", "src/distdl/nn/pooling.py:276", "src/distdl/nn/halo_exchange.py:140", "src/distdl/backends/mpi/functional/halo_exchange.py:51", "src/distdl/backends/mpi/functional/halo_exchange.py:117"]}
{"id": "C59", "title": "Padding modes: the sequential layer's output or an error, never other numbers", "statement": "Convolutions in the modes 'zeros', 'reflect', 'replicate' and 'circular'. DistributedChannelConv, where C33 holds, gives every worker of P_y its block of the sequential output in every mode, since each worker pads whole feature dimensions of its own channels. DistributedFeatureConv and DistributedGeneralConv on one worker give the sequential output in every mode. On several workers, in a mode other than 'zeros', every worker that has to pad (it holds the first or last block of a padded dimension, or it receives entries of a neighbour) raises torch's error for the list of paddings, which covers the batch and channel dimensions too; and whenever no worker raises and the outputs are within reach (C30's condition), they are the blocks of the sequential output in that mode, after any earlier calls and in any interleaving.", "quantifier": "all modes, partitions, worlds, layouts, 1 to 3 feature dimensions, kernels, strides, paddings, dilations that torch accepts for the mode, weights, biases and inputs in any commutative ring, all earlier calls, all interleavings and eager/rendezvous choices", "why_tests_cant": "The tests use the default mode. Whether an unsupported mode gives an error or silently pads block borders inside the tensor depends on the position of the worker and on the window, over all of which the claim ranges.", "anchors": ["src/distdl/nn/conv_feature.py:380", "src/distdl/nn/conv_general.py:557", "src/distdl/nn/conv_channel.py:209"]}
{"id": "C60", "title": "Sliding-window layers in machine arithmetic: some output of the sequential layer, bit for bit", "statement": "Whatever relation holds between the values of a window and the numbers that torch's convolution or pool may compute from them (torch may round, add in another order on another worker, or treat positions in a tensor differently): after a forward pass of DistributedPool or DistributedFeatureConv, where the outputs are within reach (C30's condition), the workers hold the blocks of one tensor every element of which is a number the sequential torch layer may compute, for the same window of the padded global tensor and with the parameters of the first worker. If torch computes a function of the window, any function of the bits of the elements, the blocks have exactly the bits of the sequential layer's output: padding, exchange, slicing and the broadcast of the parameters change no bit, and the split of the tensor over workers is not visible in rounding errors.", "quantifier": "all relations and functions on windows that look only at the window, all behaviours of torch on each worker that conform to them, all word sizes, partitions, worlds, layouts, windows, tensors, all earlier calls, all interleavings and eager/rendezvous choices", "why_tests_cant": "Tests compare floating-point outputs with a tolerance for a few kernels; here the arithmetic is arbitrary and may differ between workers.", "anchors": ["src/distdl/nn/conv_feature.py:357", "src/distdl/nn/pooling.py:276", "src/distdl/nn/halo_exchange.py:140", "src/distdl/backends/mpi/functional/broadcast.py:60"]}
{"id": "C61", "title": "Reductions and linear layers in machine arithmetic: every term once, in some order", "statement": "Whatever addition, multiplication and fused multiply-add compute (no law is assumed, so any floating-point format is meant), and in whatever order MPI_SUM and torch add: SumReduce gives each destination, and the backward pass of Broadcast each source, a number that can be computed as the sum of exactly the contributions of the workers paired with it, each used once and nothing else but zeros; AllSumReduce gives each worker such a sum over the workers that agree with it on the kept axes, and two of these have the same bits if the reduction serves its members alike. DistributedLinear leaves on the workers the blocks of one possible result of the sequential layer's sums (products of the whole input row with the weight row, and the bias once), and its backward pass the blocks of possible input, weight and bias gradients; distribution only changes the order of summation. In exact arithmetic the only possible value is the sum.", "quantifier": "all machine operations, all orders and bracketings of MPI_SUM per worker and group, all conforming torch kernels per worker, all accepted partitions, worlds, shapes, tensors", "why_tests_cant": "Tests compare floating-point results with a tolerance, which hides a term dropped or counted twice when it is small, and use one MPI implementation with one order of summation.", "anchors": ["src/distdl/backends/mpi/functional/sum_reduce.py:32", "src/distdl/backends/mpi/functional/broadcast.py:134", "src/distdl/backends/mpi/functional/all_sum_reduce.py:32", "src/distdl/nn/linear.py:85"]}
{"id": "C62", "title": "Rounding errors of distributed reductions and linear layers are bounded like sequential ones", "statement": "In any IEEE 754 binary format (half, bfloat16, single, double, ...) with rounding to nearest even, and for every order in which MPI_SUM and torch add: each element of the output of SumReduce, of the backward pass of Broadcast, of AllSumReduce, and of the output, input gradient, weight gradient and bias gradient of DistributedLinear, if it is a finite number, comes from finite terms and differs from the exact sum of its n terms (products of elements of the global tensors) by at most ((1+u)^n - 1) times the sum of their absolute values plus n (1+u)^n times half the smallest positive number, u being half a unit in the last place of 1; and it is finite if the terms are finite and their absolute values plus that error stay below the overflow limit. The sequential layer satisfies the same bound, so both differ by at most twice that. The number of workers does not enter.", "quantifier": "all formats, all orders and bracketings of the sums, fused or not, per worker, all accepted partitions, shapes, tensors (including ones with infinities and NaN)", "why_tests_cant": "Tests compare with a fixed tolerance on a few random tensors; the bound holds for all data, including cancellation, underflow and sizes at the edge of overflow.", "anchors": ["src/distdl/backends/mpi/functional/sum_reduce.py:32", "src/distdl/backends/mpi/functional/broadcast.py:134", "src/distdl/backends/mpi/functional/all_sum_reduce.py:32", "src/distdl/nn/linear.py:85"]}
{"id": "C63", "title": "Training a network of distributed layers equals sequential training", "statement": "For any network built from DistributedLinear, the channel, general and feature convolutions, average and max pooling, DistributedBatchNorm in training mode, DistributedUpsample, Repartition, elementwise activations and reshapes that keep the batch, in which each layer finds the tensor where the previous one leaves it, with a distributed loss (sum, mean or batchmean) and an optimizer that treats elements one by one (SGD, momentum, weight decay, Adam, ...): training on any sequence of inputs and targets completes on all workers in every execution, no layer raises, and after it the workers hold the blocks of exactly the parameters and optimizer states that training the sequential network on the whole tensors gives, and the first worker of the loss has returned exactly the sequential losses. Every parameter block has one home, is updated there once per step, and what other workers hold in place of parameters and tensors never matters.", "quantifier": "all networks of these layers, all partitions and layouts accepted by each layer, all numbers of training steps, all data, all elementwise optimizers, all executions of the halo exchanges and repartitions after any earlier calls, all commutative rings", "why_tests_cant": "The repository has no test that chains layers and trains; whether placeholders of inactive workers, leftovers of earlier calls or parameters without a home leak into later steps shows only after several layers and steps.", "anchors": ["src/distdl/nn/linear.py:85", "src/distdl/nn/conv_general.py:536", "src/distdl/nn/conv_channel.py:323", "src/distdl/nn/conv_feature.py:357", "src/distdl/nn/pooling.py:276", "src/distdl/nn/repartition.py:328", "src/distdl/nn/loss.py:129", "src/distdl/nn/batchnorm.py:188", "src/distdl/nn/upsampling.py:262"]}
{"id": "C64", "title": "Sequential printing: every value once, in rank order, whatever the timing", "statement": "If the workers of a program call print_sequential any number of times, on any partitions, with any values, then every execution ends without getting stuck, whether or not MPI buffers the messages; each worker has then printed, for the calls on partitions of which it is the first worker and in the order of these calls, the values of all workers of the partition in rank order, each once, and nothing else; at any moment before it has printed an initial piece of that. Workers outside a partition neither print nor communicate.", "quantifier": "all numbers of workers and calls, all partitions and rank orders, all values, all interleavings and bufferings", "why_tests_cant": "No test calls print_sequential, and a test sees one interleaving of one machine's MPI; a slow worker overtaken by its own next call, or a send that blocks, needs a different schedule.", "anchors": ["src/distdl/utilities/debug.py:4", "src/distdl/backends/mpi/partition.py:180"]}
{"id": "C65", "title": "allreduce_data and allgather_data combine the data of all workers", "statement": "If all workers of a partition call allreduce_data with arrays of one shape and type and the same operation, each of them obtains an array of that shape whose entries are the sum, product, maximum or minimum of the workers' entries; an unknown operation raises ValueError on all of them, and a maximum or minimum of booleans or complex numbers raises UnboundLocalError on all of them, before any communication, so that none waits. allgather_data of integers (scalars or one-dimensional arrays of one positive length) gives every worker the array whose row r is the data of the worker with rank r. compute_subtensor_shapes_unbalanced therefore gives every worker, at each worker's Cartesian index, the extents of that worker's tensor.", "quantifier": "all partitions, shapes, integer entries, operations and element types", "why_tests_cant": "The tests only reach the sum of non-negative shape arrays on a few partitions; the other operations, the exceptions and rank orders that differ from the world's are never exercised.", "anchors": ["src/distdl/backends/mpi/partition.py:838", "src/distdl/backends/mpi/partition.py:866", "src/distdl/backends/mpi/__init__.py:22", "src/distdl/backends/mpi/tensor_decomposition.py:32"]}
{"id": "C66", "title": "Subtopologies: workers that agree in the dropped dimensions", "statement": "For boolean flags, one per dimension, create_cartesian_subtopology_partition gives each worker of a Cartesian partition a Cartesian partition with the flagged extents as shape, whose workers are exactly those that agree with it in all other dimensions, each at the index made of its flagged coordinates; all these workers obtain the same partition, and workers outside the original partition obtain an inactive one. The groups over which the extents of a dimension are summed for the global tensor shape are those of the single flag. Flags given as integers 0 and 1 give a shape that does not fit the workers.", "quantifier": "all Cartesian partitions of any number of dimensions, all flags, all workers", "why_tests_cant": "The function is only reached with a single flag in shape assembly; several flags, none, or integer flags are never tried, and the shape of the result is never compared with its workers.", "anchors": ["src/distdl/backends/mpi/partition.py:990", "src/distdl/backends/mpi/tensor_comm.py:107"]}
{"id": "C67", "title": "Releasing partitions: nothing is released twice, the others stay usable, no communicator is left behind", "statement": "After any sequence of calls that create or deactivate partitions, whether or not some of them raised, no communicator or group was freed twice and MPI.COMM_WORLD was never freed; each active partition's communicator and group exist, and no two active partitions share one, except MPI.COMM_WORLD. deactivate frees the partition's communicator and changes no other partition, in any order and also when repeated. Calls fail for want of a handle only if given a released or null partition. Communicators that a call created and did not free belong to the partitions it returned, so that releasing all partitions leaves only MPI.COMM_WORLD, if no call raised. If all partitions come from MPI.COMM_WORLD, unions, broadcast and reduction partitions of partitions that were not released can always be created. Groups, however, are left behind, communicators are when a call raises, and with another root than MPI.COMM_WORLD, releasing the first partition makes unions of those derived from it raise.", "quantifier": "all sequences of calls on any number of partitions, all outcomes of membership and of shape checks", "why_tests_cant": "Tests release each partition once, at the end, in a fixed order; a double free or a leak of handles shows only after thousands of layers, or not at all.", "anchors": ["src/distdl/backends/mpi/partition.py:117", "src/distdl/backends/mpi/partition.py:214", "src/distdl/backends/mpi/partition.py:394", "src/distdl/backends/mpi/partition.py:579"]}
{"id": "C68", "title": "Interpolation kernels on any number of threads and memory layout; division by zero", "statement": "The interpolation kernels return the tensor of a sequential execution of their loop for every number of threads, inside or outside another parallel region, every interleaving of the threads and every strides of the input tensor: the ranges that the threads work on follow each other without gap or overlap, and at most as many threads as available are used. The kernels divide by zero (which ends the process) exactly when they are called in linear mode for an output with a feature dimension of extent zero. In a distributed upsampling layer these are exactly the workers whose index in a feature dimension is at least the global output extent, so some worker does if and only if the mode is linear and a feature dimension has fewer outputs than workers.", "quantifier": "all numbers of threads and schedules, all strides, shapes of one to three feature dimensions, modes, scale factors, floating-point arithmetics, Cartesian partitions", "why_tests_cant": "Test tensors are far smaller than the grain size, so the loops always run on one thread, and every worker has outputs in all tests.", "anchors": ["src/distdl/functional/interpolate/src/interpolate_linear_cpu.cpp:237", "src/distdl/functional/interpolate/src/interpolate_linear_cpu.cpp:497", "src/distdl/functional/interpolate/src/interpolate_constant_cpu.cpp:183", "src/distdl/nn/upsampling.py:283"]}
{"id": "C69", "title": "Distributed upsampling returns the blocks of the sequential gradient", "statement": "The backward pass of DistributedUpsample, given the blocks of the gradient of the sequential output: on every worker nothing raises, the halo exchange neither blocks nor overtakes, and the gradient of the input is the worker's block of the gradient of sequential interpolation of the assembled tensor (every output's gradient, weighted by the output's share of the element, added up), for every number of previous calls and every interleaving of the messages; workers outside the partition return the gradient they were given. That sequential gradient is the transpose of the sequential interpolation.", "quantifier": "all partitions, tensors of 3 to 5 dimensions, extents, sizes and scale factors, gradients, call histories, message interleavings and buffering behaviours", "why_tests_cant": "The repository's tests of the layer check the adjoint relation only, which also holds for a layer that interpolates from the wrong elements; where blocks of input and output lie far apart (9 elements to 14 on 7 workers) gradients are lost without an error.", "anchors": ["src/distdl/nn/upsampling.py:262", "src/distdl/functional/interpolate/interpolate.py:104", "src/distdl/backends/mpi/functional/halo_exchange.py:77"]}
{"id": "C70", "title": "Channel- and generally-distributed convolutions in machine arithmetic: every product once, in some order", "statement": "Whatever addition, multiplication and fused multiply-add compute (no law is assumed), in whatever order MPI_SUM and torch add, and whether or not torch multiplies the padding: the workers of P_y of DistributedChannelConv and DistributedGeneralConv get the blocks of one tensor, each entry of which can be computed as a sum of the products of the sequential layer at that output (the weights with the values of the assembled input under the window), each used once, and the bias once; only products with padding may be missing. This is what the sequential layer promises, so distribution only changes the order of summation. In exact arithmetic the only such tensor is the sequential output.", "quantifier": "all machine operations, all orders and bracketings of MPI_SUM per worker and group, all conforming torch kernels per worker, all partitions P_x, P_y, P_w that C33 permits (ungrouped or undivided channels), kernels, strides, paddings, dilations, tensors, with and without bias; for features distributed: all blocks with the windows within reach of the halo (C30), call histories, message interleavings and buffering", "why_tests_cant": "Tests compare floating-point results with a tolerance on a handful of shapes; a bias added once per input-channel worker or a channel counted twice can hide for small values, and one MPI implementation adds in one order.", "anchors": ["src/distdl/nn/conv_channel.py:323", "src/distdl/nn/conv_general.py:536", "src/distdl/backends/mpi/functional/sum_reduce.py:32"]}
{"id": "C71", "title": "Rounding errors of distributed convolutions are bounded like sequential ones", "statement": "In any IEEE 754 binary format with rounding to nearest even, for every order of summation: each entry of the output of DistributedChannelConv and DistributedGeneralConv, if it is a finite number, comes from finite factors (those under the padding aside) and a finite bias, and differs from the exact convolution of the assembled tensors by at most ((1+u)^n - 1) times the sum of the absolute values of its n terms plus n (1+u)^n times half the smallest positive number; and it is finite if the terms are finite and their absolute values plus that error stay below the overflow limit. The sequential layer satisfies the same bound on every worker, so that both differ by at most twice that. The number of workers does not enter.", "quantifier": "all formats, all orders and bracketings of the sums, fused or not, per worker, all partitions, windows and executions of C70, all tensors (including ones with infinities and NaN)", "why_tests_cant": "Tests compare with a fixed tolerance on a few random tensors; the bound holds for all data, including cancellation, underflow and sizes at the edge of overflow.", "anchors": ["src/distdl/nn/conv_channel.py:323", "src/distdl/nn/conv_general.py:536", "src/distdl/backends/mpi/functional/sum_reduce.py:32"]}
{"id": "C72", "title": "Equality of partitions", "statement": "P == Q holds, after any sequence of creations and releases of partitions, exactly when both are active on the worker and P and Q are the same object or both wrap MPI.COMM_WORLD. So == is symmetric and transitive, reflexive exactly while the partition is active, and not changed by later calls unless one of the two is released; partitions that different calls created are never equal, even with the same workers and shape. P_send == P_recv holds after create_broadcast_partition_to and create_reduction_partition_to exactly when the worker has both groups and they are the same. Broadcast and SumReduce therefore decide alike on all workers of P_x and P_y whether they do nothing, which they do exactly if P_x == P_y and, with more than one worker, neither or both are transposed.", "quantifier": "all sequences of partition calls on all workers, including ones that raise, all communicators and groups", "why_tests_cant": "Tests compare a few partitions once; that two layers' partitions are never taken for each other, whatever was created and released before, is a statement about all histories.", "anchors": ["src/distdl/backends/mpi/partition.py:149", "src/distdl/backends/mpi/compare.py:4", "src/distdl/nn/broadcast.py:96", "src/distdl/nn/sum_reduce.py:95"]}
{"id": "C73", "title": "Every trainable parameter belongs to exactly one worker", "statement": "For DistributedLinear, the distributed feature, channel and general convolutions and DistributedBatchNorm: every element of the weight and the bias (gamma and beta) of the sequential layer is an element of a tensor that `parameters()` yields on exactly one worker; what a worker lists under that name are elements of the sequential parameter, each in one place; no worker lists a parameter twice, although the convolutions hold the same tensor under two names; nothing else is listed. The workers that hold no part have empty buffers instead (convolutions). The constructors of convolutions with distributed channels return when channels are not grouped or not distributed (and a lone worker of P_w is the only worker); the rest holds whenever they return on all workers.", "quantifier": "all partitions of the documented shapes with any placement of workers, all numbers of features and channels (also fewer than workers), kernel sizes and groups, with and without bias, affine parameters and running statistics", "why_tests_cant": "The tests compare outputs and gradients for a few layouts; a parameter trained on two workers or on none, or an element lost between two blocks, only shows up in training, and which blocks are cut depends on remainders of the channel counts.", "anchors": ["src/distdl/nn/linear.py:67", "src/distdl/nn/conv_feature.py:164", "src/distdl/nn/conv_channel.py:184", "src/distdl/nn/conv_general.py:229", "src/distdl/nn/batchnorm.py:59"]}
{"id": "C74", "title": "Gradients of channel-distributed convolutions sum every product once, in any arithmetic", "statement": "In machine arithmetic (addition, multiplication and fused multiply-add obey no law), backward of DistributedChannelConv delivers: on the workers of P_x the blocks of an input gradient each of whose elements is a sum, in some order and bracketing, of exactly the products of weights and output gradients of the sequential layer's, each once; on the workers of P_w the blocks of a weight gradient, each element a sum of the products of inputs and output gradients (those with padding may be missing), and on those with a bias the blocks of a bias gradient, each element a sum of the output gradients of its channel; the other workers have no bias gradient. Workers outside P_x get tensors without elements or their own gradient. With exact arithmetic exactly the gradients of the sequential layer satisfy this.", "quantifier": "all arithmetics, all orders and bracketings per worker and element, fused or not, all partitions, windows, groups and channel counts of C33, with and without bias, all tensors", "why_tests_cant": "Tests compare gradients with a tolerance for a few layers; a product counted twice or missing can stay below it, and orders of summation differ from run to run.", "anchors": ["src/distdl/nn/conv_channel.py:323", "src/distdl/backends/mpi/functional/broadcast.py:134", "src/distdl/backends/mpi/functional/sum_reduce.py:140"]}
{"id": "C75", "title": "Rounding errors of the gradients of channel-distributed convolutions are bounded like sequential ones", "statement": "In any IEEE 754 binary format with rounding to nearest even, for every order of summation: each entry of the gradients for input, weight and bias that DistributedChannelConv computes, if it is a finite number, comes from finite factors (those under the padding aside) and differs from the exact gradient of the sequential layer by at most ((1+u)^n - 1) times the sum of the absolute values of its n terms plus n (1+u)^n times half the smallest positive number; and it is finite if the terms are and their absolute values plus that error stay below the overflow limit. The sequential layer's gradients satisfy the same bounds, so that both differ by at most twice that. The number of workers does not enter.", "quantifier": "all formats, orders and bracketings per worker, fused or not, all layers of C74, all tensors (including ones with infinities and NaN)", "why_tests_cant": "Tests compare with a fixed tolerance on a few random tensors; the bound holds for all data, including cancellation, underflow and sizes at the edge of overflow.", "anchors": ["src/distdl/nn/conv_channel.py:323", "src/distdl/backends/mpi/functional/broadcast.py:134"]}
{"id": "C76", "title": "Backward halo exchange adds the cotangents of all copies once, in any arithmetic", "statement": "HaloExchange.backward, in machine arithmetic (an addition that obeys no law), at any point of any history of forward and backward calls: an entry of a worker's block becomes a sum, in some order and bracketing, of exactly the cotangents at the entries of all workers that are copies of it (its own and those in halos, also across corners), each once; nothing is left in the halos but zeros; workers outside the partition get their cotangent back. A forward call at any point of such a history still fills the halos with the neighbours' entries (C25). Every execution ends, whatever the addition and the order in which messages arrive.", "quantifier": "all partitions, block layouts, halos no wider than the adjacent block, tensors, histories of calls, additions, MPI schedules (order of message completions, buffered or synchronous sends)", "why_tests_cant": "Tests check the adjoint identity with a tolerance for a few layouts and the schedule that happened; a cotangent added twice in a corner can cancel or stay below the tolerance.", "anchors": ["src/distdl/backends/mpi/functional/halo_exchange.py:133", "src/distdl/nn/halo_exchange.py:140"]}
{"id": "C77", "title": "Reproducibility and rounding errors of backward halo exchanges", "statement": "In any IEEE 754 binary format each entry that HaloExchange.backward returns for a block differs from the exact sum of the cotangents of its copies by at most the bound of C62, and the results of two executions differ by at most twice that. Claim: two executions of the same history of calls give the same results, bit by bit. This is so, whatever the addition, if no entry of a block lies in the halos of both neighbours in one dimension.", "quantifier": "all formats, partitions, layouts, plans, histories and schedules", "why_tests_cant": "The order of Waitany's completions differs from run to run; tests compare with a tolerance and cannot enumerate the schedules.", "anchors": ["src/distdl/backends/mpi/functional/halo_exchange.py:119", "src/distdl/backends/mpi/functional/halo_exchange.py:133"]}
{"id": "C78", "title": "Gradients of feature-distributed convolutions sum every product once, in any arithmetic", "statement": "DistributedFeatureConv{1,2,3}d in machine arithmetic (addition, multiplication and fused multiply-add that obey no law): the gradients of the input on the workers are the blocks of one tensor, each entry of which is a sum, in some order and bracketing, of exactly the products of the sequential layer's input gradient, each once. The gradients of the root's weight and bias are such sums of the products of the sequential layer's (products with padding may be missing for the weight). Workers outside the partition get their cotangent back. The halo exchanges end in every schedule. With exact arithmetic these are the gradients of C53.", "quantifier": "all arithmetics, partitions (one worker along channels), block layouts, kernels, strides, paddings, dilations, groups, tensors, cotangents, earlier calls, MPI schedules and reduction orders", "why_tests_cant": "The gradient checks compare adjoints with a tolerance on a few shapes: a product that is lost or counted twice in a halo for another layout, or in another arrival order of the messages, stays unseen.", "anchors": ["src/distdl/nn/conv_feature.py:357", "src/distdl/nn/conv_feature.py:391", "src/distdl/backends/mpi/functional/halo_exchange.py:133", "src/distdl/backends/mpi/functional/broadcast.py:160"]}
{"id": "C79", "title": "Rounding errors of the gradients of feature-distributed convolutions", "statement": "In any IEEE 754 binary format: if an entry of the input, weight or bias gradient that DistributedFeatureConv{1,2,3}d computes is finite, it differs from the exact gradient of the sequential layer by at most the bound of C62 for the products it sums; so do the sequential layer's own gradients on any worker. Two results thus differ by at most twice that (C75).", "quantifier": "all formats, partitions, layouts, layers, tensors, schedules and reduction orders", "why_tests_cant": "Tests choose a tolerance by hand; no finite set of runs bounds the error for all inputs and orders of summation.", "anchors": ["src/distdl/nn/conv_feature.py:357", "src/distdl/nn/conv_feature.py:391"]}
{"id": "C80", "title": "Distributed losses sum the loss of every element once, in any arithmetic", "statement": "DistributedL1Loss, MSELoss, PoissonNLLLoss, BCELoss, BCEWithLogitsLoss and KLDivLoss in machine arithmetic (an addition, an elementwise loss and a division that obey no law): with a reduction the first worker returns the quotient of a sum, in some order and bracketing, of the losses of exactly all elements of the assembled tensors, each once, by their number (\"mean\"), by the extent of the batch (\"batchmean\") or by 1 (\"sum\"); the other workers return a zero. The gradients are the blocks of one tensor, bit for bit the same for every partition and every order of additions. Without reduction, losses and gradients are the blocks of the sequential ones, bit for bit. With exact arithmetic the sum is that of C35.", "quantifier": "all arithmetics, elementwise losses, reductions, partitions, block layouts (also unequal), tensors, cotangents and reduction orders", "why_tests_cant": "Tests compare a few losses with torch's up to a tolerance; an element that is lost or counted twice for another layout changes a mean by less than the tolerance.", "anchors": ["src/distdl/nn/loss.py:129", "src/distdl/nn/loss.py:80", "src/distdl/nn/loss.py:239"]}
{"id": "C81", "title": "Rounding errors of distributed losses", "statement": "In any IEEE 754 binary format, with a division rounded to nearest and a divisor that is exact in the format: if the loss on the first worker is finite, it differs from the exact quotient of the sum of the losses of the elements by at most (1 + u) E / n + u |S / n| + eta, where S is the sum, E the bound of C62 for a sum of so many numbers, u the unit roundoff and eta half the smallest positive number; then all losses of elements are finite. The loss is finite if these are and the sum of their magnitudes with E is below the overflow threshold.", "quantifier": "all formats, elementwise losses, partitions, layouts, tensors and reduction orders", "why_tests_cant": "Tests choose a tolerance by hand; no finite set of runs bounds the error for all inputs and orders of summation.", "anchors": ["src/distdl/nn/loss.py:171", "src/distdl/nn/loss.py:177"]}
{"id": "C82", "title": "Batch normalisation sums every entry of a channel once, in any arithmetic", "statement": "DistributedBatchNorm in machine arithmetic (operations that obey no law), from construction through any history of calls: there is one sequential run with the same operations, such that in every call each worker's output is, bit for bit, its block of that run's output, and afterwards each worker holds, bit for bit, that run's running mean and variance of its channels (and its count of calls for a cumulative average). In that run the mean of a channel, in training or without tracking, is the quotient of a sum, in some order and bracketing, of exactly all entries of the channel in the assembled input, each once, by their number; the variance is such a quotient for the squared differences from that same mean. So all workers with the same channels use the same bits. With exact arithmetic the mean and variance are those of C34.", "quantifier": "all arithmetics, partitions, block layouts (batch and features also unequal), histories of calls in training and evaluation, affine parameters, momenta and reduction orders, which may differ between calls, workers and elements", "why_tests_cant": "Tests compare with torch's layer up to a tolerance; a worker that uses another rounding of the mean, or an entry that is lost for another layout, stays below it.", "anchors": ["src/distdl/nn/batchnorm.py:119", "src/distdl/nn/batchnorm.py:142", "src/distdl/nn/batchnorm.py:161", "src/distdl/nn/batchnorm.py:188"]}
{"id": "C83", "title": "Rounding errors of the statistics of batch normalisation", "statement": "In any IEEE 754 binary format, with subtraction, squares and division rounded to nearest and a number n of entries per channel that is exact in the format: if the mean of a channel is finite, it differs from the exact mean by at most (1 + u) E / n + u |S / n| + eta, where S is the exact sum of the entries and E the bound of C62 for it. If the variance is finite, so is the mean, and with e the error of the mean and V the exact variance it differs from V by at most Q + ((1 + u)^3 - 1)(V + e^2) + eta + e^2, where Q is the same bound for the sum of the machine's squares. Mean and variance are finite if what is summed is and the sum of the magnitudes with E is below the overflow threshold.", "quantifier": "all formats, partitions, layouts, inputs, states of the layer and reduction orders", "why_tests_cant": "Tests choose a tolerance by hand; no finite set of runs bounds the error for all inputs and orders of summation.", "anchors": ["src/distdl/nn/batchnorm.py:119", "src/distdl/nn/batchnorm.py:142"]}
{"id": "C84", "title": "Feature-distributed convolutions and average pools add every term once, in any arithmetic", "statement": "DistributedFeatureConv and DistributedAvgPool in machine arithmetic (operations that obey no law): with block layouts for which the halos of C28 cover the windows, the workers' outputs are the blocks of one tensor over the balanced layout. For a convolution each entry of it is a sum, in some order and bracketing and with or without fused multiply-add, of exactly the products of the first worker's weight with the values under the window in the assembled input, each once, and of the first worker's bias; only products with padding zeros may be missing. For an average pool each entry is such a sum of the values under the window, each once, padding zeros included, divided by the size of the window. This holds after any earlier calls of the layer, forward or backward, whose additions are machine additions too, in every interleaving; calls do not deadlock. Other workers return their inputs.", "quantifier": "all arithmetics, partitions (channels also split for pools), block layouts, windows, groups, inputs, parameters, earlier calls, interleavings and orders of addition, which may differ between workers and elements", "why_tests_cant": "Tests compare with the sequential layer up to a tolerance on a few layouts; a halo value that is counted twice or a stale one that is added with a small weight stays below it.", "anchors": ["src/distdl/nn/conv_feature.py:357", "src/distdl/nn/pooling.py:276", "src/distdl/backends/mpi/functional/halo_exchange.py:14"]}
{"id": "C85", "title": "Rounding errors of feature-distributed convolutions and average pools", "statement": "In any IEEE 754 binary format: each finite output entry of DistributedFeatureConv differs from the exact sum of the products under its window and the bias by at most the bound of C62 for these terms, and so does the sequential layer's on any worker, so both differ by at most twice this bound (C71). Each finite output of DistributedAvgPool differs from the exact average by at most (1 + u) E / n + u |S / n| + eta, where S is the exact sum of the values under the window, E the bound of C62 for it and n the size of the window, if n is exact in the format. If an output is finite, so are all values and parameters it is computed from, those multiplied with padding excepted; it is finite if they are and the sum of the magnitudes with E is below the overflow threshold.", "quantifier": "all formats, partitions, layouts, windows, groups, inputs, parameters, earlier calls, interleavings and orders of addition", "why_tests_cant": "Tests choose a tolerance by hand; no finite set of runs bounds the error for all inputs and orders of addition.", "anchors": ["src/distdl/nn/conv_feature.py:357", "src/distdl/nn/pooling.py:276"]}
{"id": "C86", "title": "Gradients of average pools add every share once, in any arithmetic", "statement": "Backward pass of DistributedAvgPool in machine arithmetic (operations that obey no law): with block layouts for which the halos of C28 cover the windows, after a forward pass the gradients that the workers return are the blocks of one tensor with the layout of the input. Each entry of it is a sum, in some order and bracketing, of exactly the entries of the output's gradient whose windows see it, each divided by the size of the window, once per window; nothing else enters, in particular nothing from halos that was counted before or from the padding. This holds when the channels are split among workers too, after any earlier calls of the layer, forward or backward, in every interleaving; no worker raises and calls do not deadlock. Workers outside the partition return their own gradient.", "quantifier": "all arithmetics, partitions (channels also split), block layouts, windows, inputs, gradients, earlier calls, interleavings and orders of addition, which may differ between workers and elements", "why_tests_cant": "The adjoint test compares two inner products up to a tolerance on a few layouts; a share that is added twice in one entry and missing in another can cancel, and other orders of messages are not run.", "anchors": ["src/distdl/nn/pooling.py:276", "src/distdl/backends/mpi/functional/halo_exchange.py:77"]}
{"id": "C87", "title": "Rounding errors of the gradients of average pools", "statement": "In any IEEE 754 binary format: each finite entry of the input's gradient of DistributedAvgPool differs from the exact sum of the output's gradients of the m windows that see it, divided by the window's size n, by at most ((1 + u)^(m+1) - 1) A / n + 2 (1 + u)^m m eta, where A is the sum of their magnitudes, if n is exact in the format. If the entry is finite, so are these gradients; it is finite if they are and A / n with the bound is below the overflow threshold.", "quantifier": "all formats, partitions (channels also split), layouts, windows, gradients, earlier calls, interleavings and orders of addition", "why_tests_cant": "Tests choose a tolerance by hand; no finite set of runs bounds the error for all gradients and orders of addition.", "anchors": ["src/distdl/nn/pooling.py:276", "src/distdl/backends/mpi/functional/halo_exchange.py:77"]}
{"id": "C88", "title": "Constructing layers over distributed features: all workers accept the arguments or all refuse them", "statement": "Constructing DistributedAvgPool, DistributedMaxPool or DistributedFeatureConv: a buffer manager of another backend is refused with a ValueError on every worker; apart from that, workers outside of P_x accept all arguments, and the workers of P_x either all construct the layer or all raise a ValueError, before any communication. They construct it exactly if each of kernel_size, stride, padding and dilation is one number or one per feature dimension, the dilation of an average pool is 1, groups divides both numbers of channels, and P_x has at least as many dimensions as features (a lone worker of a convolution needs a padding mode that exists instead; several workers take any string). All keep the same window, one value per feature dimension as given; torch's layer does not pad again; and the padding a worker adds is all of the padding at the border of the global tensor and none between workers or in batch and channel. Constructing DistributedUpsample ends alike on all workers: NotImplementedError for the mode 'cubic', ValueError unless exactly one of size and scale_factor is given and the buffer manager is of the backend.", "quantifier": "all partitions, all arguments, all workers", "why_tests_cant": "Tests construct layers with a few valid arguments; that no worker goes on to wait for one that raised depends on every combination of arguments and partition.", "anchors": ["src/distdl/nn/pooling.py:68", "src/distdl/nn/conv_feature.py:85", "src/distdl/nn/upsampling.py:61"]}
{"id": "C89", "title": "Saving and restoring distributed batch normalisation", "statement": "After any calls of DistributedBatchNorm every worker can save its state_dict and load it into a newly constructed layer with the same arguments and partition; the new layer then gives, for any further calls, the outputs (or exceptions) and running statistics that the old layer would have given.", "quantifier": "all partitions, arithmetics, constructor arguments, histories of calls before and after saving", "why_tests_cant": "Tests never restore a layer; that the restored layer behaves the same concerns all histories before and after.", "anchors": ["src/distdl/nn/batchnorm.py:57", "src/distdl/nn/batchnorm.py:84", "src/distdl/nn/batchnorm.py:161"]}
{"id": "C90", "title": "Batch normalisation refuses inputs it cannot normalise", "statement": "An input of DistributedBatchNorm whose global number of channels is not num_features raises a ValueError on every worker of the partition and leaves the layer as it was: all later calls give what they would have given without it. For an input with num_features channels that are distributed over the workers in any way, each worker that returns has its block of the sequential layer's output.", "quantifier": "all partitions, arithmetics, layer arguments, states, cuts of batch, channels and features, inputs, later calls", "why_tests_cant": "Tests use balanced tensors with the right number of channels only.", "anchors": ["src/distdl/nn/batchnorm.py:198", "src/distdl/nn/batchnorm.py:228"]}
{"id": "C91", "title": "Workers outside of a layer's partitions get their input back and influence nobody", "statement": "A worker that is in none of the partitions of a layer and calls it like all others gets its own input (in a backward pass, its own cotangent) back, and the result of every other worker is the same whatever that worker holds. This holds for Broadcast, SumReduce, AllSumReduce, DistributedLinear, the channel, general and feature convolutions, the losses and batch normalisation.", "quantifier": "All partitions, also incompatible ones, all transpose flags, all inputs and cotangents of all workers, all parameters, all workers inside and outside.", "why_tests_cant": "Tests run few partitions on few workers and compare against fixed values; they never vary what idle workers hold, and the losses are tested with every worker active.", "anchors": ["src/distdl/nn/broadcast.py:121", "src/distdl/nn/sum_reduce.py:120", "src/distdl/nn/all_sum_reduce.py:91", "src/distdl/nn/linear.py:95", "src/distdl/nn/conv_channel.py:333", "src/distdl/nn/conv_general.py:546", "src/distdl/nn/conv_feature.py:367", "src/distdl/nn/loss.py:159", "src/distdl/nn/batchnorm.py:60"]}
