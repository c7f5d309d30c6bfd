# Formal model of distdl in Rocq/Coq 8.16.1

Sources modelled: `/repo/src/distdl` (Python, plus the C++ interpolation
kernels). Every definition in a `Model*.v` file carries a comment with the file
and lines it mirrors. Proofs are kept out of the model files.

## Layout of `rocq/theories`

| file pattern   | content |
|----------------|---------|
| `Prelude.v`, `Ring.v`, ... | general lemmas (lists, integers, finite sums over an arbitrary commutative ring) |
| `Model*.v`     | executable transcription of the code, no proofs |
| `Spec*.v`      | small specifications that do not use the model's helpers |
| `Proof*.v`     | lemmas relating the two |
| `Prop*.v`      | the theorems named in `MANIFEST.json`, each followed by a concrete non-trivial `Example` and `Print Assumptions` |

## Modelling conventions

* Integers are unbounded `Z` (numpy int64 overflow is not modelled). Shapes,
  indices and rank lists are `list Z` / `list nat`.
* Python/numpy exceptions are values (`option` or an error sum).
* A tensor is a shape together with a function from multi-indices to elements;
  two tensors are equal when shapes agree and elements agree on valid indices.
* Elements live in an arbitrary commutative ring (record `CRing`), so the
  results hold for Z, Q, R, ...; rounding is modelled in C60, where what torch
  computes from a window is an arbitrary relation, and in C61, where sums are
  evaluated with operations that satisfy no law, in any order and bracketing (C70, C74 and C78 for
  convolutions, C76 for halo exchanges, C80 for losses, C82 for batch normalisation, C84 and C86 for feature-distributed layers; torch's gradient of an average pool adds the shares dy / n); C62
  specialises these to IEEE 754.
  Where the code uses floating point to compute *indices*
  (`_compute_out_shape`, interpolation), this is said explicitly.
* A partition is the list of world ranks it contains plus a shape. MPI
  communicator/group creation is modelled by its effect on rank lists.
* MPI point to point: every worker runs a list of rounds; a round posts
  receives and sends and then consumes completions in any order. Messages
  travel on FIFO channels per (source, destination, tag). The step relation is
  nondeterministic, and theorems quantify over all executions.
* MPI collectives: a worker's program is a list of post/wait instructions on
  communicators; a wait on the n-th collective of a communicator is enabled
  once all members have posted n collectives on it (the most pessimistic
  semantics allowed by MPI).

## Plan per property

| id | what is modelled | how it is proved |
|----|------------------|------------------|
| C01 | `compute_subshape/start/stop` n-d over Z | 1-d div/mod lemma, lifted to lists by induction |
| C02 | same | div/mod inequalities, sum by induction on the number of workers |
| C03 | shape arrays as functions from worker index to shape; cumsum and shift per dimension | prefix-sum induction; unbalanced layouts given by per-dimension extents |
| C04 | `range_index`, `cartesian_index_c/f`, `worker_layout` | induction on the dimension list |
| C05 | `compute_intersection`, `*_intersection_slice` | membership characterisation, per dimension |
| C06 | `filtered_range_index`, `assemble_index_filter` | characterisation of list filter |
| C07 | `create_broadcast_partition_to` incl. both exceptions, allgathers, group building | flat index injectivity on matching dimensions |
| C08 | same, with one transposed side | expected to be violated (flat C order against flat F order): refutation with a witness, and the positive theorem for the cases in which it holds |
| C09 | `create_reduction_partition_to` | equality of the two models |
| C10 | group creation order; collective programs | generic progress theorem with a level function (root rank) |
| C11 | `create_allreduction_partition` | filter characterisation + equivalence relation |
| C12 | union/inclusive rank lists, rank lookup of `broadcast_data` | list lemmas (nodup, prefix) |
| C13 | `neighbor_ranks` | row-major arithmetic |
| C14-C16 | Broadcast/SumReduce forward and backward as collective effects per worker | sums over groups, exchange of summation |
| C17 | AllSumReduce | sums over equivalence classes |
| C18-C19 | overlap computation, forward/backward data movement | tiling (C01/C03) + overlap agreement (C05) |
| C20 | request lists with null requests, Waitany loop, message network | invariant + measure + confluence over all executions |
| C21 | the checks in constructor and setup | decision function depends on shared data only |
| C22 | `allocate_repartition_buffers`, `request_buffers` | history induction |
| C23-C24 | buffer as object store with raw arrays and views | invariant by induction over operations; C24 expected to be refuted (stale view after expand) |
| C25 | slices of `_assemble_slices`, dimension-by-dimension exchange | induction over dimensions: after step i all cells with halo in dims <= i are right |
| C26 | backward | each step is adjoint to the corresponding forward step; composition |
| C27 | message plan per dimension | pairwise matching lemma + asynchronous rounds theorem |
| C28 | `_compute_exchange_info` | neighbour arithmetic |
| C29 | `_compute_halo_shape` | per-dimension linear/div arithmetic |
| C30 | padded tensor, needed ranges, local convolution | C25 + C29 + local/global index translation; cases where the code is wrong become refutations |
| C31 | `_compute_out_shape` | integer arithmetic; float division argument |
| C32 | linear layer | block matrix sums |
| C33 | channel/general convolution | block sums over input channels |
| C34 | batch norm statistics | sums over tiles |
| C35 | losses | sums over tiles |
| C36 | `interpolate_mixin` ranges and kernel index functions over exact rationals | floor monotonicity |
| C37 | the forward/adjoint loops | exchange of summation |
| C38 | pre-hook state machine | invariant over call histories |
| C39 | pre-hook on all workers of a global history | expected to be refuted (a change invisible to one worker) |
| C40 | `broadcast_tensor_structure`, `assemble_global_tensor_structure` | MAX over group, progress theorem |
| C41 | the dtype tables | exhaustive computation over a finite type |
| C42 | `distdl_padding_to_torch_padding` against the pad routine's convention | list reversal |
| C43 | `ZeroVolumeCorrectorFunction` | case analysis; shape part expected to fail |
| C44 | `DistributedConvSelector.__new__` | case analysis |
| C45 | setup, use and teardown of communicators as collective programs | local release: level function; synchronous release: refutation by a deadlocked state |
| C46 | backward of the losses | as C35 |
| C47 | the kernels' loops as interleaved assignments | every iteration owns the cells it writes |
| C48 | the whole upsampling layer | C36 ranges + C25 exchange + C37 kernel; blocks that do not reach give a refutation |
| C49 | the backward of the upsampling layer | composition of adjoints (C37, slice, C26, pad) |
| C50 | the backward of the linear layer | C15/C16 backward + block matrix sums |
| C51 | the backward of feature convolution and average pooling | composition of adjoints (window, slice, C26, pad) |
| C52 | the same, against the sequential gradient | C51 + C30 for tensors with a single one |
| C53 | input, weight and bias gradients of the feature convolution | C52; a parameter's gradient is a pairing with a layer that C30 covers, summed by C15 |
| C54 | input, weight and bias gradients of the channel convolution | C50 for the communication, C53 for one worker; blocks of the gradients are sums over a column of workers |
| C55 | input, weight and bias gradients of the general convolution | C54's communication around C51's adjoint halo exchange; parameter gradients are sums over the feature positions |
| C56 | all gradients of batch normalisation | backward of each step is a block of a global tensor or a sum over channel entries; the sequential gradient by dual numbers, which over the reals are derivatives |
| C57 | gradient of max pooling | every window shows the sequential values (C30 for kernels that read one offset), so the choices agree; the scatter is the adjoint of reading the chosen elements |
| C58 | networks of layers | the rounds of all layers and passes form one program of matching rounds, whose executions all agree with lock-step; there every layer is the one of C30, C52 or C57 |
| C59 | padding modes | the sequential layer in a mode is the unpadded layer on the continued tensor; continuation commutes with taking channel blocks; lists of 2 * dims paddings are never accepted, and a layer none of whose workers pads has no padding |
| C60 | window layers in any arithmetic | torch's layers are arbitrary functions, constrained by a relation between a window's values and a result; the windows of the workers are the windows of the padded global tensor (C57's `windows_seen`), gluing the outputs gives a possible output of the sequential layer; functional relations on `word_ring n` give equality of bits |
| C61 | reductions and linear layers in any arithmetic | `evaluates M l r`: r is computed for the sum of the terms l by additions, products and fused products of the machine M, each term used once; the collectives' models take the reduction as a parameter; the list of contributions is shown to be a permutation of the workers paired with the result |
| C62 | rounding errors of reductions and linear layers | tensors of words, decoded by Flocq; induction over the evaluation of a sum: a tree with n terms has at most n roundings above a term, adding zero is exact |
| C63 | training of networks equals sequential training | contract per layer (whatever holds its input in blocks gets output, gradients and parameter gradients in blocks, every execution), proved for each layer from C30-C34, C48-C57, C69, C18-C20; networks by induction over the chain, training by induction over the samples; weakest-precondition style semantics over all executions |
| C64 | `print_sequential` | blocking calls are rounds with one request; every execution of the rounds agrees with lock-step, and lines are only appended |
| C65 | `allreduce_data`, `allgather_data`, their use for layouts | folds over the workers' entries; only one worker contributes to each entry of the layout array |
| C66 | `create_cartesian_subtopology_partition`, numpy's two kinds of indexing | an index is determined by its flagged coordinates and the others |
| C67 | lifetimes of communicators and groups | invariant over all sequences of calls on one worker's partitions: handles of active partitions exist and have one owner each; communicators left by a call belong to what it returned |
| C68 | threads, memory layout and grain size of the interpolation kernels | the ranges of `at::parallel_for` are consecutive, a thread's statements are the concatenation of iterations, so an interleaving of threads is one of iterations (C47); strides of a contiguous tensor are the row-major ones |
| C69 | blocks of the sequential gradient of upsampling | C49 (the passes are adjoint) with C48 (the outputs are the sequential ones) on unit tensors determine every element of the gradient; the sequential gradient is shown to be the transpose; refuted for blocks further apart on the case of C48 |
| C70 | distributed convolutions in any arithmetic | `conv_terms` lists the products of one output, those with padding marked as optional; each worker evaluates the terms of its input channels, the reduction an evaluation of these, and the lists together are a permutation of the whole one; zeros of the halo exchange's bulk region are the padding |
| C71 | rounding errors of distributed convolutions | C70 and C62: optional terms are products with zero, so leaving them out changes neither sum nor bound except for the better |
| C72 | equality of partitions | `equal` on the heap of C67; C67's invariant (active partitions share no communicator but MPI.COMM_WORLD) reduces it to identity of objects; only OWorld makes objects of communicator 0 |
| C73 | ownership of parameters | modules as lists of entries (parameter with identity, buffer, nothing), `parameters()` skips tensors met before; `owned_once`: a box per worker, each element in exactly one box; proof from the tiling of balanced layouts and the bijection of workers and indices. If torch accepts the channels of every worker, balanced blocks of grouped channels are equal, so nothing is lost by dividing by the groups |
| C74 | gradients of channel-distributed convolutions in any arithmetic | `input_terms`, `weight_terms`, `bias_terms` list the products of one element; the broadcast's backward adds the workers' input gradients, whose lists (one per block of output channels) concatenate to the whole one; weight and bias gradients are computed by one worker each |
| C75 | their rounding errors | C74 and C62 |
| C76 | gradients of halo exchanges in any arithmetic | a simulation (`ProofSimulation.v`): each execution with an arbitrary addition is followed, step by step, by executions over Z whose cotangent is 1 at one entry and 0 elsewhere; an invariant says that a number is an evaluation of a list whose element (worker, point) occurs as often as its Z execution counts. C26 for Z gives these counts, 0 or 1. A forward call reads no cotangent: a second simulation, whose buffers agree once they were written in the call, compares it with an execution over a ring (`ProofHaloForward.v`) |
| C77 | reproducibility and rounding errors of halo exchanges | C76 and C62; without shared entries the unpackings of one round commute for every addition, so `Rounds.v` gives one result. In general refuted by two executions that a computable scheduler (`Schedule.v`) finds |
| C78 | gradients of feature-distributed convolutions in any arithmetic | torch's gradient on a worker's window is written as terms named by pairs (weight index, cotangent index); C76 adds the lists of all copies of an entry, and counting shows that each pair of the sequential gradient occurs once (`ProofFeatureReduce.v`) |
| C79 | their rounding errors | C78 and C62 |
| C80 | losses in any arithmetic | C61 for the reduction; the points of the blocks are a permutation of those of the whole tensor. The backward of the reduction is a broadcast, which adds nothing (C16) |
| C81 | their rounding errors | C80, C62 and Flocq's division |
| C82 | batch normalisation in any arithmetic | C61 for the reduction; summing along a dimension permutes the entries of a channel. The sequential run is built from the means at the workers of P_sum |
| C83 | rounding errors of its statistics | C82, C62 and Flocq's subtraction; the squares about the computed mean are shifted to the exact one |
| C84 | feature-distributed convolutions and average pools in any arithmetic | C60 with the exchange of C76: what is exchanged forwards does not depend on the additions of earlier calls; the terms of a window without padding are those of the padded sequential layer |
| C85 | their rounding errors | C84, C71's bound for sums with terms left out, C81's for quotients |
| C86 | gradients of average pools in any arithmetic | the method of C78: each entry is a sum over a list of indices into the output's gradient; with units for the gradient and exact arithmetic C51 counts each index once; channels may be split |
| C87 | their rounding errors | C86; division rounds each share, then C62's bound for the sum |
| C88 | constructors of layers over distributed features | case analysis of each argument's length and of the checks; what is refused does not mention the worker's index |
| C89 | saving and restoring batch normalisation | states that agree in the buffers give the same outputs, as the count is read only without momentum; C34 for the shapes |
| C90 | channels of the input of batch normalisation | the check reads the global shape, which all workers know; the lemmas of C34 hold for every cut |
| C91 | workers outside of a layer's partitions | such a worker has no group, so no collective reads what it holds; the losses and batch normalisation fail there |

## Trusted base

* The Coq 8.16.1 kernel, including `vm_compute` (examples and witnesses only).
* The axioms that `Print Assumptions` lists. Every theorem of the manifest
  except `C31_output_size_formula`, `C56_real_derivative` and those of C62, C71, C75, C77, C79, C81, C83, C85 and C87 is
  "Closed under the global context". `C31_output_size_formula`, C62, C71, C75, C77 (but `C77_reproducible_partial`), C79, C81, C83, C85 and C87 reason about
  floating point with Flocq and `C56_real_derivative` about derivatives; they
  therefore use the standard library's real numbers:
  `ClassicalDedekindReals.sig_not_dec`, `ClassicalDedekindReals.sig_forall_dec`,
  `FunctionalExtensionality.functional_extensionality_dep`, and all but
  `C56_real_derivative` also `Classical_Prop.classic`. A whole-library check (`coqchk`) also shows the
  opaque parts of `Coq.Reals.Rdefinitions` (`RbaseSymbolsImpl.*`, `RinvImpl.*`)
  and of `Coq.ssr.ssrunder` (`Under_rel.*`), which are standard library modules
  sealed by a signature and loaded transitively. No axiom is declared here, no
  kernel check is switched off.
* The transcription from Python and C++ to Gallina. Every definition of a
  `Model*.v` file cites the lines it mirrors.
* The behaviour of mpi4py/MPI, numpy and PyTorch primitives, as follows.

### What is assumed of MPI

* Point to point (`P2P.v`, `Rounds.v`): non-overtaking delivery per (source,
  destination, tag); a send either completes at once (buffered) or when it is
  matched, as an arbitrary oracle decides per message; `Waitany` returns any
  completed request and `MPI.UNDEFINED` when only null requests remain.
* Collectives (`ModelExchange.v`): calls on one communicator are matched in the
  order in which each member posts them; a wait may return only after all
  members have posted.
* Communicator creation (`Create_group`) synchronises its members and nobody
  else. `Comm_free` is collective; C45 is proved for a local release and refuted
  for a synchronising one, both of which MPI allows.
* `MPI_Cart_create` keeps the order of ranks (`reorder` is not used), and
  Cartesian ranks are row-major.
* `MPI_SUM`: the exact sum, except in C61, C70, C74, C78, C80, C82, C84 and C86, where a reduction gives any evaluation of
  the sum of its members' numbers (`adds`), not even the same one on each member.
* Buffer sizes: the model compares whole shapes, MPI only element counts; the
  model's error is the stricter one.

### What is assumed of torch and numpy

* Slicing with Python's clipping rules (`py_range`), `F.pad` with a constant and in the
  modes of torch 1.5 and later (the earlier `circular` is not modelled),
  `F.linear`, convolution, pooling as functions of their windows, elementwise
  losses, batch statistics as sums and quotients in an arbitrary arithmetic. In C60 a
  convolution or pool is any function that gives, for each window, a number that an
  arbitrary relation allows; `word_ring` serves only to have words as elements (none
  of its operations but the word 0, the padding of a convolution, is used). In C61 and
  C62 `F.linear` and its gradients are any evaluations of their sums with the
  machine's operations, in C80 and C81 the sums of losses too, in C82 and C83 `x.sum(dim, keepdim=True)` too, in C70, C71, C74, C75, C78 and C79 convolutions (and their gradients) too, where products with the
  padding may be left out; accumulators wider than the element type are not covered.
* Gradients of `F.linear`, of `F.pad` and of slicing are modelled by the formulas
  torch implements (`ModelGradients.v`, `ModelWorkGrad.v`). Everything else that
  autograd does between layers is composition in reverse order.
* `mark_dirty` on a leaf that requires a gradient would raise in torch (the halo
  layer does this when no padding is needed); this is not modelled.
* The constructors of torch's pools do not check their arguments, those of convolutions
  check that the groups divide the channels and that the padding mode exists (C88).
* `state_dict` holds registered buffers; `load_state_dict` raises on missing or unexpected
  keys and different shapes (C89).
* Random initialisation of parameters is not modelled: theorems quantify over all
  parameter values.

## What is modelled, and how it is simplified

* `utilities/slicing.py`, `utilities/index_tricks.py`, `utilities/misc.py`,
  `utilities/dtype.py`, `utilities/torch.py`, `utilities/tensor_decomposition.py`:
  function by function.
* Partition lifetimes (C67) are modelled for one worker: communicators and groups are numbers,
  a `Free` adds to the list of freed ones. Whether the worker is in a new group, and what a
  broadcast finds, are parameters of the calls, so all outcomes are covered. A communicator is
  given to at most one `MPIPartition(comm)`, except MPI.COMM_WORLD.
* `backends/mpi/partition.py`: rank lists, groups by colour, Cartesian shapes,
  checks and exceptions. The communicator is identified with its rank list; what
  becomes of communicators and groups is modelled separately (C67).
* `backends/mpi/tensor_decomposition.py`, `tensor_comm.py`: values
  as functions of all workers' data; order of calls in `ModelExchange.v`.
* `backends/mpi/buffer.py`: numpy arrays as heap objects, views as (object, shape).
* `functional/{broadcast,sum_reduce,all_sum_reduce}.py` and their layers: values as
  functions of all workers' data, with errors for missing participants and for
  differing shapes. Layers in one file are modelled freshly set up in each call;
  that cached plans agree with the inputs is C38 and C39.
* `functional/repartition.py`, `functional/halo_exchange.py` and their layers: per-worker lists of rounds in the
  asynchronous point-to-point semantics, any number of earlier forward and
  backward calls. Buffers are per call: that reuse does not alias is C22 to C24.
* `nn/mixins/*`: function by function over Z; `_compute_out_shape` additionally in
  binary64 (C31); `interpolate_mixin` in an arbitrary arithmetic (`ModelScalars.v`)
  with exact rationals and binary32/binary64 as instances.
* `nn/conv_feature.py`, `nn/pooling.py` (`ModelFeatureLayer.v`): setup, padding, halo
  exchange, slicing and the torch kernel as any function of the window. The padding mode
  is `zeros` there; `ModelPaddingMode.v` models the forward pass of the three
  convolutions in the other modes. Only values move, so -inf of max-pooling may be any
  ring element. torch's check of the number of channels is not modelled in C30. The
  backward pass is modelled for the linear kernels, convolution and average pooling
  (`ModelFeatureGrad.v`), and for max-pooling without NaN (`ModelMaxPoolGrad.v`; the
  sequential layer pads with the value explicitly, as torch's does when a window has an
  element above -inf, `C57_first_maximum`).
* Networks (`ModelChain.v`): layers already set up (setup is collective, which MPI keeps
  apart), parameters given; autograd's record is a stack per worker, and the backward
  passes come in the reverse order of the calls.
* Training (`ModelTraining.v`): forward through all layers, loss, backward, optimizer step,
  sample by sample. The communication of a layer is over before the next layer starts
  (C58 proves for networks of window layers that overlapping makes no difference). The
  optimizer treats elements one by one and skips parameters without gradient. Workers
  outside the loss enter the backward pass with any gradient that has a dimension.
  Batch normalization is in training mode; the transposing layers are not among the layers.
* `nn/conv_channel.py`, `nn/conv_general.py`, `nn/conv.py`: constructor checks and
  recast partitions, parameter broadcasts, forward (C33) and backward (C54, C55).
* `nn/linear.py`: forward (C32) and backward (C50).
* `nn/batchnorm.py`: statistics in an arbitrary arithmetic, histories of calls (C34), and
  the backward pass (C56) with torch's formulas for the gradients of its elementwise
  operations. torch's error for one value per channel is not modelled; autograd's
  calls of the communication backward passes are assumed to come in the same order on
  all workers, since all run the same forward pass.
* `nn/loss.py`: forward and backward. Targets that torch would broadcast are not
  modelled.
* `nn/upsampling.py`, `nn/interpolate.py`, the C++ kernels: forward and adjoint kernels
  loop by loop, with flat indices (C47) and with tensors (C37).
  `at::parallel_for` and `contiguous()` are modelled after ATen's sources (C68), with a team of
  any size, threads interleaved statement by statement, and outputs from `torch.zeros`.
* `nn/module.py` and the pre-hooks of all layers: state machines (C38), and on all
  workers at once (C39). Teardown is assumed not to raise, and so is assembling slices
  after the halo layer has stored them.
* Not modelled: `nn/transpose.py` (an alias), logging, `__init__` files, setup.py,
  documentation, examples, tests, memory of tensors on devices, numpy's integer width.

## Findings

Violations proved with a witness are named `..._refuted` in the manifest. In short:

* C08: transposed broadcast pairs workers in flat C order against flat F order; the
  documented pairing holds only if at most one extent of the source is not one.
* C09: the reduction's member order differs when the partitions overlap.
* C21: a tensor of higher rank than P_x passes the check, then workers of P_x raise
  while the others wait.
* C24: a view obtained before the buffer is enlarged is detached; writes are lost.
* C29: halos are larger than needed for workers without outputs and for dilation with
  padding.
* C30: wrong numbers when a worker's outputs need elements beyond the adjacent block
  (kernel 5, four elements on four workers), when a block has room for a further
  output (kernel 1, padding 2, four elements on four workers), when a worker has no
  output (kernel 9, ten elements on three workers); the misalignment grows with the
  number of workers for strides above one.
* C33: groups with distributed channels give wrong numbers; a single weight worker
  that is not also the input and output worker hangs (`serial` is decided per worker);
  a worker without channels cannot be initialised (torch divides by zero).
* C34: the running variance is the biased one; momentum 0 is treated as None
  (cumulative average). The constructor fails on workers outside the partition.
* C35: a worker outside the partition evaluates `input.clone()` on the Python builtin.
* C36: binary32/binary64 kernels compute other indices than the setup for some sizes;
  linear interpolation with distributed channels writes past the end of the output.
  Also: aligned corners with one output divides by zero; nearest ignores the scale
  factor where torch uses it (4 elements, factor 1.7, output 5: 3 against 2); weights
  are snapped, so they differ from torch's by up to 1e-4; the first two entries of
  `size` are unchecked; `floorf` is used for doubles; empty outputs divide by zero.
* C38: batch normalisation never sets its flag and sets up in every call without
  teardown; layers that mark themselves set up first keep failing after a setup that
  raised; some teardowns keep data of the old plan (`interp_layer`, Repartition's
  structures).
* C39: whether to rebuild is decided by each worker from its own block: 10 then 11
  entries on three workers makes only one of them rebuild.
* C43: the gradient of a zero-volume input has shape (b, 0), whatever the input's.
* C44: partitions that divide the batch (or channels, for the feature class) are
  accepted; mismatches are raised by some workers only.
* C45: two workers that broadcast to each other release their groups in opposite
  orders.
* C48: inputs further away than the adjacent block are not obtained: nearest 9 to 14 on
  seven workers; also aligned corners 6 to 20 on four workers.
* C59: `F.pad` is given paddings for all dimensions, which torch refuses in every mode
  but `constant`: with distributed features, `reflect`, `replicate` and `circular` raise
  as soon as a worker pads or has a halo, and leave workers that do not (a lone inner
  worker without a halo) waiting. If the list were accepted, block borders inside the
  tensor would be padded before the exchange overwrites them.
* C65: `allgather_data` receives into numpy's default integers whatever the type of the
  data, so 64-bit floats come out as the integers with the same bits; data with more than
  one dimension does not fit its buffer. Maximum and minimum of booleans fail with
  `UnboundLocalError`.
* C66: `remain_shape` given as integers is a list of positions for numpy and of truth values
  for MPI; given as a tuple of booleans, `self.shape[remain_shape]` is two-dimensional.
* C67: where a worker's send and receive groups are identical, the second group is never
  freed; a worker outside a partition never frees the group the partition was made with;
  a mismatch of shapes found in `create_broadcast_partition_to` or
  `create_reduction_partition_to` leaves the union's communicator behind. After releasing a
  partition made from a communicator other than MPI.COMM_WORLD, partitions derived from it
  stay active but all their unions, broadcasts and reductions raise.
* C68: in linear mode the grain size is `GRAIN_SIZE / output_slice_size / 2` (4, 8), an
  integer division by zero if the worker has no outputs, i.e. for upsampling to fewer elements
  than workers in a feature dimension. The layer can be set up on all workers, and then the
  process dies. The constant kernels do not divide.
* C77: `halo_exchange` adds the two received cotangents in the order in which they arrive.
  Where an entry of a block is in the halos of both neighbours (kernel 3 and padding 1 with
  blocks of one element, in general blocks narrower than the sum of both halos), gradients
  differ from run to run: 1 + 1 + 2048 in half precision is 2050 or 2048.
* C88: a misspelt `padding_mode` is refused by a lone worker (torch checks it) but taken by
  several, which construct torch's layer with 'zeros'; it fails only when a worker pads.
* C89: `inputs_seen` of the batch normalisation is no buffer. With `momentum=None` a restored
  layer starts counting at 0 again, and its first training call overwrites the restored
  statistics.
* C90: batch normalisation checks the number of channels but not how they are cut. If a worker
  has two channels where it holds the parameters of one, torch's broadcasting uses that
  factor for both; no worker raises.
* Workers outside of P_x cannot call a loss: loss.py:160 clones Python's builtin
  `input` instead of `local_input`, an AttributeError. They cannot construct batch
  normalisation either, whose constructor reads the worker's index
  (`C91_outside_refuted`). `C91_movement` and `C91_layers` name the layers
  that are proved to hand such a worker its input back.
* Smaller: negative axes of AllSumReduce pass the check and are ignored; `np.int` is
  gone in numpy 1.24; the structure exchange with P_send equal to P_recv keeps each
  worker's own requires_grad while others get the maximum.

## Tests of the theorems

`seeded/LOG.jsonl` records attempts to break the theorems: an edit of a model
definition, as a programmer might make it by mistake, after which everything was
rebuilt in a scratch copy. A theorem counts as failed if its proof (or that of a lemma
it depends on) no longer compiles. Where a theorem survived an edit that falsifies the
English claim it was tightened, and the line says so.
