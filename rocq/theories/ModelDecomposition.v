(** Model of src/distdl/utilities/tensor_decomposition.py and
    src/distdl/backends/mpi/tensor_decomposition.py.

    The (D+1)-dimensional numpy array "shapes" (first D axes: worker index,
    last axis: component) is represented by its lookup function from worker
    index to the vector of components. *)

From Verif Require Import Prelude ModelSlicing.

(** The arrays of utilities/tensor_decomposition.py:34, 73 and 124. *)
Definition warray := list Z -> list Z.

(** utilities/tensor_decomposition.py:8-49 [compute_subtensor_shapes_balanced]:
    the array starts as zeros, and every index of [range_index(P)] is assigned
    [shape // P] with one added where [index < shape % P]. *)
Definition compute_subtensor_shapes_balanced (global_shape P_shape : list Z) : warray :=
  fun w =>
    fold_left
      (fun acc idx =>
         if zlist_eqb idx w
         then map3 (fun n P i => n / P + (if i <? n mod P then 1 else 0)) global_shape P_shape idx
         else acc)
      (range_index P_shape) (map (fun _ => 0) P_shape).

(** utilities/tensor_decomposition.py:129-131, one round of the loop:
    [indices[..., d] = cumsum(indices[..., d], axis=d)]. *)
Definition cumsum_step (indices : warray) (d : nat) : warray :=
  fun w => upd d (zsum (map (fun j => nth d (indices (upd d j w)) 0) (zrange (nth d w 0 + 1))))
               (indices w).

(** utilities/tensor_decomposition.py:103-133 [compute_subtensor_stop_indices]. *)
Definition compute_subtensor_stop_indices (tensor_dims : nat) (shapes : warray) : warray :=
  fold_left cumsum_step (seq 0 tensor_dims) shapes.

(** utilities/tensor_decomposition.py:79-98, one round of the loop: shift
    component d by one worker along axis d, and set the first worker's to 0.
    (numpy buffers the overlapping assignment, so the right-hand side is read
    before it is overwritten.) *)
Definition shift_step (indices : warray) (d : nat) : warray :=
  fun w => upd d (if nth d w 0 =? 0 then 0
                  else nth d (indices (upd d (nth d w 0 - 1) w)) 0)
               (indices w).

(** utilities/tensor_decomposition.py:52-100 [compute_subtensor_start_indices]. *)
Definition compute_subtensor_start_indices (tensor_dims : nat) (shapes : warray) : warray :=
  fold_left shift_step (seq 0 tensor_dims) (compute_subtensor_stop_indices tensor_dims shapes).

(** utilities/tensor_decomposition.py:136-190
    [compute_subtensor_intersection_slice].  The check that the arguments are
    one-dimensional always passes for lists of integers. *)
Definition compute_subtensor_intersection_slice (x_start x_stop y_start y_stop : list Z)
  : option (list slice) :=
  let '(i_start, i_stop, i_shape) := compute_intersection x_start x_stop y_start y_stop in
  if zprod i_shape =? 0 then None
  else
    let rel_start := map2 Z.sub i_start x_start in
    let rel_stop := map2 Z.add rel_start i_shape in
    Some (assemble_slices rel_start rel_stop).

(** backends/mpi/tensor_decomposition.py:37-46: worker [idx] of P_in stores its
    local shape at its own position of a zero array; the arrays are then summed
    over P_in by [allreduce_data]. *)
Definition own_shape_array (dim : nat) (idx local_shape : list Z) : warray :=
  fun w => if zlist_eqb idx w then local_shape else repeat 0 dim.

(** backends/mpi/tensor_decomposition.py:4-53. *)
Definition compute_subtensor_shapes_unbalanced
    (P_shape : list Z) (local_shape_of : list Z -> list Z) : warray :=
  fun w => fold_left (fun acc idx =>
                        map2 Z.add acc (own_shape_array (length P_shape) idx (local_shape_of idx) w))
                     (range_index P_shape) (repeat 0 (length P_shape)).
