(** Model of [/repo/src/distdl/utilities/slicing.py] and
    [/repo/src/distdl/utilities/index_tricks.py].

    numpy arrays of one dimension are lists of integers; the elementwise
    operators are [map2]/[map3].  Callers always pass arrays of equal length
    (numpy would raise otherwise; that error is not modelled). *)

From Verif Require Import Prelude.

(** slicing.py:8-16 [compute_subshape], one dimension:
    [subshape = shape // P; subshape[index < shape % P] += 1]. *)
Definition subshape1 (P i n : Z) : Z :=
  n / P + (if i <? n mod P then 1 else 0).

(** slicing.py:8-16. *)
Definition compute_subshape (P_shape index shape : list Z) : list Z :=
  map3 subshape1 P_shape index shape.

(** slicing.py:19-27 [compute_start_index]:
    [(shape // P) * index + minimum(index, shape % P)]. *)
Definition start1 (P i n : Z) : Z := (n / P) * i + Z.min i (n mod P).

(** slicing.py:19-27. *)
Definition compute_start_index (P_shape index shape : list Z) : list Z :=
  map3 start1 P_shape index shape.

(** slicing.py:30-36 [compute_stop_index]: start + subshape. *)
Definition compute_stop_index (P_shape index shape : list Z) : list Z :=
  map2 Z.add (compute_start_index P_shape index shape)
             (compute_subshape P_shape index shape).

(** slicing.py:39-47 [compute_intersection]. *)
Definition compute_intersection (r0_start r0_stop r1_start r1_stop : list Z)
  : list Z * list Z * list Z :=
  let i_start := map2 Z.max r0_start r1_start in
  let i_stop := map2 Z.min r0_stop r1_stop in
  let i_sub := map (fun x => Z.max x 0) (map2 Z.sub i_stop i_start) in
  (i_start, i_stop, i_sub).

(** A Python [slice(start, stop, None)] with integer bounds is a pair. *)
Definition slice := (Z * Z)%type.

(** slicing.py:50-57 [assemble_slices]. *)
Definition assemble_slices (start stop : list Z) : list slice := combine start stop.

(** slicing.py:60-90 [compute_partition_intersection]. *)
Definition compute_partition_intersection
    (P_r_shape P_r_index P_s_shape P_s_index x_shape : list Z) : option (list slice) :=
  let r_start := compute_start_index P_r_shape P_r_index x_shape in
  let r_stop := compute_stop_index P_r_shape P_r_index x_shape in
  let s_start := compute_start_index P_s_shape P_s_index x_shape in
  let s_stop := compute_stop_index P_s_shape P_s_index x_shape in
  let '(i_start, i_stop, i_sub) := compute_intersection r_start r_stop s_start s_stop in
  if zprod i_sub =? 0 then None
  else
    let rel_start := map2 Z.sub i_start r_start in
    let rel_stop := map2 Z.add rel_start i_sub in
    Some (assemble_slices rel_start rel_stop).

(** slicing.py:93-95 [compute_nd_slice_volume]. *)
Definition compute_nd_slice_volume (sl : list slice) : Z :=
  zprod (map (fun s => snd s - fst s) sl).

(** slicing.py:98-115 [compute_nd_slice_shape]. *)
Definition compute_nd_slice_shape (sl : list slice) : list Z :=
  map (fun s => snd s - fst s) sl.

(** slicing.py:118-142 [range_index]: [itertools.product] of the ranges,
    first coordinate slowest. *)
Fixpoint range_index (shape : list Z) : list (list Z) :=
  match shape with
  | [] => [[]]
  | n :: rest => flat_map (fun i => map (cons i) (range_index rest)) (zrange n)
  end.

(** slicing.py:145-153 [worker_layout]: an array with [workers[index] = i] for
    the i-th index.  The array is represented by its lookup function: the last
    assignment to a position wins, positions never assigned stay 0. *)
Definition worker_layout (shape : list Z) (pos : list Z) : Z :=
  fold_left (fun acc ii => if zlist_eqb (snd ii) pos then fst ii else acc)
            (combine (zrange (Z.of_nat (length (range_index shape)))) (range_index shape)) 0.

(** slicing.py:178-184, the inner [_filter]: zip of index and filter, [None]
    entries skipped. *)
Fixpoint filter_matches (idx : list Z) (flt : list (option Z)) : bool :=
  match idx, flt with
  | i :: idx', f :: flt' =>
      match f with
      | None => filter_matches idx' flt'
      | Some v => if negb (i =? v) then false else filter_matches idx' flt'
      end
  | _, _ => true
  end.

(** slicing.py:156-187 [filtered_range_index]. *)
Definition filtered_range_index (shape : list Z) (flt : list (option Z)) : list (list Z) :=
  filter (fun idx => filter_matches idx flt) (range_index shape).

(** [k in dims] for an iterable of integers (slicing.py:219-222). *)
Definition in_dims (k : Z) (dims : list Z) : bool := existsb (Z.eqb k) dims.

(** slicing.py:190-222 [assemble_index_filter]. *)
Definition assemble_index_filter (index : list Z) (dims : list Z) (invert : bool)
  : list (option Z) :=
  map (fun k => if invert
                then (if negb (in_dims (Z.of_nat k) dims) then Some (nth k index 0) else None)
                else (if in_dims (Z.of_nat k) dims then Some (nth k index 0) else None))
      (seq 0 (length index)).

(** index_tricks.py:1-5 [cartesian_index_c]: a loop over zip(shape, index). *)
Fixpoint cartesian_c_loop (acc : Z) (shape index : list Z) : Z :=
  match shape, index with
  | d :: shape', c :: index' => cartesian_c_loop (acc * d + c) shape' index'
  | _, _ => acc
  end.

(** index_tricks.py:1-5. *)
Definition cartesian_index_c (shape index : list Z) : Z := cartesian_c_loop 0 shape index.

(** index_tricks.py:8-12 [cartesian_index_f]: the same loop over the reversed
    arrays. *)
Definition cartesian_index_f (shape index : list Z) : Z :=
  cartesian_c_loop 0 (rev shape) (rev index).
