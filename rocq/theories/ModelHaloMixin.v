(** Model of nn/mixins/halo_mixin.py, nn/mixins/conv_mixin.py and
    nn/mixins/pooling_mixin.py.

    numpy's elementwise operations are [vec]: the vector of the values at each
    position.  An array of shape (dim, 2) is a list of pairs (left, right). *)

From Verif Require Import Prelude ModelSlicing ModelDecomposition ModelPartition.

(** An elementwise operation of numpy on arrays of length [n]. *)
Definition vec {A} (n : nat) (f : nat -> A) : list A := map f (seq 0 n).

(** A layer's kernel_size, stride, padding and dilation, one entry per dimension
    (the arguments of halo_mixin.py:9-17). *)
Record window := mkwindow {
  w_kernel : list Z;
  w_stride : list Z;
  w_padding : list Z;
  w_dilation : list Z
}.

(** halo_mixin.py:25-49: [np.pad(array, (n - len(array), 0), constant_values=fill)];
    numpy raises a ValueError when the array is longer. *)
Definition np_pad_left (n : nat) (fill : Z) (l : list Z) : result (list Z) :=
  if (n <? length l)%nat then Raise ErrValue else Ok (repeat fill (n - length l) ++ l).

(** halo_mixin.py:25-49. *)
Definition expand_window (n : nat) (w : window) : result window :=
  let* k := np_pad_left n 1 (w_kernel w) in
  let* s := np_pad_left n 1 (w_stride w) in
  let* p := np_pad_left n 0 (w_padding w) in
  let* d := np_pad_left n 1 (w_dilation w) in
  Ok (mkwindow k s p d).

(** halo_mixin.py:143-146 [_compute_out_shape], one dimension.  The code divides
    in floating point and rounds down; C31 relates that to the integer division
    used here. *)
Definition out_extent (n k s p d : Z) : Z := (n + 2 * p - d * (k - 1) - 1) / s + 1.

(** halo_mixin.py:143-146. *)
Definition compute_out_shape (shape : list Z) (w : window) : list Z :=
  vec (length shape) (fun j =>
    out_extent (nth j shape 0) (nth j (w_kernel w) 0) (nth j (w_stride w) 0)
               (nth j (w_padding w) 0) (nth j (w_dilation w) 0)).

(** conv_mixin.py:6-34 and pooling_mixin.py:6-34 [_compute_min_input_range],
    the same in both, one dimension. *)
Definition min_input (i k s p d : Z) : Z := s * i - p.

(** conv_mixin.py:36-64 and pooling_mixin.py:36-64 [_compute_max_input_range]. *)
Definition max_input (i k s p d : Z) : Z := s * i + d * (k - 1) - p.

(** halo_mixin.py:113-124 [_compute_local_start_index]. *)
Definition compute_local_start_index (index : list Z) (shapes : warray) : list Z :=
  vec (length index) (fun j =>
    zsum (map (fun i => nth j (shapes (upd j i (map (fun _ => 0) index))) 0) (zrange (nth j index 0)))).

(** halo_mixin.py:148-208 [_compute_halo_shape].  [shapes] is [subtensor_shapes]. *)
Definition compute_halo_shape (nonnegative : bool) (P_shape index x_shape : list Z) (w : window)
    (shapes : option warray) : list (Z * Z) :=
  (* 162-169 *)
  let x_local := match shapes with
                 | Some f => f index
                 | None => compute_subshape P_shape index x_shape
                 end in
  let x_start := match shapes with
                 | Some f => compute_local_start_index index f
                 | None => compute_start_index P_shape index x_shape
                 end in
  (* 172-176 *)
  let y_shape := compute_out_shape x_shape w in
  let y_local := compute_subshape P_shape index y_shape in
  let y_start := compute_start_index P_shape index y_shape in
  vec (length x_shape) (fun j =>
    let at_j (f : Z -> Z -> Z -> Z -> Z -> Z) (i : Z) :=
      f i (nth j (w_kernel w) 0) (nth j (w_stride w) 0) (nth j (w_padding w) 0) (nth j (w_dilation w) 0) in
    (* 178-186 *)
    let left_needed := Z.max 0 (at_j min_input (nth j y_start 0)) in
    (* 188-196 *)
    let right_needed := Z.min (nth j x_shape 0 - 1)
                              (at_j max_input (nth j y_start 0 + nth j y_local 0 - 1)) in
    (* 199-201 *)
    let left := nth j x_start 0 - left_needed in
    let stop := nth j x_start 0 + nth j x_local 0 - 1 in
    let right := right_needed - stop in
    (* 204-206 *)
    if nonnegative then (Z.max left 0, Z.max right 0) else (left, right)).

(** halo_mixin.py:126-141 [_compute_needed_ranges]: (start, stop) per dimension. *)
Definition compute_needed_ranges (tensor_shape : list Z) (halo : list (Z * Z)) : list (Z * Z) :=
  map2 (fun n h => (- Z.min 0 (fst h), n + Z.max 0 (fst h) + Z.max 0 (snd h))) tensor_shape halo.

(** What halo_mixin.py:111 returns. *)
Record exchange_info := mkexchange_info {
  e_halo : list (Z * Z);
  e_recv : list (Z * Z);      (* recv_buffer_shape *)
  e_send : list (Z * Z);      (* send_buffer_shape *)
  e_needed : list (Z * Z)     (* needed_ranges *)
}.

(** halo_mixin.py:9-111 [_compute_exchange_info] on the worker with Cartesian
    index [index]; [None]: an inactive worker (lines 20-21). *)
Definition compute_exchange_info (x_shape : list Z) (w : window) (active : bool)
    (P_shape index : list Z) (shapes : option warray) : result (option exchange_info) :=
  if negb active then Ok None else
  (* 25-49 *)
  let* w' := expand_window (length x_shape) w in
  (* 51-60 *)
  let halo := compute_halo_shape true P_shape index x_shape w' shapes in
  (* 62-91 *)
  let send := vec (length P_shape) (fun i =>
    (let l := upd i (nth i index 0 - 1) index in
     if -1 <? nth i l 0
     then snd (nth i (compute_halo_shape true P_shape l x_shape w' shapes) (0, 0)) else 0,
     let r := upd i (nth i index 0 + 1) index in
     if nth i r 0 <? nth i P_shape 0
     then fst (nth i (compute_halo_shape true P_shape r x_shape w' shapes) (0, 0)) else 0)) in
  (* 93-106 *)
  let x_local := match shapes with
                 | Some f => f index
                 | None => compute_subshape P_shape index x_shape
                 end in
  let signed := compute_halo_shape false P_shape index x_shape w' shapes in
  Ok (Some (mkexchange_info halo halo send (compute_needed_ranges x_local signed))).
