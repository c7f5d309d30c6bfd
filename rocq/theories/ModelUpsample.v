(** Model of nn/mixins/interpolate_mixin.py, nn/interpolate.py and
    nn/upsampling.py.  Tensors have shape (batch, channel, features...).

    torch and numpy operate elementwise on vectors with one entry per dimension;
    here, [vec] of the functions for one dimension. *)

From Verif Require Import Prelude ModelSlicing ModelDecomposition ModelPartition Ring Tensor ModelCollectives
  ModelUtilities ModelRepartition ModelHaloMixin ModelHaloExchange ModelFeatureLayer ModelInterpolate.

Section Mixin.
  Variables (A : scalars) (mode : imode A).

  (** interpolate_mixin.py:56-83 and 130-158: the index, as an integer, that both
      functions compute for output index [y] of a dimension with global extents
      [nx] and [ny].  [feature]: whether it is one of the dimensions [2:]. *)
  Definition source_index (feature : bool) (nx ny y : Z) : Z :=
    match mode with
    | Nearest =>
        let fac := if feature then s_div A (s_int A nx) (s_int A ny) else s_int A 1 in
        s_floor A (s_mul A fac (s_int A y))
    | Linear _ true =>
        let fac := if feature then s_div A (s_sub A (s_int A nx) (s_int A 1)) (s_sub A (s_int A ny) (s_int A 1))
                   else s_int A 1 in
        s_floor A (s_mul A fac (s_int A y))
    | Linear scale_factor false =>
        let fac := if feature
                   then match scale_factor with
                        | Some s => s_div A (s_int A 1) s
                        | None => s_div A (s_int A nx) (s_int A ny)
                        end
                   else s_int A 1 in
        let idx := s_sub A (s_mul A fac (s_half_more A y)) (s_half_more A 0) in
        s_floor A (if s_negative A idx then s_int A 0 else idx)
    end.

  (** Lines 15-87 [_compute_needed_start], one dimension. *)
  Definition needed_start (feature : bool) (nx ny y : Z) : Z := Z.max 0 (source_index feature nx ny y).

  (** Lines 89-164 [_compute_needed_stop], one dimension. *)
  Definition needed_stop (feature : bool) (nx ny y : Z) : Z :=
    let idx := source_index feature nx ny y + match mode with Nearest => 0 | Linear _ _ => 1 end in
    Z.min nx (idx + 1).

  (** The dimensions [2:], interpolate_mixin.py:56-83. *)
  Definition is_feature (j : nat) : bool := (2 <=? j)%nat.

  Section Structures.
    Variables (P_shape x_shape y_shape : list Z).

    (** Lines 307-315. *)
    Definition sub_start (shape : list Z) : warray :=
      compute_subtensor_start_indices (length P_shape) (compute_subtensor_shapes_balanced shape P_shape).
    (** interpolate_mixin.py:307-315. *)
    Definition sub_stop (shape : list Z) : warray :=
      compute_subtensor_stop_indices (length P_shape) (compute_subtensor_shapes_balanced shape P_shape).

    (** Lines 166-236 [_compute_halo_shape] with [halo_shape_args] (lines 317-328)
        of the worker with Cartesian index [index]. *)
    Definition interpolate_halo_shape (nonnegative : bool) (index : list Z) : list (Z * Z) :=
      vec (length x_shape) (fun j =>
        let nx := nth j x_shape 0 in
        let ny := nth j y_shape 0 in
        let start_needed := Z.max 0 (needed_start (is_feature j) nx ny (nth j (sub_start y_shape index) 0)) in
        let stop_needed := Z.min nx (needed_stop (is_feature j) nx ny (nth j (sub_stop y_shape index) 0 - 1)) in
        let left := nth j (sub_start x_shape index) 0 - start_needed in
        let right := stop_needed - nth j (sub_stop x_shape index) 0 in
        if nonnegative then (Z.max left 0, Z.max right 0) else (left, right)).

    (** Lines 238-268 [_compute_needed_ranges]. *)
    Definition interpolate_needed_ranges (tensor_shape : list Z) (halo : list (Z * Z)) : list (Z * Z) :=
      map2 (fun n h => (-1 * Z.min 0 (fst h), n + Z.max 0 (fst h) + snd h)) tensor_shape halo.

    (** Lines 270-363 [_compute_exchange_info] on an active worker.  (For a
        neighbour that does not exist, the code selects an empty part of the
        arrays and does not use the result.) *)
    Definition interpolate_exchange_info (index : list Z) : exchange_info :=
      let halo := interpolate_halo_shape true index in
      let send := vec (length P_shape) (fun i =>
        (let l := upd i (nth i index 0 - 1) index in
         if -1 <? nth i l 0 then snd (nth i (interpolate_halo_shape true l) (0, 0)) else 0,
         let r := upd i (nth i index 0 + 1) index in
         if nth i r 0 <? nth i P_shape 0 then fst (nth i (interpolate_halo_shape true r) (0, 0)) else 0)) in
      let x_local_shape := compute_subtensor_shapes_balanced x_shape P_shape index in
      mkexchange_info halo halo send (interpolate_needed_ranges x_local_shape (interpolate_halo_shape false index)).
  End Structures.
End Mixin.

(** The floating point types: of the mixin, of the kernels, and the conversion of
    the scale factor between them
    (interpolate_mixin.py:56-83, interpolate.h:74-136). *)
Record float_types := mkfloat_types {
  f_python : scalars;
  f_kernel : scalars;
  f_double : scalar f_python -> scalar f_kernel
}.

(** The arguments of the constructor; [u_align]: [None] for the mode "nearest", the
    flag align_corners for the mode "linear" (upsampling.py:61-63). *)
Record upsample_args (T : float_types) := mkupsample_args {
  u_size : option (list Z);
  u_scale : option (scalar (f_python T));
  u_align : option bool
}.
Arguments u_size {T}.
Arguments u_scale {T}.
Arguments u_align {T}.

(** upsampling.py:64-75. *)
Definition upsample_init {T} (a : upsample_args T) : result (upsample_args T) :=
  match u_size a, u_scale a with
  | None, None => Raise ErrValue
  | Some _, Some _ => Raise ErrValue
  | _, _ => Ok a
  end.

Definition python_mode {T} (a : upsample_args T) : imode (f_python T) :=
  match u_align a with None => Nearest | Some c => Linear (u_scale a) c end.
(** functional/interpolate/interpolate.py:73-74: no scale factor is -1. *)
Definition kernel_mode {T} (a : upsample_args T) : imode (f_kernel T) :=
  match u_align a with None => Nearest | Some c => Linear (option_map (f_double T) (u_scale a)) c end.

(** upsampling.py:142-153. *)
Definition upsample_output_shape {T} (a : upsample_args T) (x_shape : list Z) : result (list Z) :=
  let F := f_python T in
  match u_size a with
  | None =>
      match u_scale a with
      | Some s => Ok (vec (length x_shape) (fun j =>
          let n := s_int F (nth j x_shape 0) in s_floor F (if is_feature j then s_mul F n s else n)))
      | None => Raise ErrValue
      end
  | Some size => if Nat.eqb (length size) (length x_shape) then Ok size else Raise ErrValue
  end.

(** What upsampling.py:116-220 stores. *)
Record usetup := mkusetup {
  v_info : exchange_info;
  v_x_start : list Z;
  v_x_stop : list Z;
  v_x_global : list Z;
  v_y_start : list Z;
  v_y_stop : list Z;
  v_y_global : list Z
}.

(** [t[i:j]] in Python: a negative bound counts from the end. *)
Definition py_bound (n i : Z) : Z := if i <? 0 then Z.max 0 (i + n) else Z.min i n.
(** [t[i:j]] in Python, upsampling.py:282. *)
Definition py_range (n : Z) (s : Z * Z) : Z * Z :=
  let a := py_bound n (fst s) in (a, Z.max a (py_bound n (snd s))).

Section Layer.
  Context {R : CRing}.
  Notation tensor := (tensor R).
  Variable T : float_types.
  Variable weight : scalar (f_kernel T) -> R.
  Variables (P : part) (a : upsample_args T).
  Variable shape : Z -> list Z.      (* shape of the local input of each worker *)

  (** upsampling.py:116-220 [_distdl_module_setup]; [None] on an inactive worker. *)
  Definition upsample_setup (v : Z) : result (option usetup) :=
    match index_in P v with
    | None => Ok None
    | Some idx =>
        let* x_global := assemble_global_shape P shape v in
        let* y_global := upsample_output_shape a x_global in
        let mode := python_mode a in
        let y_start := sub_start (p_shape P) y_global idx in
        let y_stop := sub_stop (p_shape P) y_global idx in
        let per f (y : list Z) (d : Z) := vec (length x_global) (fun j =>
          f (is_feature j) (nth j x_global 0) (nth j y_global 0) (nth j y 0 - d)) in
        Ok (Some (mkusetup (interpolate_exchange_info (f_python T) mode (p_shape P) x_global y_global idx)
                           (per (needed_start (f_python T) mode) y_start 0)
                           (per (needed_stop (f_python T) mode) y_stop 1) x_global
                           y_start y_stop y_global))
    end.

  (** upsampling.py:272-279. *)
  Definition upsample_padded (u : usetup) (x : tensor) : result tensor :=
    let total := e_halo (v_info u) in
    if zsum (map (fun p => fst p + snd p) total) =? 0 then Ok x
    else match f_pad rzero (distdl_padding_to_torch_padding total) (length (tshape x)) x with
         | Some t => Ok t
         | None => Raise ErrTorch
         end.

  (** What worker [v] hands to its halo layer; the input itself on an inactive
      worker, which has no halo layer (upsampling.py:281). *)
  Definition upsample_input (x : Z -> tensor) (v : Z) : result tensor :=
    let* u := upsample_setup v in
    match u with None => Ok (x v) | Some u => upsample_padded u (x v) end.

  (** upsampling.py:282: [input_exchanged[self.needed_slices]]. *)
  Definition upsample_needed (u : usetup) (exchanged : tensor) : tensor :=
    read_slice exchanged (map2 py_range (tshape exchanged) (e_needed (v_info u))).

  (** upsampling.py:281-284 from the output of the halo layer, with
      interpolate.py:47-80; lines 269-270 on an inactive worker. *)
  Definition upsample_output (x exchanged : Z -> tensor) (v : Z) : result tensor :=
    let* u := upsample_setup v in
    match u with
    | None => Ok (x v)
    | Some u => interpolate_forward (f_kernel T) weight (kernel_mode a) (v_x_start u) (v_x_global u)
                  (v_y_start u) (v_y_stop u) (v_y_global u) (upsample_needed u (exchanged v))
    end.

  (** The iterations of the parallel loop in this call
      (interpolate_constant_cpu.cpp:183-192, interpolate_linear_cpu.cpp:237-250). *)
  Definition upsample_threads (u : usetup) (input : tensor) : option (list (list (@stmt R))) :=
    threads (f_kernel T) weight (kernel_mode a) false (tshape input)
      (kernel_dim (tshape input) (v_x_start u) (v_x_global u)
                  (map2 Z.sub (v_y_stop u) (v_y_start u)) (v_y_start u) (v_y_global u)).

  (** What worker [v] gives to the layer HaloExchange: its argument and, at
      construction (upsampling.py:170-174), the plan. *)
  Definition upsample_argument (x : Z -> tensor) (v : Z) : tensor :=
    match upsample_input x v with Ok t => t | Raise _ => x v end.
  (** The plan: upsampling.py:170-174. *)
  Definition upsample_plan (v : Z) : exchange_info :=
    match upsample_setup v with Ok (Some u) => v_info u | _ => mkexchange_info [] [] [] [] end.
End Layer.
