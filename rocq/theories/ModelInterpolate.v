(** Model of functional/interpolate: src/interpolate.h,
    src/interpolate_constant_cpu.cpp, src/interpolate_linear_cpu.cpp and
    interpolate.py.

    A kernel is the list of statements it executes on flat buffers, in the order
    of its loops.  Integers do not overflow. *)

From Verif Require Import Prelude ModelSlicing ModelPartition Ring Tensor ModelHaloMixin.

(** The arithmetic of the index computations: [scalar_t] and double, the latter
    including the former.  [s_wdiv] ... [s_wsub] are the operations on doubles,
    [s_cast] the conversion of a double to [scalar_t], [s_floor] floorf and the
    conversion to an integer (interpolate.h:74-136). *)
Record scalars := mkscalars {
  scalar : Type;
  s_int : Z -> scalar;
  s_div : scalar -> scalar -> scalar;
  s_mul : scalar -> scalar -> scalar;
  s_sub : scalar -> scalar -> scalar;
  s_half_more : Z -> scalar;          (* i + 0.5 *)
  s_wdiv : scalar -> scalar -> scalar;
  s_wmul : scalar -> scalar -> scalar;
  s_wsub : scalar -> scalar -> scalar;
  s_cast : scalar -> scalar;
  s_floor : scalar -> Z;
  s_negative : scalar -> bool;        (* a < 0 *)
  s_tiny : scalar -> bool             (* std::abs(a) < 1e-4 *)
}.

(** Sizes of one feature dimension: the local extents, the offsets in the global
    tensors and the global extents, of input and output
    (interpolate_constant_cpu.cpp:51-82, interpolate_linear_cpu.cpp:53-84). *)
Record kdim := mkkdim {
  n_in : Z;
  off_in : Z;
  g_in : Z;
  n_out : Z;
  off_out : Z;
  g_out : Z
}.

(** interpolate.h:58-64. *)
Definition clamp_idx_to_range (idx idx_min idx_max : Z) : Z := Z.min idx_max (Z.max idx_min idx).

(** interpolate.h:66-72. *)
Definition compute_idx (j stride i : Z) : Z := j * stride + i.

Section Indices.
  Variable A : scalars.

  (** interpolate.h:74-92. *)
  Definition compute_nearest_left_idx_weight (k : kdim) (l_o_idx : Z) : Z :=
    let fac := s_div A (s_int A (g_in k)) (s_int A (g_out k)) in
    let idx := s_floor A (s_sub A (s_mul A fac (s_int A (off_out k + l_o_idx))) (s_int A (off_in k))) in
    clamp_idx_to_range idx 0 (n_in k - 1).

  (** interpolate.h:96-136; [scale_factor] is [None] for a non-positive one. *)
  Definition compute_linear_idx_weight (scale_factor : option (scalar A)) (align_corners : bool)
      (k : kdim) (l_o_idx : Z) : Z * scalar A * Z * scalar A :=
    let fac := if align_corners then s_div A (s_int A (g_in k - 1)) (s_int A (g_out k - 1))
               else match scale_factor with
                    | Some s => s_cast A (s_wdiv A (s_int A 1) s)
                    | None => s_div A (s_int A (g_in k)) (s_int A (g_out k))
                    end in
    let idx_ := if align_corners
                then s_sub A (s_mul A fac (s_int A (off_out k + l_o_idx))) (s_int A (off_in k))
                else s_cast A (s_wsub A (s_wmul A fac (s_half_more A (off_out k + l_o_idx)))
                                        (s_half_more A (off_in k))) in
    let idx_ := if s_negative A idx_ then s_int A 0 else idx_ in
    let idx0 := clamp_idx_to_range (s_floor A idx_) 0 (n_in k - 1) in
    let idx1 := clamp_idx_to_range (idx0 + 1) 0 (n_in k - 1) in
    let lambda := s_sub A idx_ (s_int A idx0) in
    let lambda := if s_tiny A lambda then s_int A 0 else lambda in
    let lambda := if s_tiny A (s_wsub A lambda (s_int A 1)) then s_int A 1 else lambda in
    (idx0, s_cast A (s_wsub A (s_int A 1) lambda), idx1, lambda).
End Indices.

Section Kernels.
  Context {R : CRing}.
  Variable A : scalars.
  Variable weight : scalar A -> R.   (* a weight as an element of the tensor *)

  (** [to[st_to] = w * from[st_from]], or [+=]; without a factor if [st_weight]
      is [None]
      (e.g. interpolate_constant_cpu.cpp:104, interpolate_linear_cpu.cpp:110-111). *)
  Record stmt := mkstmt {
    st_add : bool;
    st_to : Z;
    st_weight : option R;
    st_from : Z
  }.

  (** The memory behind a data pointer, interpolate_constant_cpu.cpp:32 and 36. *)
  Definition buffer := Z -> R.

  (** The right-hand side of a statement, e.g. interpolate_linear_cpu.cpp:110-111. *)
  Definition st_value (src : buffer) (s : stmt) : R :=
    match st_weight s with Some w => rmul w (src (st_from s)) | None => src (st_from s) end.

  (** One statement, e.g. interpolate_constant_cpu.cpp:104. *)
  Definition exec (src : buffer) (dst : buffer) (s : stmt) : buffer :=
    fun a => if a =? st_to s
             then (if st_add s then radd (dst a) (st_value src s) else st_value src s)
             else dst a.

  (** The loops of interpolate_constant_cpu.cpp:84-181 and interpolate_linear_cpu.cpp:86-235. *)
  Definition run (prog : list stmt) (src dst : buffer) : buffer := fold_left (exec src) prog dst.

  (** A for loop of interpolate_constant_cpu.cpp:84-181 or interpolate_linear_cpu.cpp:86-235. *)
  Definition loop (n : Z) (body : Z -> list stmt) : list stmt := flat_map body (zrange n).

  (** * interpolate_constant_cpu.cpp: one iteration [c] of the outer loop *)

  Notation nearest := (compute_nearest_left_idx_weight A).

  (** Lines 84-107. *)
  Definition constant_fwd_1d (k0 : kdim) (c : Z) : list stmt :=
    loop (n_out k0) (fun o0 =>
      let i0 := nearest k0 o0 in
      [mkstmt false (compute_idx c (n_out k0) o0) None (compute_idx c (n_in k0) i0)]).

  (** Lines 109-140. *)
  Definition constant_fwd_2d (k1 k0 : kdim) (c : Z) : list stmt :=
    loop (n_out k1) (fun o1 =>
      let i1 := nearest k1 o1 in
      let i_c1 := compute_idx c (n_in k1) i1 in
      let o_c1 := compute_idx c (n_out k1) o1 in
      loop (n_out k0) (fun o0 =>
        let i0 := nearest k0 o0 in
        [mkstmt false (compute_idx o_c1 (n_out k0) o0) None (compute_idx i_c1 (n_in k0) i0)])).

  (** Lines 142-181. *)
  Definition constant_fwd_3d (k2 k1 k0 : kdim) (c : Z) : list stmt :=
    loop (n_out k2) (fun o2 =>
      let i2 := nearest k2 o2 in
      let i_c2 := compute_idx c (n_in k2) i2 in
      let o_c2 := compute_idx c (n_out k2) o2 in
      loop (n_out k1) (fun o1 =>
        let i1 := nearest k1 o1 in
        let i_c1 := compute_idx i_c2 (n_in k1) i1 in
        let o_c1 := compute_idx o_c2 (n_out k1) o1 in
        loop (n_out k0) (fun o0 =>
          let i0 := nearest k0 o0 in
          [mkstmt false (compute_idx o_c1 (n_out k0) o0) None (compute_idx i_c1 (n_in k0) i0)]))).

  (** Lines 290-313. *)
  Definition constant_adj_1d (k0 : kdim) (c : Z) : list stmt :=
    loop (n_out k0) (fun o0 =>
      let i0 := nearest k0 o0 in
      [mkstmt true (compute_idx c (n_in k0) i0) None (compute_idx c (n_out k0) o0)]).

  (** Lines 315-346. *)
  Definition constant_adj_2d (k1 k0 : kdim) (c : Z) : list stmt :=
    loop (n_out k1) (fun o1 =>
      let i1 := nearest k1 o1 in
      let i_c1 := compute_idx c (n_in k1) i1 in
      let o_c1 := compute_idx c (n_out k1) o1 in
      loop (n_out k0) (fun o0 =>
        let i0 := nearest k0 o0 in
        [mkstmt true (compute_idx i_c1 (n_in k0) i0) None (compute_idx o_c1 (n_out k0) o0)])).

  (** Lines 348-387. *)
  Definition constant_adj_3d (k2 k1 k0 : kdim) (c : Z) : list stmt :=
    loop (n_out k2) (fun o2 =>
      let i2 := nearest k2 o2 in
      let i_c2 := compute_idx c (n_in k2) i2 in
      let o_c2 := compute_idx c (n_out k2) o2 in
      loop (n_out k1) (fun o1 =>
        let i1 := nearest k1 o1 in
        let i_c1 := compute_idx i_c2 (n_in k1) i1 in
        let o_c1 := compute_idx o_c2 (n_out k1) o1 in
        loop (n_out k0) (fun o0 =>
          let i0 := nearest k0 o0 in
          [mkstmt true (compute_idx i_c1 (n_in k0) i0) None (compute_idx o_c1 (n_out k0) o0)]))).

  (** * interpolate_linear_cpu.cpp: one iteration [c] of the outer loop *)

  Section Linear.
    Variables (scale_factor : option (scalar A)) (align_corners : bool).
    Notation linear := (compute_linear_idx_weight A scale_factor align_corners).

    (** Lines 86-113. *)
    Definition linear_fwd_1d (k0 : kdim) (c : Z) : list stmt :=
      loop (n_out k0) (fun o0 =>
        let '(i0_0, w0_0, i0_1, w0_1) := linear k0 o0 in
        let o_idx := compute_idx c (n_out k0) o0 in
        [mkstmt false o_idx (Some (weight w0_0)) (compute_idx c (n_in k0) i0_0);
         mkstmt true o_idx (Some (weight w0_1)) (compute_idx c (n_in k0) i0_1)]).

    (** Lines 115-163. *)
    Definition linear_fwd_2d (k1 k0 : kdim) (c : Z) : list stmt :=
      loop (n_out k1) (fun o1 =>
        let '(i1_0, w1_0, i1_1, w1_1) := linear k1 o1 in
        let i_idx_0X := compute_idx c (n_in k1) i1_0 in
        let i_idx_1X := compute_idx c (n_in k1) i1_1 in
        let o_idx_0X := compute_idx c (n_out k1) o1 in
        loop (n_out k0) (fun o0 =>
          let '(i0_0, w0_0, i0_1, w0_1) := linear k0 o0 in
          let o_idx := compute_idx o_idx_0X (n_out k0) o0 in
          [mkstmt false o_idx (Some (rmul (weight w1_0) (weight w0_0))) (compute_idx i_idx_0X (n_in k0) i0_0);
           mkstmt true o_idx (Some (rmul (weight w1_0) (weight w0_1))) (compute_idx i_idx_0X (n_in k0) i0_1);
           mkstmt true o_idx (Some (rmul (weight w1_1) (weight w0_0))) (compute_idx i_idx_1X (n_in k0) i0_0);
           mkstmt true o_idx (Some (rmul (weight w1_1) (weight w0_1))) (compute_idx i_idx_1X (n_in k0) i0_1)])).

    (** Lines 165-235. *)
    Definition linear_fwd_3d (k2 k1 k0 : kdim) (c : Z) : list stmt :=
      loop (n_out k2) (fun o2 =>
        let '(i2_0, w2_0, i2_1, w2_1) := linear k2 o2 in
        let i_idx_0XX := compute_idx c (n_in k2) i2_0 in
        let i_idx_1XX := compute_idx c (n_in k2) i2_1 in
        let o_idx_0XX := compute_idx c (n_out k2) o2 in
        loop (n_out k1) (fun o1 =>
          let '(i1_0, w1_0, i1_1, w1_1) := linear k1 o1 in
          let i_idx_00X := compute_idx i_idx_0XX (n_in k1) i1_0 in
          let i_idx_01X := compute_idx i_idx_0XX (n_in k1) i1_1 in
          let i_idx_10X := compute_idx i_idx_1XX (n_in k1) i1_0 in
          let i_idx_11X := compute_idx i_idx_1XX (n_in k1) i1_1 in
          let o_idx_00X := compute_idx o_idx_0XX (n_out k1) o1 in
          loop (n_out k0) (fun o0 =>
            let '(i0_0, w0_0, i0_1, w0_1) := linear k0 o0 in
            let o_idx := compute_idx o_idx_00X (n_out k0) o0 in
            let w a b c := Some (rmul (rmul (weight a) (weight b)) (weight c)) in
            [mkstmt false o_idx (w w2_0 w1_0 w0_0) (compute_idx i_idx_00X (n_in k0) i0_0);
             mkstmt true o_idx (w w2_0 w1_0 w0_1) (compute_idx i_idx_00X (n_in k0) i0_1);
             mkstmt true o_idx (w w2_0 w1_1 w0_0) (compute_idx i_idx_01X (n_in k0) i0_0);
             mkstmt true o_idx (w w2_0 w1_1 w0_1) (compute_idx i_idx_01X (n_in k0) i0_1);
             mkstmt true o_idx (w w2_1 w1_0 w0_0) (compute_idx i_idx_10X (n_in k0) i0_0);
             mkstmt true o_idx (w w2_1 w1_0 w0_1) (compute_idx i_idx_10X (n_in k0) i0_1);
             mkstmt true o_idx (w w2_1 w1_1 w0_0) (compute_idx i_idx_11X (n_in k0) i0_0);
             mkstmt true o_idx (w w2_1 w1_1 w0_1) (compute_idx i_idx_11X (n_in k0) i0_1)]))).

    (** Lines 347-374. *)
    Definition linear_adj_1d (k0 : kdim) (c : Z) : list stmt :=
      loop (n_out k0) (fun o0 =>
        let '(i0_0, w0_0, i0_1, w0_1) := linear k0 o0 in
        let o_idx := compute_idx c (n_out k0) o0 in
        [mkstmt true (compute_idx c (n_in k0) i0_0) (Some (weight w0_0)) o_idx;
         mkstmt true (compute_idx c (n_in k0) i0_1) (Some (weight w0_1)) o_idx]).

    (** Lines 376-423. *)
    Definition linear_adj_2d (k1 k0 : kdim) (c : Z) : list stmt :=
      loop (n_out k1) (fun o1 =>
        let '(i1_0, w1_0, i1_1, w1_1) := linear k1 o1 in
        let i_idx_0X := compute_idx c (n_in k1) i1_0 in
        let i_idx_1X := compute_idx c (n_in k1) i1_1 in
        let o_idx_0X := compute_idx c (n_out k1) o1 in
        loop (n_out k0) (fun o0 =>
          let '(i0_0, w0_0, i0_1, w0_1) := linear k0 o0 in
          let o_idx := compute_idx o_idx_0X (n_out k0) o0 in
          [mkstmt true (compute_idx i_idx_0X (n_in k0) i0_0) (Some (rmul (weight w1_0) (weight w0_0))) o_idx;
           mkstmt true (compute_idx i_idx_0X (n_in k0) i0_1) (Some (rmul (weight w1_0) (weight w0_1))) o_idx;
           mkstmt true (compute_idx i_idx_1X (n_in k0) i0_0) (Some (rmul (weight w1_1) (weight w0_0))) o_idx;
           mkstmt true (compute_idx i_idx_1X (n_in k0) i0_1) (Some (rmul (weight w1_1) (weight w0_1))) o_idx])).

    (** Lines 425-495. *)
    Definition linear_adj_3d (k2 k1 k0 : kdim) (c : Z) : list stmt :=
      loop (n_out k2) (fun o2 =>
        let '(i2_0, w2_0, i2_1, w2_1) := linear k2 o2 in
        let i_idx_0XX := compute_idx c (n_in k2) i2_0 in
        let i_idx_1XX := compute_idx c (n_in k2) i2_1 in
        let o_idx_0XX := compute_idx c (n_out k2) o2 in
        loop (n_out k1) (fun o1 =>
          let '(i1_0, w1_0, i1_1, w1_1) := linear k1 o1 in
          let i_idx_00X := compute_idx i_idx_0XX (n_in k1) i1_0 in
          let i_idx_01X := compute_idx i_idx_0XX (n_in k1) i1_1 in
          let i_idx_10X := compute_idx i_idx_1XX (n_in k1) i1_0 in
          let i_idx_11X := compute_idx i_idx_1XX (n_in k1) i1_1 in
          let o_idx_00X := compute_idx o_idx_0XX (n_out k1) o1 in
          loop (n_out k0) (fun o0 =>
            let '(i0_0, w0_0, i0_1, w0_1) := linear k0 o0 in
            let o_idx := compute_idx o_idx_00X (n_out k0) o0 in
            let w a b c := Some (rmul (rmul (weight a) (weight b)) (weight c)) in
            [mkstmt true (compute_idx i_idx_00X (n_in k0) i0_0) (w w2_0 w1_0 w0_0) o_idx;
             mkstmt true (compute_idx i_idx_00X (n_in k0) i0_1) (w w2_0 w1_0 w0_1) o_idx;
             mkstmt true (compute_idx i_idx_01X (n_in k0) i0_0) (w w2_0 w1_1 w0_0) o_idx;
             mkstmt true (compute_idx i_idx_01X (n_in k0) i0_1) (w w2_0 w1_1 w0_1) o_idx;
             mkstmt true (compute_idx i_idx_10X (n_in k0) i0_0) (w w2_1 w1_0 w0_0) o_idx;
             mkstmt true (compute_idx i_idx_10X (n_in k0) i0_1) (w w2_1 w1_0 w0_1) o_idx;
             mkstmt true (compute_idx i_idx_11X (n_in k0) i0_0) (w w2_1 w1_1 w0_0) o_idx;
             mkstmt true (compute_idx i_idx_11X (n_in k0) i0_1) (w w2_1 w1_1 w0_1) o_idx]))).
  End Linear.

  (** * The kernels on whole tensors *)

  (** The modes of functional/interpolate/interpolate.py:8-15 and 78-99: constant, or linear with a scale factor and align_corners. *)
  Inductive imode :=
  | Nearest
  | Linear (scale_factor : option (scalar A)) (align_corners : bool).

  (** interpolate_constant_cpu.cpp:51-82, 257-288 and interpolate_linear_cpu.cpp:
      53-84, 314-345: dimension [d], for local tensors of shapes [input_sizes]
      and [output_sizes]. *)
  Definition kernel_dim (input_sizes input_offsets global_input_sizes
      output_sizes output_offsets global_output_sizes : list Z) (d : nat) : kdim :=
    mkkdim (nth d input_sizes 0) (nth d input_offsets 0) (nth d global_input_sizes 0)
           (nth d output_sizes 0) (nth d output_offsets 0) (nth d global_output_sizes 0).

  (** The choice of the loop (constant 183-192 and 389-398, linear 237-250 and
      497-510): the iterations of [at::parallel_for].  [None]: the assertion that
      there are at most three feature dimensions fails. *)
  Definition threads (mode : imode) (adjoint : bool) (input_sizes : list Z) (dim : nat -> kdim) : option (list (list stmt)) :=
    let body :=
      match length input_sizes, mode, adjoint with
      | 3%nat, Nearest, false => Some (constant_fwd_1d (dim 2%nat))
      | 4%nat, Nearest, false => Some (constant_fwd_2d (dim 2%nat) (dim 3%nat))
      | 5%nat, Nearest, false => Some (constant_fwd_3d (dim 2%nat) (dim 3%nat) (dim 4%nat))
      | 3%nat, Nearest, true => Some (constant_adj_1d (dim 2%nat))
      | 4%nat, Nearest, true => Some (constant_adj_2d (dim 2%nat) (dim 3%nat))
      | 5%nat, Nearest, true => Some (constant_adj_3d (dim 2%nat) (dim 3%nat) (dim 4%nat))
      | 3%nat, Linear s a, false => Some (linear_fwd_1d s a (dim 2%nat))
      | 4%nat, Linear s a, false => Some (linear_fwd_2d s a (dim 2%nat) (dim 3%nat))
      | 5%nat, Linear s a, false => Some (linear_fwd_3d s a (dim 2%nat) (dim 3%nat) (dim 4%nat))
      | 3%nat, Linear s a, true => Some (linear_adj_1d s a (dim 2%nat))
      | 4%nat, Linear s a, true => Some (linear_adj_2d s a (dim 2%nat) (dim 3%nat))
      | 5%nat, Linear s a, true => Some (linear_adj_3d s a (dim 2%nat) (dim 3%nat) (dim 4%nat))
      | _, _, _ => None
      end in
    option_map (fun b => map b (zrange (nth 0 input_sizes 0 * nth 1 input_sizes 0))) body.

  Notation tensor := (tensor R).

  (** The memory of a contiguous tensor
      (interpolate_constant_cpu.cpp:32 and 36). *)
  Definition memory (t : tensor) : buffer := fun a => tat t (cart_coords (tshape t) a).
  (** The tensor over that memory, interpolate_constant_cpu.cpp:32 and 36. *)
  Definition of_memory (shape : list Z) (m : buffer) : tensor :=
    mkt shape (fun i => m (cartesian_index_c shape i)).

  Variables (mode : imode) (x_start x_stop x_global_shape y_start y_stop y_global_shape : list Z).

  (** interpolate.py:33-101 [InterpolateFunction.forward].  The iterations of the
      parallel loop are executed one after the other; C47 is about other orders. *)
  Definition interpolate_forward (x : tensor) : result tensor :=
    let y_shape := map2 Z.sub y_stop y_start in
    let dim := kernel_dim (tshape x) x_start x_global_shape y_shape y_start y_global_shape in
    match threads mode false (tshape x) dim with
    | None => Raise ErrTorch
    | Some ts => Ok (of_memory y_shape (run (concat ts) (memory x) (fun _ => rzero)))
    end.

  (** interpolate.py:104-145 [InterpolateFunction.backward]. *)
  Definition interpolate_backward (dy : tensor) : result tensor :=
    let x_shape := map2 Z.sub x_stop x_start in
    let dim := kernel_dim x_shape x_start x_global_shape (tshape dy) y_start y_global_shape in
    match threads mode true x_shape dim with
    | None => Raise ErrTorch
    | Some ts => Ok (of_memory x_shape (run (concat ts) (memory dy) (fun _ => rzero)))
    end.
End Kernels.

Arguments Nearest {A}.
Arguments Linear {A}.
