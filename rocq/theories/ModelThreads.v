(** The calls of the interpolation kernels as far as ModelInterpolate leaves them
    out: the memory layout of the input, the grain size, and the distribution of the
    iterations over threads by [at::parallel_for].

    Simplifications: the output is the tensor of torch.zeros that
    functional/interpolate/interpolate.py:93 and 137 pass, which is contiguous, so that
    the branches interpolate_constant_cpu.cpp:194-196, 400-402 and
    interpolate_linear_cpu.cpp:252-254, 512-514 are not taken; threads are interleaved
    statement by statement. *)

From Verif Require Import Prelude ModelSlicing ModelPartition Ring Tensor ModelHaloMixin ModelInterpolate ModelUpsample.
Local Open Scope Z_scope.

(** * Memory layout *)

(** A torch tensor: sizes, strides, the position of its first element and its storage
    (e.g. the slice of upsampling.py:282 shares the storage of the halo layer's
    output). *)
Record strided (R : CRing) := mkstrided {
  sd_sizes : list Z;
  sd_strides : list Z;
  sd_offset : Z;
  sd_storage : Z -> R
}.
Arguments mkstrided {R}.
Arguments sd_sizes {R}.
Arguments sd_strides {R}.
Arguments sd_offset {R}.
Arguments sd_storage {R}.

Section Layout.
  Context {R : CRing}.

  (** torch: the element with index [i]. *)
  Definition element (t : strided R) (i : list Z) : R :=
    sd_storage t (sd_offset t + zsum (map2 Z.mul (sd_strides t) i)).

  (** The tensor as a function of the index (torch). *)
  Definition seen (t : strided R) : tensor R := mkt (sd_sizes t) (element t).

  (** torch's [compute_contiguous]: dimensions of extent one have any stride; empty
      tensors are contiguous. *)
  Definition dense (sizes strides : list Z) : bool * Z :=
    fold_right (fun p d => if fst p =? 1 then d else (fst d && (snd p =? snd d), snd d * fst p)) (true, 1) (combine sizes strides).
  (** torch's [is_contiguous], which decides whether [contiguous()] copies. *)
  Definition is_contiguous (t : strided R) : bool :=
    existsb (Z.eqb 0) (sd_sizes t) || fst (dense (sd_sizes t) (sd_strides t)).

  (** The memory at [input.contiguous().data_ptr<scalar_t>()],
      interpolate_constant_cpu.cpp:31-32 and 241-242, interpolate_linear_cpu.cpp:33-34
      and 298-299: the tensor's own memory, or that of a copy. *)
  Definition data_ptr (t : strided R) : @buffer R :=
    if is_contiguous t then fun a => sd_storage t (sd_offset t + a)
    else fun a => element t (cart_coords (sd_sizes t) a).
End Layout.

(** * Threads *)

(** [at::divup] of torch. *)
Definition divup (x y : Z) : Z := (x + y - 1) ÷ y.

(** torch's [at::parallel_for] (ATen/ParallelOpenMP.h) on 0 .. [n] - 1: the ranges that the
    threads call the loop body with.  [team] is the number of threads that OpenMP
    provides, [busy] whether the call is made inside a parallel region. *)
Definition parallel_for (team : Z) (busy : bool) (n grain : Z) : list (Z * Z) :=
  if n <=? 0 then []
  else
    let team := if negb busy && (grain <? n) then team else 1 in
    let num_threads := if 0 <? grain then Z.min team (divup n grain) else team in
    let chunk := divup n num_threads in
    flat_map (fun tid => let b := tid * chunk in if b <? n then [(b, Z.min n (chunk + b))] else []) (zrange team).

(** torch's constant [at::internal::GRAIN_SIZE]. *)
Definition GRAIN_SIZE : Z := 32768.

(** The grain size: interpolate_constant_cpu.cpp:183-192 and 389-398,
    interpolate_linear_cpu.cpp:237-249 and 497-509, for local outputs with the
    feature extents [ys].  [None]: an integer is divided by zero, which is undefined
    in C++ and ends the process on common machines. *)
Definition grain_size {A : scalars} (mode : imode A) (ys : list Z) : option Z :=
  match mode with
  | Nearest => Some GRAIN_SIZE
  | Linear _ _ =>
      let output_slice_size := fold_right (fun y z => z * y) 1 ys in
      if output_slice_size =? 0 then None else Some ((GRAIN_SIZE ÷ output_slice_size) ÷ 2 ^ Z.of_nat (length ys))
  end.

(** What a call of a kernel does: fail an assertion, divide by zero, or run threads
    (interpolate_constant_cpu.cpp:183-192, interpolate_linear_cpu.cpp:237-250). *)
Inductive kernel_run (S : Type) : Type :=
| Refused
| Crashed
| Running (threads : list (list S)).
Arguments Refused {S}.
Arguments Crashed {S}.
Arguments Running {S}.

Section Call.
  Context {R : CRing}.
  Variable A : scalars.
  Variable weight : scalar A -> R.
  Variables (mode : imode A) (team : Z) (busy : bool).

  (** The end of a kernel, interpolate_constant_cpu.cpp:183-192 and 389-398,
      interpolate_linear_cpu.cpp:237-250 and 497-510: the statements of each thread;
      the loops run from [begin] to [end], e.g. interpolate_constant_cpu.cpp:88. *)
  Definition kernel_call (adjoint : bool) (input_sizes output_sizes : list Z) (dim : nat -> kdim) : kernel_run (@stmt R) :=
    match threads A weight mode adjoint input_sizes dim with
    | None => Refused
    | Some iterations =>
        match grain_size mode (skipn 2 output_sizes) with
        | None => Crashed
        | Some g =>
            Running (map (fun r => concat (firstn (Z.to_nat (snd r - fst r)) (skipn (Z.to_nat (fst r)) iterations)))
                         (parallel_for team busy (nth 0 input_sizes 0 * nth 1 input_sizes 0) g))
        end
    end.

  Variables (x_start x_stop x_global_shape y_start y_stop y_global_shape : list Z).

  (** functional/interpolate/interpolate.py:92-99. *)
  Definition forward_call (x : strided R) : kernel_run (@stmt R) :=
    let y_shape := map2 Z.sub y_stop y_start in
    kernel_call false (sd_sizes x) y_shape (kernel_dim (sd_sizes x) x_start x_global_shape y_shape y_start y_global_shape).

  (** functional/interpolate/interpolate.py:135-143. *)
  Definition backward_call (dy : strided R) : kernel_run (@stmt R) :=
    let x_shape := map2 Z.sub x_stop x_start in
    kernel_call true x_shape (sd_sizes dy) (kernel_dim x_shape x_start x_global_shape (sd_sizes dy) y_start y_global_shape).

  (** functional/interpolate/interpolate.py:93-101 and 137-145: the tensor returned
      when the statements of all threads were executed in the order [order]. *)
  Definition returned (shape : list Z) (order : list (@stmt R)) (input : strided R) : tensor R :=
    of_memory shape (run order (data_ptr input) (fun _ => rzero)).
End Call.

Section Layer.
  Context {R : CRing}.
  Variable T : float_types.
  Variable weight : scalar (f_kernel T) -> R.
  Variables (P : part) (a : upsample_args T).
  Variable shape : Z -> list Z.

  (** upsampling.py:283: the call of the kernel on worker [v], for an input of the
      sizes that the slice of line 282 has; [None] on an inactive worker. *)
  Definition upsample_call (team : Z) (busy : bool) (v : Z) (needed : usetup -> strided R) : result (option (kernel_run (@stmt R))) :=
    let* u := upsample_setup T P a shape v in
    Ok (option_map (fun u => forward_call (f_kernel T) weight (kernel_mode a) team busy (v_x_start u) (v_x_global u)
                               (v_y_start u) (v_y_stop u) (v_y_global u) (needed u)) u).
End Layer.
