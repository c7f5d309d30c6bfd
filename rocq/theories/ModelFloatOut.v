(** The floating-point computation in nn/mixins/halo_mixin.py
    [_compute_out_shape], on IEEE binary64 numbers seen as real numbers.

    Overflow and NaN are left out: quotients of 64-bit integers are finite, and
    strides are positive. *)

From Coq Require Import Reals.
From Flocq Require Import Core.
From Verif Require Import Prelude ModelHaloMixin.

(** Round to nearest, ties to even, with the precision and smallest exponent of
    binary64: the result of every operation of numpy's float64. *)
Definition b64 (x : R) : R := round radix2 (FLT_exp (-1074) 53) ZnearestE x.

(** halo_mixin.py:143-146, one dimension: an integer sum, a division that first
    converts both operands to float64, a float64 addition, a floor. *)
Definition out_extent_float (n k s p d : Z) : Z :=
  Zfloor (b64 (b64 (b64 (IZR (n + 2 * p - d * (k - 1) - 1)) / b64 (IZR s)) + 1)).

(** halo_mixin.py:143-146. *)
Definition compute_out_shape_float (shape : list Z) (w : window) : list Z :=
  vec (length shape) (fun j =>
    out_extent_float (nth j shape 0) (nth j (w_kernel w) 0) (nth j (w_stride w) 0)
                     (nth j (w_padding w) 0) (nth j (w_dilation w) 0)).
