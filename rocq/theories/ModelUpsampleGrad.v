(** The backward pass of the upsampling layer. *)

From Verif Require Import Prelude SpecIndex Ring Tensor ModelSlicing ModelDecomposition ModelPartition ModelUtilities ModelRepartition
  ModelHaloMixin ModelFeatureLayer ModelInterpolate ModelScalars ModelUpsample ModelGradients.
Local Open Scope Z_scope.

Section Backward.
  Context {R : CRing}.
  Variable T : float_types.
  Variable weight : scalar (f_kernel T) -> R.
  Variables (P : part) (a : upsample_args T).
  Variable shape : Z -> list Z.
  Notation tensor := (tensor R).

  (** upsampling.py:281-284 backwards, up to the halo layer's backward: the
      gradient of the interpolation (interpolate.py:104-145), then of the slice.
      [padded v] are the extents of the tensor that worker [v] exchanged, which
      the halo layer keeps.  On an inactive worker (lines 269-270) the layer is
      [input.clone()]. *)
  Definition upsample_cotangent (padded : Z -> list Z) (dy : Z -> tensor) (v : Z) : result tensor :=
    let* u := upsample_setup T P a shape v in
    match u with
    | None => Ok (dy v)
    | Some u =>
        let* d := interpolate_backward (f_kernel T) weight (kernel_mode a) (v_x_start u) (v_x_stop u) (v_x_global u)
                    (v_y_start u) (v_y_global u) (dy v) in
        Ok (slice_backward (padded v) (map2 py_range (padded v) (e_needed (v_info u))) d)
    end.

  (** upsampling.py:272-279 backwards, from the result [back] of the halo layer's
      backward. *)
  Definition upsample_gradient (dy back : Z -> tensor) (v : Z) : result tensor :=
    let* u := upsample_setup T P a shape v in
    match u with
    | None => Ok (dy v)
    | Some u => pad_backward (e_halo (v_info u)) (back v)
    end.

  (** What worker [v] hands to its halo layer's backward
      (upsampling.py:281). *)
  Definition upsample_back_argument (padded : Z -> list Z) (dy : Z -> tensor) (v : Z) : tensor :=
    match upsample_cotangent padded dy v with Ok t => t | Raise _ => dy v end.
End Backward.
