(** The backward pass of the average pools of nn/pooling.py with an arithmetic that is
    not fixed: torch's gradient is a parameter. *)

From Verif Require Import Prelude SpecIndex ModelSlicing ModelDecomposition ModelPartition Ring Tensor ModelCollectives
  ModelUtilities ModelRepartition ModelHaloMixin ModelFeatureLayer ModelGradients ModelFeatureGrad.

Section Pool.
  Context {R : CRing}.
  Notation tensor := (tensor R).
  (** The gradient of torch.nn.AvgPool{1,2,3}d without padding (pooling.py:104-107) on
      worker [v], from the layer's input and the gradient of its output. *)
  Variable back : Z -> tensor -> tensor -> result tensor.
  Variables (P : part) (w : window).
  (** [exchanged] are the outputs of the halo layer in the forward pass
      (pooling.py:298). *)
  Variables x exchanged dy : Z -> tensor.

  (** pooling.py:299-300 backwards: the gradient of the torch layer, then of the slice;
      on an inactive worker the layer is [input.clone()] (lines 286-287). *)
  Definition pool_cotangent_by (v : Z) : result tensor :=
    let* u := feature_setup P w (fun v => tshape (x v)) v in
    match u with
    | None => Ok (dy v)
    | Some u =>
        let* g := back v (slice_tensor (exchanged v) (u_needed u)) (dy v) in
        Ok (slice_backward (tshape (exchanged v)) (map2 py_slice (tshape (exchanged v)) (u_needed u)) g)
    end.
  (** What worker [v] hands to its halo layer's backward, pooling.py:298. *)
  Definition pool_back_argument_by (v : Z) : tensor := match pool_cotangent_by v with Ok t => t | Raise _ => dy v end.
  (** pooling.py:289-296 backwards, from the results [back] of the halo layer's backward. *)
  Definition pool_gradient_by (back : Z -> tensor) (v : Z) : result tensor :=
    feature_gradient P w (fun v => tshape (x v)) dy back v.
End Pool.
