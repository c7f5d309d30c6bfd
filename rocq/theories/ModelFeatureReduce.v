(** The backward pass of nn/conv_feature.py with an arithmetic that is not fixed:
    torch's gradients and MPI_SUM are parameters. *)

From Verif Require Import Prelude SpecIndex ModelSlicing ModelDecomposition ModelPartition Ring Tensor ModelCollectives
  ModelUtilities ModelRepartition ModelHaloMixin ModelFeatureLayer ModelGradients ModelFeatureGrad ModelReduce.

Section Feature.
  Context {R : CRing}.
  Notation tensor := (tensor R).
  Variable red : Z -> list Z -> list R -> list Z -> R.
  (** The gradients of torch.nn.Conv{1,2,3}d on worker [v], with its own padding or
      without any, see ModelConvGradReduce.v. *)
  Variables back_x back_w back_b : Z -> bool -> tensor -> tensor -> tensor -> result tensor.

  Variables (P : part) (w : window) (dt : Z -> Z) (rg : Z -> bool).
  (** [exchanged] are the outputs of the halo layer in the forward pass. *)
  Variables weight bias x exchanged dy : Z -> tensor.
  Let shape v := tshape (x v).

  (** conv_feature.py:373-374 and 391-393 backwards; see [conv_cotangent]. *)
  Definition conv_cotangent_by (v : Z) : result tensor :=
    if negb (is_active (p_ranks P) v) then Ok (dy v)
    else if Nat.eqb (length (p_ranks P)) 1 then Ok (dy v)
    else
      let* wt := conv_parameter P dt rg weight v in
      let* u := feature_setup P w shape v in
      match u with
      | None => Ok (dy v)
      | Some u =>
          let* g := back_x v false wt (slice_tensor (exchanged v) (u_needed u)) (dy v) in
          Ok (slice_backward (tshape (exchanged v)) (map2 py_slice (tshape (exchanged v)) (u_needed u)) g)
      end.
  (** What worker [v] hands to its halo layer's backward, conv_feature.py:391. *)
  Definition conv_back_argument_by (v : Z) : tensor := match conv_cotangent_by v with Ok t => t | Raise _ => dy v end.

  (** conv_feature.py:357-393 backwards: the gradient of the input, from the results
      [back] of the halo layer's backward; see [conv_gradient]. *)
  Definition conv_gradient_by (back : Z -> tensor) (v : Z) : result tensor :=
    if negb (is_active (p_ranks P) v) then Ok (dy v)
    else if Nat.eqb (length (p_ranks P)) 1 then back_x v true (weight v) (x v) (dy v)
    else feature_gradient P w shape dy back v.

  (** The gradients of the broadcast parameters on every worker, conv_feature.py:393;
      [back] is the torch layer's gradient for the parameter. *)
  Definition conv_local_grad_by (back : Z -> bool -> tensor -> tensor -> tensor -> result tensor) (v : Z) : result tensor :=
    let* wt := conv_parameter P dt rg weight v in
    let* u := feature_setup P w shape v in
    match u with
    | None => Raise ErrTorch
    | Some u => back v false wt (slice_tensor (exchanged v) (u_needed u)) (dy v)
    end.

  (** conv_feature.py:373-378 backwards, on a single worker lines 370-371. *)
  Definition conv_parameter_gradient_by (param : Z -> tensor)
      (back : Z -> bool -> tensor -> tensor -> tensor -> result tensor) (v : Z) : result tensor :=
    if Nat.eqb (length (p_ranks P)) 1 then back v true (weight v) (x v) (dy v)
    else
      broadcast_layer_backward_by red (weight_part P) P false false false false dt rg param
        (fun u => match conv_local_grad_by back u with Ok t => t | Raise _ => dy u end) v.
  (** conv_feature.py:373-374 backwards. *)
  Definition conv_weight_gradient_of : Z -> result tensor := conv_parameter_gradient_by weight back_w.
  (** conv_feature.py:376-378 backwards. *)
  Definition conv_bias_gradient_of : Z -> result tensor := conv_parameter_gradient_by bias back_b.
End Feature.
