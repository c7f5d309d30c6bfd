(** The backward pass of nn/conv_channel.py with an arithmetic that is not fixed:
    torch's convolution, its gradients and MPI_SUM are parameters. *)

From Verif Require Import Prelude SpecIndex ModelSlicing ModelDecomposition ModelPartition Ring Tensor ModelCollectives
  ModelUtilities ModelRepartition ModelHaloMixin ModelFeatureLayer ModelLinear ModelConv ModelWorkGrad ModelReduce ModelConvReduce.

Section Channel.
  Context {R : CRing}.
  Notation tensor := (tensor R).
  Variable red : Z -> list Z -> list R -> list Z -> R.
  (** torch.nn.Conv{1,2,3}d on worker [v], see ModelConvReduce.v, and its gradients for
      its input, weight and bias, from weight, input and gradient of the output. *)
  Variable torch : Z -> bool -> tensor -> option tensor -> tensor -> result tensor.
  Variables back_x back_w back_b : Z -> bool -> tensor -> tensor -> tensor -> result tensor.

  Variables Px Py Pw : part.
  Variable use_bias : bool.
  Variables (dt dt' : Z -> Z) (rg rg' : Z -> bool).
  Variables weight bias x dy : Z -> tensor.

  (** conv_channel.py:331-348 backwards; see [channel_conv_backward]. *)
  Definition channel_backward_by (v : Z) : result tensor :=
    if inactive Px Py Pw v then Ok (dy v)
    else
      let* Px' := recast_x ChannelConv Px Pw v in
      let* Py' := recast_y ChannelConv Py Pw v in
      if serial Pw v then back_x v true (weight v) (x v) (dy v)
      else if partner_missing Pw v then Raise ErrComm
      else work_backward_by red Px' Pw Py' false false false dt dt' rg rg' (channel_local_by torch Pw use_bias weight bias)
             (fun u => back_x u true (weight u)) x dy v.

  (** The gradient of a parameter, conv_channel.py:339 or 344 backwards; see
      [channel_layer_gradient]. *)
  Definition channel_gradient_by (back : Z -> bool -> tensor -> tensor -> tensor -> result tensor) (v : Z) : result tensor :=
    let* Px' := recast_x ChannelConv Px Pw v in
    let* Py' := recast_y ChannelConv Py Pw v in
    if serial Pw v then back v true (weight v) (x v) (dy v)
    else work_layer_gradient Px' Pw Py' false false false dt dt' rg rg' (channel_local_by torch Pw use_bias weight bias) x dy
           (fun u => back u true (weight u)) v.
  (** conv_channel.py:323-348 backwards, for the weight. *)
  Definition channel_weight_by : Z -> result tensor := channel_gradient_by back_w.
  (** conv_channel.py:196-197, 209 and 228-238; see [channel_bias_gradient]. *)
  Definition channel_bias_by (v : Z) : option (result tensor) :=
    match index_in Pw v with
    | Some idx => if use_bias && (serial Pw v || (nth 1 idx 0 =? 0)) then Some (channel_gradient_by back_b v) else None
    | None => None
    end.
End Channel.
