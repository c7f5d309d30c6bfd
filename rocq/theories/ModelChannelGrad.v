(** The backward pass of nn/conv_channel.py.  The padding mode is 'zeros'. *)

From Verif Require Import Prelude SpecIndex ModelSlicing ModelDecomposition ModelPartition Ring Tensor ModelCollectives
  ModelUtilities ModelRepartition ModelHaloMixin ModelFeatureLayer ModelLinear ModelConv ModelGradients ModelFeatureGrad ModelWorkGrad.

Section Channel.
  Context {R : CRing}.
  Notation tensor := (tensor R).
  Variables Px Py Pw : part.
  Variables (w : window) (groups : Z) (use_bias : bool).
  Variables (dt dt' : Z -> Z) (rg rg' : Z -> bool).
  Variables weight bias : Z -> tensor.     (* the parameters of every worker *)

  (** The gradients of torch.nn.Conv{1,2,3}d with its own padding
      (conv_channel.py:186-195 and 216-224) for its input, weight and bias, given the
      input [t] and the gradient [g] of its output. *)
  Definition torch_conv_input_grad (wt t g : tensor) : result tensor :=
    pad_backward (own_padding w)
      (sliding_backward (conv_coefficients (nth 0 (tshape wt) 0) groups wt) w
         (map2 (fun n p => n + fst p + snd p) (tshape t) (own_padding w)) g).
  (** For the weight, conv_channel.py:216-224. *)
  Definition torch_conv_weight_grad (wt t g : tensor) : result tensor :=
    match f_pad rzero (distdl_padding_to_torch_padding (own_padding w)) (length (tshape t)) t with
    | Some t => Ok (conv_weight_backward w (nth 0 (tshape wt) 0) groups t g)
    | None => Raise ErrTorch
    end.
  (** For the bias, conv_channel.py:216-224. *)
  Definition torch_conv_bias_grad (wt g : tensor) : result tensor :=
    Ok (conv_bias_backward (nth 0 (tshape wt) 0) g).

  Variables x dy : Z -> tensor.

  (** conv_channel.py:331-348 backwards: the gradient of the input. *)
  Definition channel_conv_backward (v : Z) : result tensor :=
    if inactive Px Py Pw v then Ok (dy v)
    else
      let* Px' := recast_x ChannelConv Px Pw v in
      let* Py' := recast_y ChannelConv Py Pw v in
      if serial Pw v then torch_conv_input_grad (weight v) (x v) (dy v)
      else if partner_missing Pw v then Raise ErrComm
      else work_backward Px' Pw Py' false false false dt dt' rg rg' (channel_local Pw w groups use_bias weight bias)
             (fun u => torch_conv_input_grad (weight u)) x dy v.

  (** The gradient [back] of a parameter of worker [v] of P_w: the layer of
      conv_channel.py:339 on a single worker, else that of line 344. *)
  Definition channel_layer_gradient (back : Z -> tensor -> tensor -> result tensor) (v : Z) : result tensor :=
    let* Px' := recast_x ChannelConv Px Pw v in
    let* Py' := recast_y ChannelConv Py Pw v in
    if serial Pw v then back v (x v) (dy v)
    else work_layer_gradient Px' Pw Py' false false false dt dt' rg rg' (channel_local Pw w groups use_bias weight bias) x dy back v.
  (** conv_channel.py:323-348 backwards: the gradient of the weight. *)
  Definition channel_weight_gradient : Z -> result tensor :=
    channel_layer_gradient (fun u => torch_conv_weight_grad (weight u)).

  (** conv_channel.py:196-197, 209 and 228-238: which workers have a bias. *)
  Definition channel_bias_gradient (v : Z) : option (result tensor) :=
    match index_in Pw v with
    | Some idx =>
        if use_bias && (serial Pw v || (nth 1 idx 0 =? 0))
        then Some (channel_layer_gradient (fun u _ g => torch_conv_bias_grad (weight u) g) v)
        else None
    | None => None
    end.
End Channel.
