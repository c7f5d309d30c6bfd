(** The backward pass of nn/linear.py and nn/conv_channel.py: autograd runs the
    backward of the sum-reduction, of the worker's torch layer and of the
    broadcast, in this order. *)

From Verif Require Import Prelude ModelSlicing ModelPartition Ring Tensor ModelCollectives ModelRepartition ModelLinear.

Section Work.
  Context {R : CRing}.
  Notation tensor := (tensor R).
  Variables Px Pw Py : part.
  Variables same_xw same_wy : bool.
  Variable ts : bool.
  Variables (dt dt' : Z -> Z) (rg rg' : Z -> bool).
  Variable local : Z -> tensor -> result tensor.            (* the worker's torch layer *)
  Variable local_back : Z -> tensor -> tensor -> result tensor.   (* its gradient for an input, given its output's *)
  Variables x dy : Z -> tensor.

  (** linear.py:106, conv_channel.py:344 backwards: the gradient that reaches the
      output of the worker's torch layer. *)
  Definition work_cotangent (v : Z) : result tensor :=
    sum_reduce_layer_backward Pw Py same_wy ts false true dt' rg' (work_contribution Px Pw same_xw dt rg local x) dy v.

  (** The backward [back] of the worker's torch layer on the input that the
      broadcast gave it (linear.py:98-103, conv_channel.py:338-342). *)
  Definition work_layer_gradient (back : Z -> tensor -> tensor -> result tensor) (v : Z) : result tensor :=
    let* g := work_cotangent v in
    let* t := broadcast_layer Px Pw same_xw false false true dt rg x v in
    back v t g.

  (** The gradient that reaches the broadcast's output; without a torch layer the
      broadcast's output is the reduction's input. *)
  Definition work_back_local (v : Z) : result tensor :=
    if is_active (p_ranks Pw) v then work_layer_gradient local_back v else work_cotangent v.
  (** The same as a function of the worker, what the broadcast of linear.py:99 gets back. *)
  Definition work_back_contribution (v : Z) : tensor :=
    match work_back_local v with Ok t => t | Raise _ => mkt [] (fun _ => rzero) end.

  (** linear.py:94-108, conv_channel.py:331-348 backwards. *)
  Definition work_backward (v : Z) : result tensor :=
    if negb (is_active (p_ranks Px) v || is_active (p_ranks Py) v || is_active (p_ranks Pw) v) then Ok (dy v)
    else
      let* t := work_back_local v in
      broadcast_layer_backward Px Pw same_xw false false true dt rg x work_back_contribution v.
End Work.

Section Linear.
  Context {R : CRing}.
  Notation tensor := (tensor R).

  (** The gradients of torch.nn.functional.linear (y = x W^T + b) for its input,
      weight and bias, given the gradient [g] of its output. *)
  Definition torch_linear_input_grad (weight x g : tensor) : result tensor :=
    match tshape weight with
    | [n_out; n_in] =>
        Ok (mkt (tshape x) (fun i =>
          sumf (zrange n_out) (fun o => rmul (tat g (removelast i ++ [o])) (tat weight [o; last i 0]))))
    | _ => Raise ErrTorch
    end.
  (** For the weight, linear.py:103. *)
  Definition torch_linear_weight_grad (weight x g : tensor) : tensor :=
    mkt (tshape weight) (fun i =>
      sumf (indices (removelast (tshape x))) (fun l => rmul (tat g (l ++ [nth 0 i 0])) (tat x (l ++ [nth 1 i 0])))).
  (** For the bias, linear.py:103. *)
  Definition torch_linear_bias_grad (bias x g : tensor) : tensor :=
    mkt (tshape bias) (fun i => sumf (indices (removelast (tshape x))) (fun l => tat g (l ++ [nth 0 i 0]))).

  Section Layer.
    Variables Px Py Pw : part.
    Variable use_bias : bool.
    Variables same_xw same_wy : bool.
    Variables (dt dt' : Z -> Z) (rg rg' : Z -> bool).
    Variables weight bias x dy : Z -> tensor.

    (** linear.py:82-108 backwards: the gradients of the input and of the
        parameters of worker [v]; a worker without a bias has no gradient for
        it. *)
    Definition linear_backward : Z -> result tensor :=
      work_backward Px Pw Py same_xw same_wy true dt dt' rg rg' (sublinear Pw use_bias weight bias)
        (fun v => torch_linear_input_grad (weight v)) x dy.
    (** linear.py:85-108 backwards: the gradient of the weight. *)
    Definition linear_weight_gradient : Z -> result tensor :=
      work_layer_gradient Px Pw Py same_xw same_wy true dt dt' rg rg' (sublinear Pw use_bias weight bias) x dy
        (fun v t g => Ok (torch_linear_weight_grad (weight v) t g)).
    (** linear.py:85-108 backwards: the gradient of the bias. *)
    Definition linear_bias_gradient (v : Z) : option (result tensor) :=
      match index_in Pw v with
      | Some idx =>
          if sublinear_bias use_bias idx
          then Some (work_layer_gradient Px Pw Py same_xw same_wy true dt dt' rg rg' (sublinear Pw use_bias weight bias) x dy
                      (fun v t g => Ok (torch_linear_bias_grad (bias v) t g)) v)
          else None
      | None => None
      end.
  End Layer.
End Linear.
