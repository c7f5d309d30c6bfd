(** Model of nn/linear.py, and of the part it shares with nn/conv_channel.py and
    nn/conv_general.py: the input is broadcast to the workers of P_w, each of
    them applies its own torch layer, and the results are summed to P_y. *)

From Verif Require Import Prelude ModelSlicing ModelPartition Ring Tensor ModelCollectives ModelRepartition.

Section Work.
  Context {R : CRing}.
  Notation tensor := (tensor R).
  Variables Px Pw Py : part.
  Variables same_xw same_wy : bool.       (* P_x is P_w, P_w is P_y (see [is_identity]) *)
  Variable ts : bool.                     (* transpose_src of the reduction *)
  Variables (dt dt' : Z -> Z) (rg rg' : Z -> bool).
  Variable local : Z -> tensor -> result tensor.   (* the worker's torch layer *)
  Variable x : Z -> tensor.

  (** What worker [v] hands to the reduction: linear.py:101-106,
      conv_channel.py:341-344, conv_general.py:580-584. *)
  Definition work_local (v : Z) : result tensor :=
    let* t := broadcast_layer Px Pw same_xw false false true dt rg x v in
    if is_active (p_ranks Pw) v then local v t else Ok t.

  (** The same as a function of the worker; a worker whose layer failed
      contributes a tensor without dimensions, which no other worker has
      (linear.py:103-106, conv_channel.py:344-346). *)
  Definition work_contribution (v : Z) : tensor :=
    match work_local v with Ok t => t | Raise _ => mkt [] (fun _ => rzero) end.

  (** linear.py:98-108, conv_channel.py:331-348, conv_general.py:548-589 (without
      the halo exchange and the parameters). *)
  Definition work_forward (v : Z) : result tensor :=
    if negb (is_active (p_ranks Px) v || is_active (p_ranks Py) v || is_active (p_ranks Pw) v) then Ok (x v)
    else
      let* t := work_local v in
      sum_reduce_layer Pw Py same_wy ts false true dt' rg' work_contribution v.
End Work.

Section Linear.
  Context {R : CRing}.
  Notation tensor := (tensor R).

  (** torch.nn.functional.linear: x W^T + b over the last dimension of [x], [weight]
      of shape (out, in). *)
  Definition torch_linear (weight : tensor) (bias : option tensor) (x : tensor) : result tensor :=
    match tshape x, tshape weight with
    | _ :: _, [n_out; n_in] =>
        if last (tshape x) 0 =? n_in
        then Ok (mkt (removelast (tshape x) ++ [n_out]) (fun i =>
               radd (sumf (zrange n_in) (fun f => rmul (tat x (removelast i ++ [f])) (tat weight [last i 0; f])))
                    (match bias with Some b => tat b [last i 0] | None => rzero end)))
        else Raise ErrTorch
    | _, _ => Raise ErrTorch
    end.

  Section Layer.
    Variables Px Py Pw : part.
    Variables in_features out_features : Z.
    Variable use_bias : bool.

    (** linear.py:72-79: the shape (out, in) of the weight of worker [v] of P_w and
        whether its layer has a bias.  ([compute_subshape] with numbers instead of
        lists is its one-dimensional case.) *)
    Definition sublinear_shape (idx : list Z) : list Z :=
      compute_subshape [nth 0 (p_shape Pw) 0] [nth 0 idx 0] [out_features] ++
      compute_subshape [nth 1 (p_shape Pw) 0] [nth 1 idx 0] [in_features].
    (** linear.py:78-79: only the first worker of a row has a bias. *)
    Definition sublinear_bias (idx : list Z) : bool := if last idx 0 =? 0 then use_bias else false.

    (** linear.py:88-108; [weight] and [bias] are the parameters of the workers'
        layers. *)
    Definition sublinear (weight bias : Z -> tensor) (v : Z) (t : tensor) : result tensor :=
      match index_in Pw v with
      | None => Raise ErrInactive
      | Some idx => torch_linear (weight v) (if sublinear_bias idx then Some (bias v) else None) t
      end.

    (** linear.py:85-108. *)
    Definition linear_forward (same_xw same_wy : bool) dt dt' rg rg' (weight bias x : Z -> tensor) (v : Z) : result tensor :=
      work_forward Px Pw Py same_xw same_wy true dt dt' rg rg' (sublinear weight bias) x v.
  End Layer.
End Linear.
