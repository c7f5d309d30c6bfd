(** Model of the reductions with an arithmetic that is not fixed: MPI_Reduce and
    MPI_Allreduce with MPI_SUM may add the contributions in any order and
    bracketing, which may differ between workers, groups and elements. *)

From Verif Require Import Prelude ModelSlicing ModelPartition Ring Tensor ModelCollectives ModelLinear ModelWorkGrad.

Section Functions.
  Context {R : CRing}.
  Notation tensor := (tensor R).

  (** [red v g l i]: the number that worker [v] receives for element [i], where
      [l] are the contributions of the members of [g], in rank order. *)
  Variable red : Z -> list Z -> list R -> list Z -> R.

  (** MPI_Ireduce / MPI_Iallreduce with MPI_SUM on worker [v] into a buffer of the
      given shape; see [ireduce]. *)
  Definition ireduce_by (v : Z) (g : list Z) (contrib : Z -> option tensor) (buf : list Z) : result tensor :=
    let* l := contributions g contrib in
    if forallb (fun t => zlist_eqb (tshape t) buf) l
    then Ok (mkt buf (fun i => red v g (map (fun t => tat t i) l) i)) else Raise ErrComm.

  (** functional/broadcast.py:134-231 [BroadcastFunction.backward]. *)
  Definition broadcast_backward_by (snd_p rcv_p : Z -> option (list Z)) (preserve_batch : bool) (in_shape out_shape : Z -> list Z)
      (dy : Z -> tensor) (v : Z) : result tensor :=
    let* zv := zero_volume preserve_batch (tshape (dy v)) in            (* 192-195 *)
    match snd_p v with
    | None => Ok zv
    | Some g =>
        let contrib m :=
          if on_comm (rcv_p m) g then Some (dy m)                       (* 203-208 *)
          else if on_comm (snd_p m) g then Some (tzeros (in_shape m))   (* 212-216 *)
          else None in
        let buf := if same_comm (snd_p v) (rcv_p v) then out_shape v else in_shape v in
        let* s := ireduce_by v g contrib buf in
        if hd v g =? v then Ok s                                        (* 221-229 *)
        else if same_comm (snd_p v) (rcv_p v) then Ok (tzeros buf)
        else Raise ErrComm
    end.

  (** functional/sum_reduce.py:32-137 [SumReduceFunction.forward]. *)
  Definition sum_reduce_forward_by (snd_p rcv_p : Z -> option (list Z)) (preserve_batch : bool) (in_shape out_shape : Z -> list Z)
      (x : Z -> tensor) (v : Z) : result tensor :=
    let* zv := zero_volume preserve_batch (tshape (x v)) in             (* 98-101 *)
    match rcv_p v with
    | None => Ok zv
    | Some g =>
        let contrib m :=
          if on_comm (snd_p m) g then Some (x m)                        (* 110-115 *)
          else if on_comm (rcv_p m) g then Some (tzeros (out_shape m))  (* 118-122 *)
          else None in
        let buf := if same_comm (snd_p v) (rcv_p v) then in_shape v else out_shape v in
        let* s := ireduce_by v g contrib buf in
        if hd v g =? v then Ok s                                        (* 127-135 *)
        else if same_comm (snd_p v) (rcv_p v) then Ok (tzeros buf)
        else Raise ErrComm
    end.

  (** functional/all_sum_reduce.py:32-91; the backward (94-142) is the same code. *)
  Definition all_sum_reduce_forward_by (grp : Z -> option (list Z)) (in_shape : Z -> list Z) (x : Z -> tensor) (v : Z) : result tensor :=
    match grp v with
    | None => Ok (mkt [0] (fun _ => rzero))
    | Some g => ireduce_by v g (fun m => if on_comm (grp m) g then Some (x m) else None) (in_shape v)
    end.

  (** nn/broadcast.py:93-139 and 184-211, the backward pass. *)
  Definition broadcast_layer_backward_by (Px Py : part) (same ts td pb : bool) dt rg :=
    layer_backward (create_broadcast_partition_to Px Py ts td) Px Py same ts td pb dt rg broadcast_backward_by.

  (** nn/sum_reduce.py:92-138 and 183-206. *)
  Definition sum_reduce_layer_by (Px Py : part) (same ts td pb : bool) dt rg :=
    layer_forward (create_reduction_partition_to Px Py ts td) Px Py same ts td pb dt rg sum_reduce_forward_by.

  (** nn/all_sum_reduce.py:69-103, 147-168; forward on [dy = x], backward on the
      cotangent [dy]. *)
  Definition all_sum_reduce_layer_by (Px : part) (axes_reduce axes_keep : option (list Z)) (x dy : Z -> tensor) (v : Z) : result tensor :=
    let* axes := all_sum_reduce_axes (Z.of_nat (length (p_shape Px))) axes_reduce axes_keep in
    if negb (is_active (p_ranks Px) v) then Ok (dy v)
    else if Z.of_nat (length (p_ranks Px)) =? 1 then Ok (dy v)
    else
      let* g := create_allreduction_partition Px axes v in
      all_sum_reduce_forward_by (allreduce_groups Px axes) (fun u => tshape (x u)) dy v.

  (** linear.py:98-108, conv_channel.py:331-348, conv_general.py:548-589; see
      [work_forward]. *)
  Definition work_forward_by (Px Pw Py : part) (same_xw same_wy ts : bool) (dt dt' : Z -> Z) (rg rg' : Z -> bool)
      (local : Z -> tensor -> result tensor) (x : Z -> tensor) (v : Z) : result tensor :=
    if negb (is_active (p_ranks Px) v || is_active (p_ranks Py) v || is_active (p_ranks Pw) v) then Ok (x v)
    else
      let* t := work_local Px Pw same_xw dt rg local x v in
      sum_reduce_layer_by Pw Py same_wy ts false true dt' rg' (work_contribution Px Pw same_xw dt rg local x) v.

  (** linear.py:94-108, conv_channel.py:331-348 backwards; see [work_backward]. *)
  Definition work_backward_by (Px Pw Py : part) (same_xw same_wy ts : bool) (dt dt' : Z -> Z) (rg rg' : Z -> bool)
      (local : Z -> tensor -> result tensor) (local_back : Z -> tensor -> tensor -> result tensor) (x dy : Z -> tensor) (v : Z) : result tensor :=
    if negb (is_active (p_ranks Px) v || is_active (p_ranks Py) v || is_active (p_ranks Pw) v) then Ok (dy v)
    else
      let* t := work_back_local Px Pw Py same_xw same_wy ts dt dt' rg rg' local local_back x dy v in
      broadcast_layer_backward_by Px Pw same_xw false false true dt rg x
        (work_back_contribution Px Pw Py same_xw same_wy ts dt dt' rg rg' local local_back x dy) v.

  Section Linear.
    (** torch's linear layer on worker [v], from its weight, bias and input, and its
        backward, from the weight (or bias), the input and the output's gradient. *)
    Variable torch : Z -> tensor -> option tensor -> tensor -> result tensor.
    Variables back_x back_w back_b : Z -> tensor -> tensor -> tensor -> result tensor.
    Variables (Px Py Pw : part) (use_bias same_xw same_wy : bool) (dt dt' : Z -> Z) (rg rg' : Z -> bool).
    Variables weight bias x dy : Z -> tensor.

    (** linear.py:72-79 and 88-103. *)
    Definition sublinear_by (v : Z) (t : tensor) : result tensor :=
      match index_in Pw v with
      | None => Raise ErrInactive
      | Some idx => torch v (weight v) (if sublinear_bias use_bias idx then Some (bias v) else None) t
      end.

    (** linear.py:88-108. *)
    Definition linear_forward_by : Z -> result tensor :=
      work_forward_by Px Pw Py same_xw same_wy true dt dt' rg rg' sublinear_by x.

    (** linear.py:82-108 backwards; see [linear_backward]. *)
    Definition linear_backward_by : Z -> result tensor :=
      work_backward_by Px Pw Py same_xw same_wy true dt dt' rg rg' sublinear_by (fun v => back_x v (weight v)) x dy.
    (** linear.py:85-108 backwards, for the weight. *)
    Definition linear_weight_gradient_by : Z -> result tensor :=
      work_layer_gradient Px Pw Py same_xw same_wy true dt dt' rg rg' sublinear_by x dy (fun v => back_w v (weight v)).
    (** linear.py:85-108 backwards, for the bias. *)
    Definition linear_bias_gradient_by (v : Z) : option (result tensor) :=
      match index_in Pw v with
      | Some idx =>
          if sublinear_bias use_bias idx
          then Some (work_layer_gradient Px Pw Py same_xw same_wy true dt dt' rg rg' sublinear_by x dy (fun v => back_b v (bias v)) v)
          else None
      | None => None
      end.
  End Linear.
End Functions.
