(** The backward pass of nn/conv_general.py.  The padding mode is 'zeros'. *)

From Verif Require Import Prelude SpecIndex ModelSlicing ModelDecomposition ModelPartition Ring Tensor ModelCollectives
  ModelUtilities ModelRepartition ModelHaloMixin ModelFeatureLayer ModelLinear ModelConv ModelGradients ModelFeatureGrad ModelWorkGrad
  ModelChannelGrad.

Section General.
  Context {R : CRing}.
  Notation tensor := (tensor R).
  Variables Px Py Pw : part.
  Variables (w : window) (groups : Z) (use_bias : bool).
  Variables (dt dt' dtw dtb : Z -> Z) (rg rg' rgw rgb : Z -> bool).
  Variables weight bias : Z -> tensor.     (* the parameters of every worker *)
  Variable shape : Z -> list Z.
  Variables x exchanged dy : Z -> tensor.  (* [exchanged]: the result of the halo layer's forward *)

  (** The gradients of the worker's torch layer (conv_general.py:585) for its input
      and for the weight and bias that it was sent. *)
  Definition general_input_back (v : Z) (t g : tensor) : result tensor :=
    let* wt := general_weight Pw dtw rgw weight v in
    Ok (sliding_backward (conv_coefficients (nth 0 (tshape wt) 0) groups wt) w (tshape t) g).
  (** For the weight, conv_general.py:585. *)
  Definition general_weight_back (v : Z) (t g : tensor) : result tensor :=
    let* wt := general_weight Pw dtw rgw weight v in
    Ok (conv_weight_backward w (nth 0 (tshape wt) 0) groups t g).
  (** For the bias, conv_general.py:585. *)
  Definition general_bias_back (v : Z) (t g : tensor) : result tensor :=
    let* wt := general_weight Pw dtw rgw weight v in
    Ok (conv_bias_backward (nth 0 (tshape wt) 0) g).

  (** conv_general.py:581-587 backwards: the gradient of what worker [v] put into
      the broadcast of line 581. *)
  Definition general_sent_gradient (Px' Py' : part) : Z -> result tensor :=
    work_backward Px' Pw Py' false false false dt dt' rg rg'
      (general_local Pw w groups use_bias dtw dtb rgw rgb weight bias) general_input_back
      (general_input w Px' shape x exchanged) dy.

  (** conv_general.py:567 backwards: the gradient of the halo layer's output, on the
      workers that have one. *)
  Definition general_cotangent (v : Z) : result tensor :=
    if inactive Px Py Pw v then Ok (dy v)
    else
      let* Px' := recast_x GeneralConv Px Pw v in
      let* Py' := recast_y GeneralConv Py Pw v in
      if serial Pw v then Ok (dy v)
      else if partner_missing Pw v then Raise ErrComm
      else
        let* g := general_sent_gradient Px' Py' v in
        let* u := feature_setup Px' w shape v in
        match u with
        | None => Ok g
        | Some u =>
            let sl := map2 py_slice (tshape (exchanged v)) (u_needed u) in
            Ok (slice_backward (tshape (exchanged v)) sl g)
        end.
  (** What worker [v] hands to its halo layer's backward, conv_general.py:568. *)
  Definition general_back_argument (v : Z) : tensor :=
    match general_cotangent v with Ok t => t | Raise _ => dy v end.

  (** conv_general.py:536-589 backwards: the gradient of the input, from the result
      [back] of the halo layer's backward. *)
  Definition general_conv_backward (back : Z -> tensor) (v : Z) : result tensor :=
    if inactive Px Py Pw v then Ok (dy v)
    else
      let* Px' := recast_x GeneralConv Px Pw v in
      let* Py' := recast_y GeneralConv Py Pw v in
      if serial Pw v then torch_conv_input_grad w groups (weight v) (x v) (dy v)
      else if partner_missing Pw v then Raise ErrComm
      else
        let* g := general_sent_gradient Px' Py' v in
        feature_gradient Px' w shape (fun _ => g) back v.

  (** The gradient of the weight or bias that worker [v] was sent
      (conv_general.py:585). *)
  Definition general_layer_gradient (back : Z -> tensor -> tensor -> result tensor) (v : Z) : result tensor :=
    let* Px' := recast_x GeneralConv Px Pw v in
    let* Py' := recast_y GeneralConv Py Pw v in
    work_layer_gradient Px' Pw Py' false false false dt dt' rg rg'
      (general_local Pw w groups use_bias dtw dtb rgw rgb weight bias) (general_input w Px' shape x exchanged) dy back v.
  (** The same on every worker, what the broadcasts of conv_general.py:573 and 578 get back. *)
  Definition general_copies (back : Z -> tensor -> tensor -> result tensor) (v : Z) : tensor :=
    match general_layer_gradient back v with Ok t => t | Raise _ => mkt [] (fun _ => rzero) end.

  (** conv_general.py:570-573 backwards: the gradient of the weight of worker [v];
      on a single worker that of the torch layer (line 550). *)
  Definition general_weight_gradient (v : Z) : result tensor :=
    if serial Pw v then torch_conv_weight_grad w groups (weight v) (x v) (dy v)
    else
      let* _ := general_layer_gradient general_weight_back v in
      let* Pwr := weight_roots Pw in
      broadcast_layer_backward Pwr Pw false false false false dtw rgw weight (general_copies general_weight_back) v.

  (** conv_general.py:576-578 backwards; the workers that [stores_bias] have a bias
      (lines 283 and 321-322). *)
  Definition general_bias_gradient (v : Z) : option (result tensor) :=
    if negb use_bias then None
    else if serial Pw v then Some (torch_conv_bias_grad (weight v) (dy v))
    else
      match bias_users Pw, bias_roots Pw with
      | Ok Pb, Ok Pbr =>
          if is_active (p_ranks Pbr) v
          then Some (let* _ := general_layer_gradient general_bias_back v in
                     broadcast_layer_backward Pbr Pb false false false false dtb rgb bias (general_copies general_bias_back) v)
          else None
      | _, _ => None
      end.
End General.
