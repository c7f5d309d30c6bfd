(** The backward pass of nn/conv_feature.py and nn/pooling.py, for the torch layers
    that are linear: convolution and average pooling. *)

From Verif Require Import Prelude SpecIndex ModelSlicing ModelDecomposition ModelPartition Ring Tensor ModelCollectives
  ModelUtilities ModelRepartition ModelHaloMixin ModelFeatureLayer ModelGradients.
Local Open Scope Z_scope.

Section Backward.
  Context {R : CRing}.
  Notation tensor := (tensor R).

  (** The factor of the value at channel [ch] and kernel offset [t] of a window in
      output channel [c], for a torch layer with [cin] input channels: [K cin c ch t]. *)
  Definition coefficients := Z -> Z -> Z -> list Z -> R.

  (** torch.nn.Conv{1,2,3}d, as in [conv_kernel]. *)
  Definition conv_coefficients (cout groups : Z) (weight : tensor) : coefficients :=
    fun cin c ch t =>
      let cpg := cin / groups in
      let first := c / (cout / groups) * cpg in
      if (first <=? ch) && (ch <? first + cpg) then tat weight (c :: (ch - first) :: t) else rzero.

  (** torch.nn.AvgPool{1,2,3}d with [count_include_pad]; [a] is one over the number
      of elements of the window. *)
  Definition mean_coefficients (a : R) : coefficients := fun _ c ch _ => if c =? ch then a else rzero.

  (** torch's gradient of such a layer without padding (conv_feature.py:138-146,
      pooling.py:104-112) for an input of extents [shape]. *)
  Definition sliding_backward (K : coefficients) (w : window) (shape : list Z) (dy : tensor) : tensor :=
    mkt shape (fun i =>
      match i with
      | b :: ch :: q =>
          sumf (zrange (nth 1 (tshape dy) 0)) (fun c =>
            sumf (indices (skipn 2 (tshape dy))) (fun o =>
              sumf (indices (w_kernel w)) (fun t =>
                if zlist_eqb (window_point w o t) q then rmul (K (nth 1 shape 0) c ch t) (tat dy (b :: c :: o)) else rzero)))
      | _ => rzero
      end).

  (** torch's gradients of a convolution without padding for its weight and its
      bias; [t] is the layer's input. *)
  Definition conv_weight_backward (w : window) (cout groups : Z) (t dy : tensor) : tensor :=
    let cpg := nth 1 (tshape t) 0 / groups in
    mkt (cout :: cpg :: w_kernel w) (fun i =>
      match i with
      | c :: j :: k =>
          sumf (zrange (nth 0 (tshape dy) 0)) (fun b =>
            sumf (indices (skipn 2 (tshape dy))) (fun o =>
              rmul (tat dy (b :: c :: o)) (tat t (b :: (c / (cout / groups) * cpg + j) :: window_point w o k))))
      | _ => rzero
      end).
  (** torch's gradient for the bias, conv_feature.py:138-146. *)
  Definition conv_bias_backward (cout : Z) (dy : tensor) : tensor :=
    mkt [cout] (fun i =>
      sumf (zrange (nth 0 (tshape dy) 0)) (fun b =>
        sumf (indices (skipn 2 (tshape dy))) (fun o => tat dy (b :: nth 0 i 0 :: o)))).

  Section Layer.
    Variables (P : part) (w : window) (K : coefficients).
    Variable shape : Z -> list Z.

    (** conv_feature.py:391-393, pooling.py:299-302 backwards, up to the halo
        layer's backward: the gradient of the torch layer, then of the slice.
        [padded v] are the extents of the tensor that worker [v] exchanged.  On an
        inactive worker the layer is [input.clone()] (lines 367-368 and
        286-287). *)
    Definition feature_cotangent (padded : Z -> list Z) (dy : Z -> tensor) (v : Z) : result tensor :=
      let* u := feature_setup P w shape v in
      match u with
      | None => Ok (dy v)
      | Some u =>
          let sl := map2 py_slice (padded v) (u_needed u) in
          Ok (slice_backward (padded v) sl (sliding_backward K w (compute_nd_slice_shape sl) (dy v)))
      end.

    (** What worker [v] hands to its halo layer's backward
        (conv_feature.py:391, pooling.py:299). *)
    Definition feature_back_argument (padded : Z -> list Z) (dy : Z -> tensor) (v : Z) : tensor :=
      match feature_cotangent padded dy v with Ok t => t | Raise _ => dy v end.

    (** conv_feature.py:380-388, pooling.py:289-296 backwards, from the result
        [back] of the halo layer's backward. *)
    Definition feature_gradient (dy back : Z -> tensor) (v : Z) : result tensor :=
      let* u := feature_setup P w shape v in
      match u with
      | None => Ok (dy v)
      | Some u => pad_backward (map2 (fun a b => (fst a + fst b, snd a + snd b)) (u_padding u) (u_halo u)) (back v)
      end.
  End Layer.

  Section Conv.
    Variables (P : part) (w : window) (cout groups : Z).
    Variables (dt : Z -> Z) (rg : Z -> bool).
    Variable shape : Z -> list Z.

    (** The padding of a convolution on a single worker (conv_feature.py:125-136). *)
    Definition own_padding : list (Z * Z) := (0, 0) :: (0, 0) :: map (fun p => (p, p)) (w_padding w).

    (** conv_feature.py:373-374 and 391-393 backwards: the gradient for the output
        of the halo layer, which the layer does not have on a single worker. *)
    Definition conv_cotangent (weight : Z -> tensor) (padded : Z -> list Z) (dy : Z -> tensor) (v : Z) : result tensor :=
      if negb (is_active (p_ranks P) v) then Ok (dy v)
      else if Nat.eqb (length (p_ranks P)) 1 then Ok (dy v)
      else
        let* wt := conv_parameter P dt rg weight v in
        feature_cotangent P w (conv_coefficients cout groups wt) shape padded dy v.
    (** What worker [v] hands to its halo layer's backward, conv_feature.py:391. *)
    Definition conv_back_argument (weight : Z -> tensor) (padded : Z -> list Z) (dy : Z -> tensor) (v : Z) : tensor :=
      match conv_cotangent weight padded dy v with Ok t => t | Raise _ => dy v end.

    (** conv_feature.py:357-393 backwards: the gradient of the input. *)
    Definition conv_gradient (weight : Z -> tensor) (dy back : Z -> tensor) (v : Z) : result tensor :=
      if negb (is_active (p_ranks P) v) then Ok (dy v)
      else if Nat.eqb (length (p_ranks P)) 1 then
        pad_backward own_padding
          (sliding_backward (conv_coefficients cout groups (weight v)) w
             (map2 (fun n p => n + fst p + snd p) (shape v) own_padding) (dy v))
      else feature_gradient P w shape dy back v.

    (** The torch layer's input: conv_feature.py:380-392, or the padded input on a
        single worker. *)
    Definition conv_seen (x exchanged : Z -> tensor) (v : Z) : result tensor :=
      if Nat.eqb (length (p_ranks P)) 1 then
        match f_pad rzero (distdl_padding_to_torch_padding own_padding) (length (tshape (x v))) (x v) with
        | Some t => Ok t
        | None => Raise ErrTorch
        end
      else
        let* u := feature_setup P w shape v in
        match u with
        | None => Raise ErrTorch
        | Some u => Ok (slice_tensor (exchanged v) (u_needed u))
        end.

    (** The gradients of the broadcast weight and bias on every worker...
        (conv_feature.py:393). *)
    Definition conv_local_weight_grad (x exchanged dy : Z -> tensor) (v : Z) : result tensor :=
      let* t := conv_seen x exchanged v in
      Ok (conv_weight_backward w cout groups t (dy v)).
    (** conv_feature.py:393. *)
    Definition conv_local_bias_grad (dy : Z -> tensor) (v : Z) : tensor := conv_bias_backward cout (dy v).

    (** ... and of the parameters: the backward of the broadcasts
        (conv_feature.py:373-378), on a single worker the torch layer's own. *)
    Definition conv_weight_gradient (weight x exchanged dy : Z -> tensor) (v : Z) : result tensor :=
      if Nat.eqb (length (p_ranks P)) 1 then conv_local_weight_grad x exchanged dy v
      else
        broadcast_layer_backward (weight_part P) P false false false false dt rg weight
          (fun u => match conv_local_weight_grad x exchanged dy u with Ok t => t | Raise _ => dy u end) v.
    (** conv_feature.py:376-378 backwards. *)
    Definition conv_bias_gradient (bias dy : Z -> tensor) (v : Z) : result tensor :=
      if Nat.eqb (length (p_ranks P)) 1 then Ok (conv_local_bias_grad dy v)
      else broadcast_layer_backward (weight_part P) P false false false false dt rg bias (conv_local_bias_grad dy) v.
  End Conv.
End Backward.
