(** Specification vocabulary: the gradients of sequential sliding-window layers. *)

From Verif Require Import Prelude SpecIndex SpecHalo Ring Tensor ModelHaloMixin ModelFeatureLayer SpecFeature ModelFeatureGrad.

Section Gradients.
  Context {R : CRing}.

  (** The layer is linear with coefficients [K]. *)
  Definition linear_kernel (w : window) (f : @kernel R) (cout : Z -> Z) (K : @coefficients R) : Prop :=
    forall c c' g, 0 <= c' < cout c ->
      f c c' g = sumf (zrange c) (fun ch => sumf (indices (w_kernel w)) (fun t => rmul (K c c' ch t) (g ch t))).

  (** The input that output [o] sees at kernel offset [t], in a tensor with [n]
      feature dimensions (as in [is_sequential]). *)
  Definition seen_point (n : nat) (w : window) (o t : list Z) : list Z :=
    vec n (fun j => nth j (w_stride w) 0 * nth j o 0 - nth j (w_padding w) 0 + nth j (w_dilation w) 0 * nth j t 0).

  (** The gradient for the input, of shape [b :: c :: xs]: an element collects from
      all outputs that see it. *)
  Definition input_gradient (K : @coefficients R) (w : window) (shape : list Z) (dY : tensor R) : tensor R :=
    mkt shape (fun i =>
      match i with
      | b :: ch :: q =>
          sumf (zrange (nth 1 (tshape dY) 0)) (fun c =>
            sumf (indices (skipn 2 (tshape dY))) (fun o =>
              sumf (indices (w_kernel w)) (fun t =>
                if list_eq_dec Z.eq_dec (seen_point (length (skipn 2 shape)) w o t) q
                then rmul (K (nth 1 shape 0) c ch t) (tat dY (b :: c :: o)) else rzero)))
      | _ => rzero
      end).

  (** The gradient of a convolution for its weight, of shape (cout, cin / groups,
      kernel...), and for its bias. *)
  Definition weight_gradient (w : window) (cout groups : Z) (G dY : tensor R) : tensor R :=
    let cin := nth 1 (tshape G) 0 in
    mkt (cout :: cin / groups :: w_kernel w) (fun i =>
      match i with
      | c :: j :: k =>
          sumf (zrange (nth 0 (tshape dY) 0)) (fun b =>
            sumf (indices (skipn 2 (tshape dY))) (fun o =>
              rmul (tat dY (b :: c :: o))
                   (value_at G rzero (b :: (c / (cout / groups) * (cin / groups) + j)
                                        :: seen_point (length (skipn 2 (tshape G))) w o k))))
      | _ => rzero
      end).
  Definition bias_gradient (cout : Z) (dY : tensor R) : tensor R :=
    mkt [cout] (fun i =>
      sumf (zrange (nth 0 (tshape dY) 0)) (fun b =>
        sumf (indices (skipn 2 (tshape dY))) (fun o => tat dY (b :: nth 0 i 0 :: o)))).
End Gradients.
