(** What autograd does for the torch operations between the sublayers. *)

From Verif Require Import Prelude SpecIndex Ring Tensor ModelSlicing ModelPartition ModelUtilities ModelRepartition.
Local Open Scope Z_scope.

Section Gradients.
  Context {R : CRing}.

  (** The gradient of [t[sl]] for a tensor of extents [shape] (upsampling.py:282,
      feature conv and pooling layers): zeros outside the slice. *)
  Definition slice_backward (shape : list Z) (sl : list slice) (d : tensor R) : tensor R :=
    write_slice (tzeros shape) sl d.

  (** The gradient of [F.pad(.., mode='constant')] (upsampling.py:274-279),
      torch's [constant_pad_nd_backward]: padding by the negated numbers.  Where
      the layer does not pad there is nothing to do. *)
  Definition pad_backward (total : list (Z * Z)) (d : tensor R) : result (tensor R) :=
    if zsum (map (fun p => fst p + snd p) total) =? 0 then Ok d
    else match f_pad rzero (map Z.opp (distdl_padding_to_torch_padding total)) (length (tshape d)) d with
         | Some t => Ok t
         | None => Raise ErrTorch
         end.
End Gradients.
