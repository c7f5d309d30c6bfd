(** Max pooling (nn/pooling.py) and its backward pass.

    torch's forward keeps, for every output, the position of the element it chose;
    its backward adds the gradient of the output there.  [choose] picks the offset
    in the window from the window's values; [first_max] is torch's choice. *)

From Verif Require Import Prelude SpecIndex ModelSlicing ModelDecomposition ModelPartition Ring Tensor ModelCollectives
  ModelUtilities ModelRepartition ModelHaloMixin ModelFeatureLayer ModelGradients ModelFeatureGrad.
Local Open Scope Z_scope.

Section Backward.
  Context {R : CRing}.
  Notation tensor := (tensor R).

  (** Which element of the window torch's layer takes (pooling.py:300). *)
  Definition choice := (list Z -> R) -> list Z.

  (** torch.nn.MaxPool{1,2,3}d without NaN: the loop over the window in row-major
      order that keeps the first of the greatest elements; [gt] is [>]
      (pooling.py:109-112 and 335-368). *)
  Definition first_max (gt : R -> R -> bool) (w : window) : choice :=
    fun g => fold_left (fun best t => if gt (g t) (g best) then t else best)
               (indices (w_kernel w)) (hd [] (indices (w_kernel w))).

  (** The value of the layer (pooling.py:300). *)
  Definition chosen (choose : choice) : (list Z -> R) -> R := fun g => g (choose g).

  (** The positions that torch keeps (pooling.py:300), in the layer's input [t];
      torch numbers the positions of a channel, here they are indices. *)
  Definition max_positions (choose : choice) (w : window) (t : tensor) : Z -> Z -> list Z -> list Z :=
    fun b c o => window_point w o (choose (fun k => tat t (b :: c :: window_point w o k))).

  (** torch's backward of the layer (pooling.py:300) for an input of extents
      [shape]. *)
  Definition max_scatter (positions : Z -> Z -> list Z -> list Z) (shape : list Z) (dy : tensor) : tensor :=
    mkt shape (fun i =>
      match i with
      | b :: c :: q =>
          sumf (indices (skipn 2 (tshape dy))) (fun o =>
            if zlist_eqb (positions b c o) q then tat dy (b :: c :: o) else rzero)
      | _ => rzero
      end).

  Section Layer.
    Variables (P : part) (w : window) (choose : choice).
    Variable shape : Z -> list Z.

    (** pooling.py:299-302 backwards, up to the halo layer's backward; [exchanged]
        is what the halo layer returned in the forward pass.  On an inactive worker
        the layer is [input.clone()] (lines 286-287). *)
    Definition max_cotangent (exchanged dy : Z -> tensor) (v : Z) : result tensor :=
      let* u := feature_setup P w shape v in
      match u with
      | None => Ok (dy v)
      | Some u =>
          let sl := map2 py_slice (tshape (exchanged v)) (u_needed u) in
          let t := read_slice (exchanged v) sl in
          Ok (slice_backward (tshape (exchanged v)) sl (max_scatter (max_positions choose w t) (tshape t) (dy v)))
      end.

    (** What worker [v] hands to its halo layer's backward; the rest of the pass is
        [feature_gradient] (pooling.py:289-296). *)
    Definition max_back_argument (exchanged dy : Z -> tensor) (v : Z) : tensor :=
      match max_cotangent exchanged dy v with Ok t => t | Raise _ => dy v end.
  End Layer.
End Backward.
