(** Upsampling of a whole tensor and its gradient. *)

From Coq Require Import QArith Qcanon.
From Verif Require Import Prelude SpecIndex Ring Tensor SpecInterpolate PropUpsampleLayer.
Local Open Scope Z_scope.

Section Gradient.
  Context {R : CRing}.
  Variables (m : method) (weight : Qc -> R).

  (** How much element [t] of [xs] elements counts for element [o] of [ys]: the product
      over the dimensions of its weights there. *)
  Fixpoint share (xs ys o t : list Z) : R :=
    match xs, ys, o, t with
    | nx :: xs', ny :: ys', y :: o', k :: t' =>
        rmul (sumf (reads m nx ny y) (fun r => if fst r =? k then weight (snd r) else rzero)) (share xs' ys' o' t')
    | _, _, _, _ => rone
    end.

  (** [G] upsampled to the extents [Y]. *)
  Definition upsample_to (Y : list Z) (G : tensor R) : tensor R :=
    mkt Y (fun i => match i with
      | b' :: c' :: o => mixture m weight (skipn 2 (tshape G)) (skipn 2 Y) o (fun t => tat G (b' :: c' :: t))
      | _ => rzero
      end).

  (** The gradient of a tensor of extents [X] from that of the upsampled tensor. *)
  Definition upsample_from (X : list Z) (dY : tensor R) : tensor R :=
    mkt X (fun i => match i with
      | b' :: c' :: t =>
          sumf (indices (skipn 2 (tshape dY))) (fun o => rmul (share (skipn 2 X) (skipn 2 (tshape dY)) o t) (tat dY (b' :: c' :: o)))
      | _ => rzero
      end).
End Gradient.
