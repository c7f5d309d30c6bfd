(** Specification vocabulary: the gradient of sequential max pooling. *)

From Verif Require Import Prelude SpecIndex SpecHalo Ring Tensor ModelHaloMixin ModelFeatureLayer SpecFeature SpecFeatureGrad.
Local Open Scope Z_scope.

Section Gradient.
  Context {R : CRing}.

  (** The choice is an offset of the window and depends on its values only. *)
  Definition choice_local (w : window) (choose : (list Z -> R) -> list Z) : Prop :=
    (forall g, valid_index (w_kernel w) (choose g)) /\
    forall g g', (forall t, valid_index (w_kernel w) t -> g t = g' t) -> choose g = choose g'.

  (** The values that output [o] in batch [b] and channel [c] sees in [G] continued
      by [value], and the position of the chosen one. *)
  Definition seen_values (value : R) (w : window) (G : tensor R) (b c : Z) (o : list Z) : list Z -> R :=
    fun t => value_at G value (b :: c :: seen_point (length (skipn 2 (tshape G))) w o t).
  Definition seen_choice (choose : (list Z -> R) -> list Z) (value : R) (w : window) (G : tensor R) (b c : Z) (o : list Z) : list Z :=
    choose (seen_values value w G b c o).

  (** The gradient for the input: an element collects from the outputs that chose it. *)
  Definition max_gradient (choose : (list Z -> R) -> list Z) (value : R) (w : window) (G dY : tensor R) : tensor R :=
    mkt (tshape G) (fun i =>
      match i with
      | b :: c :: q =>
          sumf (indices (skipn 2 (tshape dY))) (fun o =>
            if list_eq_dec Z.eq_dec
                 (seen_point (length (skipn 2 (tshape G))) w o (seen_choice choose value w G b c o)) q
            then tat dY (b :: c :: o) else rzero)
      | _ => rzero
      end).

  (** [gt] orders the elements. *)
  Definition strict_order (gt : R -> R -> bool) : Prop :=
    (forall a, gt a a = false) /\
    (forall a b c, gt a b = true -> gt b c = true -> gt a c = true) /\
    (forall a b c, gt a c = true -> gt a b = true \/ gt b c = true).
End Gradient.
