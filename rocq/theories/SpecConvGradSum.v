(** Specification vocabulary for the gradients of convolutions in machine
    arithmetic. *)

From Verif Require Import Prelude SpecIndex SpecHalo ModelSlicing ModelPartition Ring Tensor ModelHaloMixin ModelFeatureLayer PropHaloMixin SpecFeature SpecSum SpecConvSum.

Section Gradients.
  Context {R : CRing}.
  Variable M : machine R.
  Variables (w : window) (groups cin cout : Z).

  (** What is added for the gradient of input [b' ch q]: the products of the weights
      that are applied to it with the gradients of the outputs, those of its group of
      channels only. *)
  Definition input_terms (W dY : tensor R) (ys : list Z) (b' ch : Z) (q : list Z) : list (term R) :=
    let cpg := cin / groups in
    flat_map (fun c =>
      let first := c / (cout / groups) * cpg in
      if (first <=? ch) && (ch <? first + cpg)
      then flat_map (fun o => flat_map (fun t =>
             if list_eq_dec Z.eq_dec (window_at w o t) q then [Prod (tat W (c :: ch - first :: t)) (tat dY (b' :: c :: o))] else [])
             (indices (w_kernel w))) (indices ys)
      else []) (zrange cout).

  (** For the gradient of weight [c k t]: the products of the outputs' gradients with
      the values that the weight is applied to, zero in the padding, where they may be
      left out. *)
  Definition weight_terms (X dY : tensor R) (b : Z) (ys : list Z) (c k : Z) (t : list Z) : list (bool * term R) :=
    flat_map (fun b' => map (fun o =>
        let g := b' :: c / (cout / groups) * (cin / groups) + k :: window_at w o t in
        (negb (inside (tshape X) g), Prod (value_at X rzero g) (tat dY (b' :: c :: o)))) (indices ys)) (zrange b).

  (** For the gradient of bias [c]: the gradients of the outputs of channel [c]. *)
  Definition bias_terms (dY : tensor R) (b : Z) (ys : list Z) (c : Z) : list (term R) :=
    flat_map (fun b' => map (fun o => Num (tat dY (b' :: c :: o))) (indices ys)) (zrange b).

  (** [dX], [dW] and [db] may be computed for the gradients. *)
  Definition conv_input_gradient_by (W dY : tensor R) (b : Z) (xs ys : list Z) (dX : tensor R) : Prop :=
    tshape dX = b :: cin :: xs /\
    forall b' ch q, valid_index (tshape dX) (b' :: ch :: q) -> evaluates M (input_terms W dY ys b' ch q) (tat dX (b' :: ch :: q)).
  Definition conv_weight_gradient_by (X dY : tensor R) (b : Z) (ys : list Z) (dW : tensor R) : Prop :=
    tshape dW = cout :: cin / groups :: w_kernel w /\
    forall c k t, valid_index (tshape dW) (c :: k :: t) -> may_evaluate M (weight_terms X dY b ys c k t) (tat dW (c :: k :: t)).
  Definition conv_bias_gradient_by (dY : tensor R) (b : Z) (ys : list Z) (db : tensor R) : Prop :=
    tshape db = [cout] /\
    forall c, 0 <= c < cout -> evaluates M (bias_terms dY b ys c) (tat db [c]).
End Gradients.

(** torch's gradients of its convolutions, from weight, input and gradient of the
    output; not necessarily computed alike on all workers. *)
Definition torch_conv_back_by {R : CRing} (M : machine R) (w : window) (groups : Z)
    (back_x back_w back_b : Z -> bool -> tensor R -> tensor R -> tensor R -> result (tensor R)) : Prop :=
  forall v (padded : bool) cin cout X W b xs ys dY,
  let w' := if padded then w else bare w in
  conv_arguments w' groups cin cout X W None b xs ys -> tshape dY = b :: cout :: ys ->
  (exists dX, back_x v padded W X dY = Ok dX /\ conv_input_gradient_by M w' groups cin cout W dY b xs ys dX) /\
  (exists dW, back_w v padded W X dY = Ok dW /\ conv_weight_gradient_by M w' groups cin cout X dY b ys dW) /\
  (exists db, back_b v padded W X dY = Ok db /\ conv_bias_gradient_by M cout dY b ys db).
