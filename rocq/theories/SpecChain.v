(** Specification vocabulary: a network of sequential layers and its gradient. *)

From Verif Require Import Prelude SpecIndex SpecLayout SpecPartition SpecHalo Ring Tensor Blocks ModelPartition ModelHaloMixin
  ModelDecomposition ModelFeatureLayer SpecFeature ModelFeatureGrad SpecFeatureGrad ModelMaxPoolGrad SpecMaxPoolGrad ModelChain
  PropRepartition PropFeatureLayer.
Local Open Scope Z_scope.

Section Chain.
  Context {R : CRing}.
  Variables (world : list Z) (P : part).

  (** The kernel is linear with coefficients [K], up to a constant for every output
      channel. *)
  Definition affine_kernel (w : window) (f : @kernel R) (cout : Z -> Z) (K : @coefficients R) : Prop :=
    exists f0 bias, linear_kernel w f0 cout K /\ (nth 1 (p_shape P) 0 = 1 \/ per_channel f0 cout) /\
      forall c c' g, 0 <= c' < cout c -> f c c' g = radd (f0 c c' g) (bias c').

  (** It depends on the values only. *)
  Definition kernel_of_values (f : @kernel R) : Prop :=
    forall c c' g g', (forall ch t, g ch t = g' ch t) -> f c c' g = f c c' g'.

  (** The layer was set up for the blocks of [L]. *)
  Definition set_up_for (L : layout) (shape : Z -> list Z) : Prop :=
    forall idx v, worker_at P idx v -> shape v = block_shape L idx.

  (** [chain L X net L' Y dY dX]: the network maps [X] to [Y], and the gradient [dY]
      of a function of the output to the gradient [dX] of the input; [X] is in
      blocks [L] and [Y] in blocks [L'], and every layer meets the conditions of
      C30.  No workers are involved in [Y] and [dX]. *)
  Inductive chain : layout -> tensor R -> list (@stage R) -> layout -> tensor R -> tensor R -> tensor R -> Prop :=
  | chain_end L X dY : tshape X = layout_shape L -> tshape dY = tshape X -> chain L X [] L X dY dY
  | chain_linear L X w f cout K shape Y1 net L' Y dY D :
      feature_given world P L w -> tshape X = layout_shape L -> set_up_for L shape ->
      affine_kernel w f cout K -> kernel_of_values f -> nth 1 (p_shape P) 0 = 1 \/ per_channel f cout ->
      is_sequential f cout rzero w X Y1 -> nonneg_shape (tshape Y1) -> within L w (out_counts X Y1) ->
      chain (balanced (tshape Y1) (p_shape P)) Y1 net L' Y dY D ->
      chain L X (SWindow w f cout rzero (BLinear K) shape :: net) L' Y dY (input_gradient K w (tshape X) D)
  | chain_max L X w choose value shape Y1 net L' Y dY D :
      feature_given world P L w -> tshape X = layout_shape L -> set_up_for L shape ->
      choice_local w choose ->
      is_sequential (pool_kernel (chosen choose)) (fun c => c) value w X Y1 -> within L w (out_counts X Y1) ->
      chain (balanced (tshape Y1) (p_shape P)) Y1 net L' Y dY D ->
      chain L X (SWindow w (pool_kernel (chosen choose)) (fun c => c) value (BMax choose) shape :: net) L' Y dY
        (max_gradient choose value w X D)
  | chain_point L X act slope net L' Y dY D :
      tshape X = layout_shape L ->
      chain L (mkt (tshape X) (fun i => act (tat X i))) net L' Y dY D ->
      chain L X (SPoint act slope :: net) L' Y dY (mkt (tshape X) (fun i => rmul (tat D i) (slope (tat X i)))).

  (** [moves X net X' Y']: when the input moves from [X] in direction [X'], the
      output moves in direction [Y'], by the derivatives of the layers: their
      coefficients, the chosen elements, the slopes. *)
  Inductive moves : tensor R -> list (@stage R) -> tensor R -> tensor R -> Prop :=
  | moves_end X X' : moves X [] X' X'
  | moves_linear X w f cout K shape Y1 net X' Y1' Y' :
      is_sequential f cout rzero w X Y1 -> tshape Y1' = tshape Y1 ->
      (forall b c' o, tat Y1' (b :: c' :: o) =
         sumf (zrange (nth 1 (tshape X) 0)) (fun ch => sumf (indices (w_kernel w)) (fun t =>
           rmul (K (nth 1 (tshape X) 0) c' ch t)
                (value_at X' rzero (b :: ch :: seen_point (length (skipn 2 (tshape X))) w o t))))) ->
      moves Y1 net Y1' Y' ->
      moves X (SWindow w f cout rzero (BLinear K) shape :: net) X' Y'
  | moves_max X w choose value shape Y1 net X' Y1' Y' :
      is_sequential (pool_kernel (chosen choose)) (fun c => c) value w X Y1 -> tshape Y1' = tshape Y1 ->
      (forall b c o, tat Y1' (b :: c :: o) =
         value_at X' rzero (b :: c :: seen_point (length (skipn 2 (tshape X))) w o (seen_choice choose value w X b c o))) ->
      moves Y1 net Y1' Y' ->
      moves X (SWindow w (pool_kernel (chosen choose)) (fun c => c) value (BMax choose) shape :: net) X' Y'
  | moves_point X act slope net X' Y' :
      moves (mkt (tshape X) (fun i => act (tat X i))) net (mkt (tshape X) (fun i => rmul (slope (tat X i)) (tat X' i))) Y' ->
      moves X (SPoint act slope :: net) X' Y'.

  (** What is known about one use of a network. *)
  Record fact := mkfact {
    fa_in : layout; fa_X : tensor R; fa_out : layout; fa_Y : tensor R; fa_dY : tensor R; fa_dX : tensor R
  }.
  Definition used (u : @use R) (a : fact) : Prop :=
    chain (fa_in a) (fa_X a) (use_net u) (fa_out a) (fa_Y a) (fa_dY a) (fa_dX a) /\
    holds_blocks P (fa_in a) (fa_X a) (use_x u) /\ holds_blocks P (fa_out a) (fa_dY a) (use_dy u).

  (** The results of the worker at [idx], latest first. *)
  Definition results_at (idx : list Z) (l : list fact) : list (tensor R) :=
    flat_map (fun a => [block (fa_in a) idx (fa_dX a); block (fa_out a) idx (fa_Y a)]) (rev l).
End Chain.
