(** Sequential networks and their training: the layers of one process. *)

From Coq Require Import QArith Qcanon.
From Verif Require Import Prelude ModelPartition Ring Tensor SpecIndex SpecLayout SpecPartition Blocks PropRepartition ModelHaloMixin ModelFeatureLayer ModelFeatureGrad
  SpecFeature SpecFeatureGrad SpecMaxPoolGrad ModelMaxPoolGrad ModelBatchNorm SpecBatchNorm PropBatchNormGrad
  SpecInterpolate SpecUpsampleGrad ModelLoss PropLoss ModelTraining.
Local Open Scope Z_scope.

Section Layers.
  Context {R : CRing}.
  Notation tensor := (tensor R).

  (** A layer: the output from the parameters and the input; the gradients of the
      input and of the parameters from the gradient of the output as well. *)
  Record seq_layer := mkseq {
    q_forward : list tensor -> tensor -> tensor;
    q_back : list tensor -> tensor -> tensor -> tensor;
    q_grads : list tensor -> tensor -> tensor -> list tensor
  }.

  Definition weight_of (ps : list tensor) : tensor := nth 0 ps no_tensor.
  Definition bias_of (ps : list tensor) : tensor := nth 1 ps no_tensor.
  Definition bias_opt (use_bias : bool) (ps : list tensor) : option tensor := if use_bias then Some (bias_of ps) else None.

  (** torch.nn.Linear on a batch of [b]. *)
  Definition seq_linear (b n_in n_out : Z) (use_bias : bool) : seq_layer :=
    mkseq
      (fun ps X => mkt [b; n_out] (fun i =>
         radd (sumf (zrange n_in) (fun k => rmul (tat X [nth 0 i 0; k]) (tat (weight_of ps) [nth 1 i 0; k])))
              (if use_bias then tat (bias_of ps) [nth 1 i 0] else rzero)))
      (fun ps X dY => mkt [b; n_in] (fun i =>
         sumf (zrange n_out) (fun o => rmul (tat dY [nth 0 i 0; o]) (tat (weight_of ps) [o; nth 1 i 0]))))
      (fun ps X dY =>
         mkt [n_out; n_in] (fun i => sumf (zrange b) (fun a => rmul (tat dY [a; nth 0 i 0]) (tat X [a; nth 1 i 0]))) ::
         (if use_bias then [mkt [n_out] (fun i => sumf (zrange b) (fun a => tat dY [a; nth 0 i 0]))] else [])).

  (** A layer that slides the window [w] over the input padded with [value]; [ys]:
      the extents of its output. *)
  Definition slide (f : @kernel R) (cout : Z -> Z) (value : R) (w : window) (ys : list Z) (X : tensor) : tensor :=
    let c := nth 1 (tshape X) 0 in
    mkt (nth 0 (tshape X) 0 :: cout c :: ys) (fun i =>
      match i with
      | b' :: c' :: o => f c c' (fun ch t => value_at X value (b' :: ch :: seen_point (length (skipn 2 (tshape X))) w o t))
      | _ => rzero
      end).

  (** torch.nn.Conv. *)
  Definition seq_conv (w : window) (cout groups : Z) (use_bias : bool) (ys : list Z) : seq_layer :=
    mkseq
      (fun ps X => slide (conv_kernel w cout groups (weight_of ps) (bias_opt use_bias ps)) (fun _ => cout) rzero w ys X)
      (fun ps X dY => input_gradient (conv_coefficients cout groups (weight_of ps)) w (tshape X) dY)
      (fun ps X dY => weight_gradient w cout groups X dY :: (if use_bias then [bias_gradient cout dY] else [])).

  (** Average and max pooling. *)
  Definition seq_pool (w : window) (f : @kernel R) (cout : Z -> Z) (K : @coefficients R) (ys : list Z) : seq_layer :=
    mkseq (fun _ X => slide f cout rzero w ys X) (fun _ X dY => input_gradient K w (tshape X) dY) (fun _ _ _ => []).
  Definition seq_max_pool (w : window) (choose : @choice R) (value : R) (ys : list Z) : seq_layer :=
    mkseq (fun _ X => slide (pool_kernel (chosen choose)) (fun c => c) value w ys X)
          (fun _ X dY => max_gradient choose value w X dY) (fun _ _ _ => []).

  (** torch.nn.BatchNorm in training; [at_channel]: a parameter as a function of the
      channel.  The formulas are the derivatives (C63_batchnorm_derivative). *)
  Definition at_channel (T : tensor) (k : Z) : R := tat T (0 :: k :: repeat 0 (length (tshape T) - 2)).
  Definition per_channel_shape (X : tensor) : list Z := 1 :: nth 1 (tshape X) 0 :: repeat 1 (length (tshape X) - 2).
  Definition seq_batchnorm (A : arith R) (eps : R) (affine : bool) : seq_layer :=
    mkseq
      (fun ps X => normalised A eps affine true true (at_channel (weight_of ps)) (at_channel (bias_of ps)) fresh X)
      (fun ps X dY => mkt (tshape X) (dinput A eps affine true true fresh (at_channel (weight_of ps)) X dY))
      (fun ps X dY =>
         if affine then [mkt (per_channel_shape X) (fun i => dgamma A eps affine true true fresh X dY (nth 1 i 0));
                         mkt (per_channel_shape X) (fun i => dbeta affine X dY (nth 1 i 0))] else []).

  (** torch.nn.Upsample to the extents [Y]. *)
  Definition seq_upsample (m : method) (weight : Qc -> R) (Y : list Z) : seq_layer :=
    mkseq (fun _ X => upsample_to m weight Y X) (fun _ X dY => upsample_from m weight (tshape X) dY) (fun _ _ _ => []).

  (** Nothing; an activation; a reshape that keeps the batch. *)
  Definition seq_identity : seq_layer := mkseq (fun _ X => X) (fun _ _ dY => dY) (fun _ _ _ => []).
  Definition seq_activation (act slope : R -> R) : seq_layer :=
    mkseq (fun _ X => mkt (tshape X) (fun i => act (tat X i)))
          (fun _ X dY => mkt (tshape X) (fun i => rmul (tat dY i) (slope (tat X i)))) (fun _ _ _ => []).
  Definition seq_reshape (into : list Z) : seq_layer :=
    mkseq (fun _ X => reshaped (hd 0 (tshape X) :: into) X) (fun _ X dY => reshaped (tshape X) dY) (fun _ _ _ => []).
End Layers.

Section Training.
  Context {R : CRing}.
  Notation tensor := (tensor R).
  Variables (A : arith R) (f df : R -> R -> R) (r : reduction).

  (** Forward, loss, backward: the loss, the gradient of the input, the gradients of
      the parameters of all layers. *)
  Fixpoint seq_pass (net : list (@seq_layer R)) (Ths : list (list (@slots R))) (X T : tensor) : R * tensor * list (list tensor) :=
    match net, Ths with
    | q :: net, Th :: Ths =>
        let ps := map value_of Th in
        let '(l, dY, gs) := seq_pass net Ths (q_forward q ps X) T in
        (l, q_back q ps X dY, q_grads q ps X dY :: gs)
    | _, _ => (sequential_loss A f r X T, sequential_gradient A df r X T rone, [])
    end.

  Variable o : @optimizer R.
  Fixpoint seq_training (net : list (@seq_layer R)) (Ths : list (list (@slots R))) (data : list (tensor * tensor)) :
      list (list (@slots R)) * list R :=
    match data with
    | [] => (Ths, [])
    | (X, T) :: data =>
        let '(l, _, gs) := seq_pass net Ths X T in
        let '(Ths', ls) := seq_training net (map2 (map2 (opt_step o)) Ths gs) data in
        (Ths', l :: ls)
    end.
End Training.

(** * What the workers hold *)

(** A tensor between two layers: in blocks [pl_layout] on the workers of [pl_part]. *)
Record place := mkplace { pl_part : part; pl_layout : layout }.

(** The workers of the partition hold the blocks of [X]; the others any tensor with a
    dimension. *)
Definition held {R : CRing} (world : list Z) (p : place) (X : tensor R) (x : Z -> tensor R) : Prop :=
  holds_blocks (pl_part p) (pl_layout p) X x /\
  forall v, In v world -> ~ In v (p_ranks (pl_part p)) -> nonneg_shape (tshape (x v)) /\ tshape (x v) <> [].

(** A parameter: [h_at v idx] if worker [v] holds its block [idx] of [h_layout]. *)
Record home := mkhome { h_at : Z -> list Z -> Prop; h_layout : layout }.
Definition no_home : home := mkhome (fun _ _ => False) [].

(** The values and the optimizer's states [th] are the blocks of the sequential
    network's [Th], where their homes are; elsewhere there are any tensors with a
    dimension. *)
Definition params_held {R : CRing} (world : list Z) (hs : list home) (Th : list (@slots R)) (th : Z -> list (@slots R)) : Prop :=
  length Th = length hs /\
  (forall k, (k < length hs)%nat ->
     let h := nth k hs no_home in
     let S := nth k Th [] in
     S <> [] /\ Forall (fun T => tshape T = layout_shape (h_layout h)) S /\
     forall v idx, In v world -> h_at h v idx ->
       Forall2 (fun t T => teq t (block (h_layout h) idx T)) (nth k (th v) []) S) /\
  forall v, In v world -> Forall (Forall (fun t => nonneg_shape (tshape t) /\ tshape t <> [])) (th v).

(** Layers one after the other: what one leaves, the next finds. *)
Inductive linked {R : CRing} (stage : place -> @layer R -> @seq_layer R -> list home -> place -> Prop) :
    place -> list (@layer R) -> list (@seq_layer R) -> list (list home) -> place -> Prop :=
| linked_nil p : linked stage p [] [] [] p
| linked_cons p y q hs p' net qs hss p'' :
    stage p y q hs p' -> linked stage p' net qs hss p'' -> linked stage p (y :: net) (q :: qs) (hs :: hss) p''.

(** The parameters of all layers. *)
Inductive all_held {R : CRing} (world : list Z) : list (list home) -> list (list (@slots R)) -> list (Z -> list (@slots R)) -> Prop :=
| all_held_nil : all_held world [] [] []
| all_held_cons hs hss Th Ths th ths :
    params_held world hs Th th -> all_held world hss Ths ths -> all_held world (hs :: hss) (Th :: Ths) (th :: ths).

(** The loss [l] of the sequential network on the first worker of [P]. *)
Definition loss_held {R : CRing} (P : part) (L : R) (l : Z -> tensor R) : Prop :=
  let root := nth 0 (p_ranks P) 0 in tshape (l root) = [] /\ tat (l root) [] = L.
