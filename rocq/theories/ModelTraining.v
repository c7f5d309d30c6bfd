(** A network of distributed layers and its training: forward through all layers, a
    distributed loss, backward through all layers, a step of the optimizer on the
    parameters of every worker.  The layers are the ones of the other files; the code
    around them is the user's, as in tests/ and examples/ of /repo
    (examples/basics/ex_distributed_loss.py:75-106 is a network without layers). *)

From Coq Require Import QArith Qcanon.
From Verif Require Import Prelude ModelSlicing ModelDecomposition ModelPartition SpecIndex Ring Tensor ModelCollectives ModelBuffer
  P2P Rounds ModelRepartition PropRepartition ModelHaloMixin ModelHaloExchange PropHaloExchange ModelFeatureLayer ModelFeatureGrad
  ModelMaxPoolGrad ModelLinear ModelWorkGrad ModelConv ModelChannelGrad ModelGeneralGrad ModelBatchNorm ModelBatchNormGrad ModelInterpolate ModelScalars
  ModelUpsample ProofUpsampleLayer ModelUpsampleGrad ModelLoss.
Local Open Scope Z_scope.

(** * Parameters and the optimizer *)

Section Optimizer.
  Context {R : CRing}.
  Notation tensor := (tensor R).

  (** No parameter, as torch has it on workers without one (utilities/torch.py:5-13). *)
  Definition no_tensor : tensor := mkt [0] (fun _ => rzero).

  (** A parameter with the state the optimizer keeps for it (momentum, squares of
      gradients, number of steps...), tensors of one shape; the value comes first
      (torch.optim). *)
  Definition slots := list tensor.
  (** The value of a torch parameter. *)
  Definition value_of (s : slots) : tensor := hd no_tensor s.

  (** A torch.optim optimizer that treats the elements one by one, such as SGD, with
      or without momentum and weight decay, or Adam: [o] maps the value and the state
      of an element and its gradient to the new value and state. *)
  Definition optimizer := list R -> R -> list R.
  (** torch.optim.Optimizer.step for one parameter. *)
  Definition opt_step (o : optimizer) (s : slots) (d : tensor) : slots :=
    map (fun m => mkt (tshape (value_of s)) (fun i => nth m (o (map (fun t => tat t i) s) (tat d i)) rzero)) (seq 0 (length s)).

  (** torch.optim.Optimizer.step: parameters without a gradient are skipped. *)
  Fixpoint opt_steps (o : optimizer) (ps : list slots) (gs : list (option tensor)) : list slots :=
    match ps, gs with
    | s :: ps, g :: gs => match g with Some d => opt_step o s d | None => s end :: opt_steps o ps gs
    | ps, _ => ps
    end.
End Optimizer.

(** torch.optim.SGD(lr): value - lr * gradient. *)
Definition sgd {R : CRing} (lr : R) : @optimizer R := fun s g => [rsub (nth 0 s rzero) (rmul lr g)].
(** With momentum [mu]: the state is the buffer (torch.optim.SGD). *)
Definition sgd_momentum {R : CRing} (lr mu : R) : @optimizer R := fun s g =>
  let buf := radd (rmul mu (nth 1 s rzero)) g in [rsub (nth 0 s rzero) (rmul lr buf); buf].

(** * Layers *)

Section Layers.
  Context {R : CRing}.
  Notation tensor := (tensor R).
  Variable world : list Z.

  (** Layers of a network, with the attributes that their constructors set. *)
  Inductive layer :=
  (* nn/linear.py *)
  | YLinear (Px Py Pw : part) (use_bias same_xw same_wy : bool) (dt dt' : Z -> Z) (rg rg' : Z -> bool)
  (* nn/conv_channel.py *)
  | YChannelConv (Px Py Pw : part) (w : window) (groups : Z) (use_bias : bool) (dt dt' : Z -> Z) (rg rg' : Z -> bool)
  (* nn/conv_general.py *)
  | YGeneralConv (Px Py Pw : part) (w : window) (groups : Z) (use_bias : bool) (dt dt' dtw dtb : Z -> Z) (rg rg' rgw rgb : Z -> bool)
  (* nn/conv_feature.py *)
  | YFeatureConv (P : part) (w : window) (cout groups : Z) (use_bias : bool) (dt : Z -> Z) (rg : Z -> bool)
  (* nn/pooling.py, average and any other linear pooling; and max pooling, which
     pads with [value] *)
  | YPool (P : part) (w : window) (f : @kernel R) (cout : Z -> Z) (K : @coefficients R)
  | YMaxPool (P : part) (w : window) (choose : @choice R) (value : R)
  (* nn/repartition.py *)
  | YRepartition (Px Py : part) (preserve_batch : bool) (rg : Z -> bool)
  (* nn/batchnorm.py, in training mode *)
  | YBatchNorm (A : arith R) (P : part) (num_features : Z) (eps : R) (momentum : option R) (affine track : bool) (dt : Z -> Z) (rg : Z -> bool)
  (* nn/upsampling.py, in exact arithmetic; [weight] converts the weights of the kernels *)
  | YUpsample (P : part) (weight : Qc -> R) (a : upsample_args exact_types)
  (* torch.nn.ReLU, Tanh...: a function of every element, and its derivative *)
  | YActivation (act slope : R -> R)
  (* x.reshape(x.shape[0], *into) on the workers of [P] *)
  | YReshape (P : part) (into : list Z).

  (** Parameter number [k] of every worker; the parameter gradients of a layer
      (torch's parameters, e.g. linear.py:76-79). *)
  Definition param (k : nat) (th : Z -> list (@slots R)) (v : Z) : tensor := value_of (nth k (th v) []).
  (** The [grad] attributes of torch's parameters, e.g. of linear.py:76-79. *)
  Definition grads := Z -> list (option tensor).

  (** torch.Tensor.reshape: the elements in row-major order. *)
  Definition reshaped (into : list Z) (t : tensor) : tensor :=
    mkt into (fun i => tat t (cart_coords (tshape t) (row_major into i))).

  (** The [grad] attribute after torch's backward. *)
  Definition got (r : result tensor) : option tensor := match r with Ok t => Some t | Raise _ => None end.
  (** None on workers without the parameter, e.g. linear.py:75-79. *)
  Definition got_opt (r : option (result tensor)) : option tensor := match r with Some r => got r | None => None end.

  (** [F] returns [y] on every worker (e.g. linear.py:108). *)
  Definition returns (F : Z -> result tensor) (y : Z -> tensor) : Prop := forall v, In v world -> F v = Ok (y v).

  (** [exchanged] is a result of the halo layer of a layer with window [w] for the
      input [x], nn/halo_exchange.py: any execution after any earlier calls. *)
  Definition same_shapes (P : part) (arg : Z -> tensor) (pre : list (@ModelHaloExchange.call R)) : Prop :=
    Forall (fun c => forall v, In v (p_ranks P) ->
      tshape (match c with HForward x => x v | HBackward dy => dy v end) = tshape (arg v)) pre.
  (** The arguments of a halo layer, nn/halo_exchange.py:7-35, conv_feature.py:297-301. *)
  Definition halo_layer (P : part) (w : window) (value : R) (x : Z -> tensor) :=
    let shape v := tshape (x v) in
    let plan := halo_plan P w shape in
    ModelHaloExchange.history_rounds (R := R) P (fun v => tshape (halo_argument P w value shape x v))
      (fun v => u_recv (plan v)) (fun v => u_send (plan v)).
  (** nn/halo_exchange.py:140-151. *)
  Definition halo_forward (P : part) (w : window) (value : R) (x exchanged : Z -> tensor) : Prop :=
    let arg := halo_argument P w value (fun v => tshape (x v)) x in
    returns (halo_input P w value (fun v => tshape (x v)) x) arg /\
    exists pre init eager g, same_shapes P arg pre /\
      ends world (halo_layer P w value x (pre ++ [HForward arg])) init eager g /\ exchanged = halo_result g.
  (** functional/halo_exchange.py:80-140. *)
  Definition halo_backward (P : part) (w : window) (value : R) (x cotangent back : Z -> tensor) : Prop :=
    let arg := halo_argument P w value (fun v => tshape (x v)) x in
    exists pre init eager g, same_shapes P arg pre /\
      ends world (halo_layer P w value x (pre ++ [HBackward cotangent])) init eager g /\ back = halo_result g.

  (** The running statistics [st] of a batch normalisation have the extents they were
      made with, batchnorm.py:84-86; any calls have changed their values. *)
  Definition statistics_extents (P : part) (num_features : Z) (st : Z -> bnstate R) : Prop :=
    forall v, In v (p_ranks P) ->
      tshape (running_mean (st v)) = tshape (running_mean (bn_start (R := R) P num_features v)) /\
      tshape (running_var (st v)) = tshape (running_var (bn_start (R := R) P num_features v)).
  (** A call of the layer in training mode (batchnorm.py:188-233). *)
  Definition bn_training (th : Z -> list (@slots R)) (x : Z -> tensor) : bncall R := mkcall true x (param 0 th) (param 1 th).
  (** Gamma and beta are parameters of the workers of P_sum (batchnorm.py:95-101). *)
  Definition has_affine (P : part) (v : Z) : bool :=
    match sum_partition P with Ok Psum => is_active (p_ranks Psum) v | Raise _ => false end.

  (** The halo layer of an upsampling, upsampling.py:170-174. *)
  Definition upsample_halo (P : part) (a : upsample_args exact_types) (x : Z -> tensor) :=
    let shape v := tshape (x v) in
    let plan := upsample_plan exact_types P a shape in
    ModelHaloExchange.history_rounds (R := R) P (fun v => tshape (upsample_argument exact_types P a shape x v))
      (fun v => e_recv (plan v)) (fun v => e_send (plan v)).

  (** The forward pass of a layer with parameters [th] on the inputs [x] can return
      [y] everywhere; [saved] is the result of its halo layer, if it has one
      (linear.py:85-108, conv_channel.py:323-348, conv_general.py:536-589,
      conv_feature.py:357-393, pooling.py:276-302, nn/repartition.py:328-359,
      batchnorm.py:188-233, upsampling.py:269-284). *)
  Definition forward (l : layer) (th : Z -> list (@slots R)) (x saved y : Z -> tensor) : Prop :=
    let shape v := tshape (x v) in
    match l with
    | YLinear Px Py Pw use_bias same_xw same_wy dt dt' rg rg' =>
        returns (linear_forward Px Py Pw use_bias same_xw same_wy dt dt' rg rg' (param 0 th) (param 1 th) x) y
    | YChannelConv Px Py Pw w groups use_bias dt dt' rg rg' =>
        returns (channel_conv_forward Px Py Pw w groups use_bias dt dt' rg rg' (param 0 th) (param 1 th) x) y
    | YGeneralConv Px Py Pw w groups use_bias dt dt' dtw dtb rg rg' rgw rgb =>
        ((1 < length (p_ranks Pw))%nat -> halo_forward Px w rzero x saved) /\
        returns (general_conv_forward Px Py Pw w groups use_bias dt dt' dtw dtb rg rg' rgw rgb (param 0 th) (param 1 th) shape x saved) y
    | YFeatureConv P w cout groups use_bias dt rg =>
        ((1 < length (p_ranks P))%nat -> halo_forward P w rzero x saved) /\
        returns (conv_forward P w cout groups use_bias dt rg (param 0 th) (param 1 th) shape x saved) y
    | YPool P w f cout K => halo_forward P w rzero x saved /\ returns (feature_output P w f cout shape x saved) y
    | YMaxPool P w choose value =>
        halo_forward P w value x saved /\
        returns (feature_output P w (pool_kernel (chosen choose)) (fun c => c) shape x saved) y
    | YRepartition Px Py preserve_batch rg =>
        exists pre init eager g,
          ends world (ModelRepartition.history_rounds Px Py preserve_batch (setup_of Px Py shape) (pre ++ [CForward x rg])) init eager g /\
          y = result_of g
    | YBatchNorm A P num_features eps momentum affine track dt rg =>
        exists st, statistics_extents P num_features st /\
          returns (fun v => let* r := bn_forward A P num_features eps momentum affine track dt rg st (bn_training th x) v in Ok (fst r)) y
    | YUpsample P weight a =>
        let arg := upsample_argument exact_types P a shape x in
        returns (upsample_input exact_types P a shape x) arg /\
        (exists pre init eager g, same_shapes P arg pre /\
           ends world (upsample_halo P a x (pre ++ [HForward arg])) init eager g /\ saved = halo_result g) /\
        returns (upsample_output exact_types weight P a shape x saved) y
    | YActivation act slope => y = fun v => mkt (tshape (x v)) (fun i => act (tat (x v) i))
    | YReshape P into => y = fun v => if is_active (p_ranks P) v then reshaped (hd 0 (tshape (x v)) :: into) (x v) else x v
    end.

  (** The backward pass of the layer after that forward pass, for the gradients [dy]
      of the outputs, can return the gradients [dx] of the inputs and [ga] of the
      parameters (see [forward] for the lines; torch runs their backwards). *)
  Definition backward (l : layer) (th : Z -> list (@slots R)) (x saved dy dx : Z -> tensor) (ga : grads) : Prop :=
    let shape v := tshape (x v) in
    let padded w P value v := tshape (halo_argument P w value shape x v) in
    match l with
    | YLinear Px Py Pw use_bias same_xw same_wy dt dt' rg rg' =>
        returns (linear_backward Px Py Pw use_bias same_xw same_wy dt dt' rg rg' (param 0 th) (param 1 th) x dy) dx /\
        ga = fun v => [got (linear_weight_gradient Px Py Pw use_bias same_xw same_wy dt dt' rg rg' (param 0 th) (param 1 th) x dy v);
                       got_opt (linear_bias_gradient Px Py Pw use_bias same_xw same_wy dt dt' rg rg' (param 0 th) (param 1 th) x dy v)]
    | YChannelConv Px Py Pw w groups use_bias dt dt' rg rg' =>
        returns (channel_conv_backward Px Py Pw w groups use_bias dt dt' rg rg' (param 0 th) (param 1 th) x dy) dx /\
        ga = fun v => [got (channel_weight_gradient Px Py Pw w groups use_bias dt dt' rg rg' (param 0 th) (param 1 th) x dy v);
                       got_opt (channel_bias_gradient Px Py Pw w groups use_bias dt dt' rg rg' (param 0 th) (param 1 th) x dy v)]
    | YGeneralConv Px Py Pw w groups use_bias dt dt' dtw dtb rg rg' rgw rgb =>
        let cotangent := general_back_argument Px Py Pw w groups use_bias dt dt' dtw dtb rg rg' rgw rgb (param 0 th) (param 1 th) shape x saved dy in
        exists back,
          ((1 < length (p_ranks Pw))%nat ->
             returns (general_cotangent Px Py Pw w groups use_bias dt dt' dtw dtb rg rg' rgw rgb (param 0 th) (param 1 th) shape x saved dy) cotangent /\
             halo_backward Px w rzero x cotangent back) /\
          returns (general_conv_backward Px Py Pw w groups use_bias dt dt' dtw dtb rg rg' rgw rgb (param 0 th) (param 1 th) shape x saved dy back) dx /\
          ga = fun v => [got (general_weight_gradient Px Py Pw w groups use_bias dt dt' dtw dtb rg rg' rgw rgb (param 0 th) (param 1 th) shape x saved dy v);
                         got_opt (general_bias_gradient Px Py Pw w groups use_bias dt dt' dtw dtb rg rg' rgw rgb (param 0 th) (param 1 th) shape x saved dy v)]
    | YFeatureConv P w cout groups use_bias dt rg =>
        let cotangent := conv_back_argument P w cout groups dt rg shape (param 0 th) (padded w P rzero) dy in
        exists back,
          ((1 < length (p_ranks P))%nat ->
             returns (conv_cotangent P w cout groups dt rg shape (param 0 th) (padded w P rzero) dy) cotangent /\
             halo_backward P w rzero x cotangent back) /\
          returns (conv_gradient P w cout groups shape (param 0 th) dy back) dx /\
          ga = fun v => [got (conv_weight_gradient P w cout groups dt rg shape (param 0 th) x saved dy v);
                         if use_bias then got (conv_bias_gradient P cout dt rg (param 1 th) dy v) else None]
    | YPool P w f cout K =>
        let cotangent := feature_back_argument P w K shape (padded w P rzero) dy in
        exists back,
          returns (feature_cotangent P w K shape (padded w P rzero) dy) cotangent /\
          halo_backward P w rzero x cotangent back /\
          returns (feature_gradient P w shape dy back) dx /\ ga = fun _ => []
    | YMaxPool P w choose value =>
        let cotangent := max_back_argument P w choose shape saved dy in
        exists back,
          returns (max_cotangent P w choose shape saved dy) cotangent /\
          halo_backward P w value x cotangent back /\
          returns (feature_gradient P w shape dy back) dx /\ ga = fun _ => []
    | YRepartition Px Py preserve_batch rg =>
        (exists pre init eager g,
           ends world (ModelRepartition.history_rounds Px Py preserve_batch (setup_of Px Py shape) (pre ++ [CBackward dy])) init eager g /\
           dx = result_of g) /\ ga = fun _ => []
    | YBatchNorm A P num_features eps momentum affine track dt rg =>
        exists st, statistics_extents P num_features st /\
          returns (bn_input_gradient A P num_features eps momentum affine track dt rg st (bn_training th x) dy) dx /\
          ga = fun v => if affine && has_affine P v
                        then [got (bn_gamma_gradient A P num_features eps momentum track dt rg st (bn_training th x) dy v);
                              got (bn_beta_gradient P dt rg (bn_training th x) dy v)]
                        else [None; None]
    | YUpsample P weight a =>
        let arg := upsample_argument exact_types P a shape x in
        let cotangent := upsample_back_argument exact_types weight P a shape (fun v => tshape (arg v)) dy in
        returns (upsample_cotangent exact_types weight P a shape (fun v => tshape (arg v)) dy) cotangent /\
        exists pre init eager g, same_shapes P arg pre /\
          ends world (upsample_halo P a x (pre ++ [HBackward cotangent])) init eager g /\
          returns (upsample_gradient exact_types P a shape dy (halo_result g)) dx /\ ga = fun _ => []
    | YActivation act slope =>
        dx = (fun v => mkt (tshape (dy v)) (fun i => rmul (tat (dy v) i) (slope (tat (x v) i)))) /\ ga = fun _ => []
    | YReshape P into => dx = (fun v => if is_active (p_ranks P) v then reshaped (tshape (x v)) (dy v) else dy v) /\ ga = fun _ => []
    end.

  (** * Training *)

  (** The loss, nn/loss.py, on the workers of [P] with targets [t], and its backward
      pass from the gradient 1 on every worker (loss.backward()).  The workers outside
      have no loss (C35); they enter the backward pass with some gradient for what the
      last layer gave them. *)
  Variables (A : arith R) (f df : R -> R -> R) (P : part) (kl : bool) (r : reduction) (dt : Z -> Z) (rg : Z -> bool).
  (** loss.py:129-179 and its backward. *)
  Definition loss_pass (x t l dx : Z -> tensor) : Prop :=
    (forall v, In v (p_ranks P) -> loss_forward A f P kl r dt rg x t v = Ok (l v) /\
       loss_backward A f df P kl r dt rg x t (fun _ => mkt [] (fun _ => rone)) v = Ok (dx v)) /\
    (forall v, In v world -> ~ In v (p_ranks P) -> nonneg_shape (tshape (dx v)) /\ tshape (dx v) <> []).

  (** Every execution of a forward and a backward pass through the layers [net]
      completes, nothing raises, and the gradients of the input, those of the
      parameters, and the losses satisfy [Q]
      (the loop of examples/basics/ex_distributed_loss.py:75-106 with layers). *)
  Fixpoint every_pass (net : list layer) (ths : list (Z -> list (@slots R))) (x t : Z -> tensor)
      (Q : (Z -> tensor) -> list grads -> (Z -> tensor) -> Prop) : Prop :=
    match net, ths with
    | y :: net, th :: ths =>
        (exists saved out, forward y th x saved out) /\
        forall saved out, forward y th x saved out ->
          every_pass net ths out t (fun dout gas l =>
            (exists dx ga, backward y th x saved dout dx ga) /\
            forall dx ga, backward y th x saved dout dx ga -> Q dx (ga :: gas) l)
    | _, _ =>
        (exists l dx, loss_pass x t l dx) /\
        forall l dx, loss_pass x t l dx -> Q dx [] l
    end.

  (** The step of the optimizer on every worker
      (torch.optim.Optimizer.step). *)
  Definition updated (o : @optimizer R) (ths : list (Z -> list (@slots R))) (gas : list grads) : list (Z -> list (@slots R)) :=
    map2 (fun th (ga : grads) v => opt_steps o (th v) (ga v)) ths gas.

  (** Every execution of the training on the inputs and targets [data], one after the
      other, completes, and the parameters and losses satisfy [Q]
      (the loop of examples/basics/ex_distributed_loss.py:75-106, repeatedly). *)
  Fixpoint every_training (o : @optimizer R) (net : list layer) (ths : list (Z -> list (@slots R)))
      (data : list ((Z -> tensor) * (Z -> tensor))) (Q : list (Z -> list (@slots R)) -> list (Z -> tensor) -> Prop) : Prop :=
    match data with
    | [] => Q ths []
    | (x, t) :: data =>
        every_pass net ths x t (fun _ gas l =>
          every_training o net (updated o ths gas) data (fun ths' ls => Q ths' (l :: ls)))
    end.
End Layers.
