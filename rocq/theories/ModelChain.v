(** Networks of layers on one partition: nn/conv_feature.py, nn/pooling.py and
    pointwise torch layers, one after the other, forward and backward, with what
    torch's autograd keeps between the two passes.

    The workers are not synchronised between layers or passes: a worker proceeds to
    the next layer when its own part of the last one is done.  The halo exchanges of
    all the layers use the communicator of the partition and the same two tags.
    The torch layers' parameters are given; conv_feature.py:373-378 broadcasts them
    (C53), over communicators of its own.  A convolution is modelled by the code for
    several workers, also on a single one. *)

From Verif Require Import Prelude SpecIndex ModelSlicing ModelDecomposition ModelPartition Ring Tensor ModelCollectives
  ModelUtilities P2P Rounds ModelRepartition ModelHaloMixin ModelHaloExchange ModelFeatureLayer ModelGradients
  ModelFeatureGrad ModelMaxPoolGrad.
Local Open Scope Z_scope.

Section Chain.
  Context {R : CRing}.
  Notation tensor := (tensor R).
  Notation hst := (@hst R).
  Notation round := (@round hst tensor).

  (** torch's backward of the layer on the worker: by its coefficients
      (conv_feature.py:138-146, pooling.py:104-107) or by the positions of the
      maxima (pooling.py:109-112). *)
  Inductive backward_of :=
  | BLinear (K : @coefficients R)
  | BMax (choose : @choice R).

  (** A layer of the network: a sliding-window layer (conv_feature.py,
      pooling.py) set up for inputs of extents [shape], or a torch layer that maps
      every element, such as torch.nn.ReLU, with its slope. *)
  Inductive stage :=
  | SWindow (w : window) (f : @kernel R) (cout : Z -> Z) (value : R) (bk : backward_of) (shape : Z -> list Z)
  | SPoint (act slope : R -> R).

  Variable P : part.

  (** A worker that raises an exception loses everything
      (any statement of conv_feature.py:357-393). *)
  Definition failed : hst := mkhst (tzeros []) (tzeros []) (tzeros []) [].
  (** A statement of conv_feature.py:380-393 or pooling.py:289-302 on every worker. *)
  Definition worker_step (f : Z -> hst -> result hst) : round :=
    fun v => [ALocal (fun s => match f v s with Ok s' => s' | Raise _ => failed end)].

  (** Autograd's record of the forward pass is the end of [h_hist]
      (torch keeps what conv_feature.py:390-393 computed). *)
  Definition pop (s : hst) : result (tensor * hst) :=
    match h_hist s with
    | [] => Raise ErrIndex
    | _ => Ok (last (h_hist s) (tzeros []), mkhst (h_t s) (h_l s) (h_r s) (removelast (h_hist s)))
    end.

  (** The extents of the padded input, for which the halo layer is set up
      (conv_feature.py:380-390, pooling.py:289-298). *)
  Definition padded_extents (w : window) (shape : Z -> list Z) (v : Z) : list Z :=
    tshape (halo_argument P w (rzero : R) shape (fun u => tzeros (shape u)) v).

  Section Window.
    Variables (w : window) (f : @kernel R) (cout : Z -> Z) (value : R) (bk : backward_of) (shape : Z -> list Z).

    (** conv_feature.py:380-388, pooling.py:289-296. *)
    Definition pad_step (v : Z) (s : hst) : result hst :=
      let* t := halo_input P w value shape (fun _ => h_t s) v in
      Ok (set_t t s).
    (** conv_feature.py:391-393, pooling.py:299-302. *)
    Definition output_step (v : Z) (s : hst) : result hst :=
      let* t := feature_output P w f cout shape (fun _ => h_t s) (fun _ => h_t s) v in
      Ok (set_t t s).
    (** Their backwards, with the halo layer's output from the forward pass
        (conv_feature.py:391-393, pooling.py:299-302). *)
    Definition cotangent_step (v : Z) (s : hst) : result hst :=
      let* p := pop s in
      let* t := match bk with
                | BLinear K => feature_cotangent P w K shape (padded_extents w shape) (fun _ => h_t s) v
                | BMax choose => max_cotangent P w choose shape (fun _ => fst p) (fun _ => h_t s) v
                end in
      Ok (set_t t (snd p)).
    (** The backward of conv_feature.py:380-388 and pooling.py:289-296. *)
    Definition gradient_step (v : Z) (s : hst) : result hst :=
      let* t := feature_gradient P w shape (fun _ => h_t s) (fun _ => h_t s) v in
      Ok (set_t t s).

    (** conv_feature.py:297-301 and 390, pooling.py:208-212 and 298. *)
    Definition stage_recv (v : Z) : list (Z * Z) := u_recv (halo_plan P w shape v).
    (** conv_feature.py:297-301, pooling.py:208-212. *)
    Definition stage_send (v : Z) : list (Z * Z) := u_send (halo_plan P w shape v).
    (** conv_feature.py:390, pooling.py:298. *)
    Definition halo_forward : list round :=
      map (forward_round P (padded_extents w shape) stage_recv stage_send) (seq 0 (length (p_shape P))).
    (** The backward of conv_feature.py:390 and pooling.py:298. *)
    Definition halo_backward : list round :=
      map (backward_round P (padded_extents w shape) stage_recv stage_send) (rev (seq 0 (length (p_shape P)))).
  End Window.

  (** The torch layer on the worker's own tensor. *)
  Definition point_step (act : R -> R) (v : Z) (s : hst) : result hst :=
    Ok (set_t (mkt (tshape (h_t s)) (fun i => act (tat (h_t s) i))) s).
  (** torch's backward of such a layer. *)
  Definition slope_step (slope : R -> R) (v : Z) (s : hst) : result hst :=
    let* p := pop s in
    Ok (set_t (mkt (tshape (h_t s)) (fun i => rmul (tat (h_t s) i) (slope (tat (fst p) i)))) (snd p)).

  (** One layer: the forward methods (conv_feature.py:357-393, pooling.py:276-302)... *)
  Definition stage_forward (st : stage) : list round :=
    match st with
    | SWindow w f cout value bk shape =>
        [worker_step (pad_step w value shape)] ++ halo_forward w shape ++ [store_round]
        ++ [worker_step (output_step w f cout shape)]
    | SPoint act _ => [store_round; worker_step (point_step act)]
    end.
  (** ... and backwards (conv_feature.py:357-393, pooling.py:276-302). *)
  Definition stage_backward (st : stage) : list round :=
    match st with
    | SWindow w f cout value bk shape =>
        [worker_step (cotangent_step w bk shape)] ++ halo_backward w shape ++ [worker_step (gradient_step w shape)]
    | SPoint _ slope => [worker_step (slope_step slope)]
    end.

  (** A use of a network: the input and the gradient of the output on every worker.
      Both results are put in front of [h_hist]
      (conv_feature.py:357-393, pooling.py:276-302). *)
  Record use := mkuse { use_net : list stage; use_x : Z -> tensor; use_dy : Z -> tensor }.

  (** The result of a network, the value of conv_feature.py:393 or pooling.py:302 of its last layer. *)
  Definition keep_result (v : Z) (s : hst) : result hst := Ok (mkhst (h_t s) (h_l s) (h_r s) (h_t s :: h_hist s)).

  (** conv_feature.py:357-393, pooling.py:276-302: the calls of the layers, then
      their backwards from the last to the first. *)
  Definition use_rounds (u : use) : list round :=
    [load_round (use_x u)] ++ flat_map stage_forward (use_net u) ++ [worker_step keep_result]
    ++ [load_round (use_dy u)] ++ flat_map stage_backward (rev (use_net u)) ++ [worker_step keep_result].

  (** Several uses of networks, conv_feature.py:357-393 and pooling.py:276-302. *)
  Definition training_rounds (us : list use) : list round := flat_map use_rounds us.
End Chain.
