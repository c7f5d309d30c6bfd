(** Model of the parameters that the constructors of the layers register:
    nn/linear.py, nn/conv_feature.py, nn/conv_channel.py, nn/conv_general.py and
    nn/batchnorm.py.

    A module is the list of its entries and those of its children, own entries
    first, as torch walks through it.  Tensors are numbered, to see which entries are
    the same tensor.  Only shapes are kept; the numbers in the parameters are those
    of torch's initialisation. *)

From Coq Require Import String.
From Verif Require Import Prelude ModelSlicing ModelPartition ModelHaloMixin ModelLinear ModelConv ModelBatchNorm ModelFeatureLayer ModelUtilities.

(** What [self.name = torch.nn.Parameter(...)] and [register_buffer] enter, e.g.
    conv_general.py:306-308 and 325-327. *)
Inductive entry : Type :=
| Param (id : nat) (shape : list Z)
| Buffer (shape : list Z)
| Nothing.                        (* register_buffer(name, None), or bias=False in torch *)

(** A torch.nn.Module, as built by e.g. linear.py:54-83. *)
Definition module : Type := list (string * entry).

(** torch.nn.Module.named_parameters: a tensor met before is skipped.  The optimiser
    of a user of linear.py:54 is given these. *)
Fixpoint unseen_parameters (seen : list nat) (m : module) : list (string * list Z) :=
  match m with
  | [] => []
  | (name, Param id shape) :: m' =>
      if existsb (Nat.eqb id) seen then unseen_parameters seen m' else (name, shape) :: unseen_parameters (id :: seen) m'
  | _ :: m' => unseen_parameters seen m'
  end.
(** torch.nn.Module.named_parameters, see linear.py:54. *)
Definition named_parameters (m : module) : list (string * list Z) := unseen_parameters [] m.

(** torch.nn.Module.named_buffers: see conv_channel.py:237-242. *)
Definition named_buffers (m : module) : list (string * list Z) :=
  flat_map (fun ne => match snd ne with Buffer shape => [(fst ne, shape)] | _ => [] end) m.

(** The keys of torch.nn.Module.state_dict: see conv_channel.py:196-197. *)
Definition state_keys (m : module) : list string :=
  flat_map (fun ne => match snd ne with Nothing => [] | _ => [fst ne] end) m.

(** [zero_volume_tensor()], utilities/torch.py:5-13. *)
Definition zero_volume : entry := Buffer [0].

(** The weight and the bias of torch.nn.Linear and torch.nn.Conv{1,2,3}d: used at
    linear.py:79, conv_feature.py:126-134, conv_channel.py:187-195. *)
Definition torch_layer (weight_shape : list Z) (use_bias : bool) : entry * entry :=
  (Param 0 weight_shape, if use_bias then Param 1 [nth 0 weight_shape 0] else Nothing).

(** linear.py:54-83; the attribute [bias] of linear.py:66 is a flag. *)
Definition linear_module (Pw : part) (in_features out_features : Z) (use_bias : bool) (v : Z) : module :=
  match index_in Pw v with
  | None => []
  | Some idx =>
      let l := torch_layer (sublinear_shape Pw in_features out_features idx) (sublinear_bias use_bias idx) in
      [("sublinear.weight", fst l); ("sublinear.bias", snd l)]%string
  end.

(** torch.nn.Conv{1,2,3}d raises ValueError unless the groups divide the channels:
    called at conv_feature.py:126-146, conv_channel.py:187-195 and 216-224,
    conv_general.py:197-205 and 293-301. *)
Definition conv_made (groups local_ci : Z) (weight_shape : list Z) : bool :=
  (local_ci mod groups =? 0) && (nth 0 weight_shape 0 mod groups =? 0).

(** conv_channel.py:196-197, conv_general.py:206-207, conv_feature.py:135-136: the
    layer has the parameters of its child. *)
Definition aliases (l : entry * entry) : module :=
  [("weight", fst l); ("bias", snd l); ("conv_layer.weight", fst l); ("conv_layer.bias", snd l)]%string.

(** conv_channel.py:233-242, conv_general.py:324-327 and 342-345, conv_feature.py:183-186. *)
Definition no_bias (use_bias : bool) : entry := if use_bias then zero_volume else Nothing.

(** The number of input channels of the worker's layer: conv_channel.py:213-217,
    conv_general.py:290-294. *)
Definition local_in_channels (Pw : part) (in_channels out_channels : Z) (idx : list Z) : Z :=
  nth 1 (compute_subshape (firstn 2 (p_shape Pw)) (firstn 2 idx) [out_channels; in_channels]) 0.

Section Conv.
  Variables Px Py Pw : part.
  Variables (w : window) (groups in_channels out_channels : Z) (use_bias : bool).

  (** conv_channel.py:184-198, conv_general.py:194-208: the layer of a single worker. *)
  Definition serial_module : result module :=
    let shape := out_channels :: in_channels / groups :: w_kernel w in
    if conv_made groups in_channels shape then Ok (aliases (torch_layer shape use_bias)) else Raise ErrTorch.

  (** conv_channel.py:203-242. *)
  Definition channel_parameters (v : Z) : result module :=
    match index_in Pw v with
    | None => Ok [("weight", zero_volume); ("bias", no_bias use_bias)]%string
    | Some idx =>
        let stores_bias := (nth 1 idx 0 =? 0) && use_bias in
        let shape := local_weight_shape Pw in_channels out_channels groups w idx in
        let l := torch_layer shape stores_bias in
        if conv_made groups (local_in_channels Pw in_channels out_channels idx) shape
        then Ok [("weight", fst l); ("bias", if stores_bias then snd l else no_bias use_bias);
                 ("conv_layer.weight", fst l); ("conv_layer.bias", snd l)]%string
        else Raise ErrTorch
    end.

  (** conv_channel.py:82-249. *)
  Definition channel_module (v : Z) : result module :=
    if inactive Px Py Pw v then Ok []
    else
      let* _ := recast_x ChannelConv Px Pw v in
      let* _ := recast_y ChannelConv Py Pw v in
      if serial Pw v then serial_module else if partner_missing Pw v then Raise ErrComm else channel_parameters v.

  (** conv_general.py:229-345: [stores_weight] and [stores_bias] make new parameters
      (they get new numbers here); the tensors that replace those of the torch layer
      (313-316 and 334-337) are not parameters. *)
  Definition general_parameters (v : Z) : result module :=
    match index_in Pw v with
    | None => Ok [("weight", zero_volume); ("bias", no_bias use_bias)]%string
    | Some idx =>
        let* Pwr := weight_roots Pw in
        let* Pb := bias_users Pw in
        let* Pbr := bias_roots Pw in
        let stores_weight := is_active (p_ranks Pwr) v in
        let receives_bias := is_active (p_ranks Pb) v && use_bias in
        let stores_bias := is_active (p_ranks Pbr) v && use_bias in
        let shape := local_weight_shape Pw in_channels out_channels groups w idx in
        if conv_made groups (local_in_channels Pw in_channels out_channels idx) shape
        then
          if stores_bias && negb receives_bias then Raise ErrTorch      (* None.detach(), line 322 *)
          else Ok [("weight", if stores_weight then Param 2 shape else zero_volume);
                   ("bias", if stores_bias then Param 3 [nth 0 shape 0] else no_bias use_bias)]%string
        else Raise ErrTorch
    end.

  (** conv_general.py:89-345. *)
  Definition general_module (v : Z) : result module :=
    if inactive Px Py Pw v then Ok []
    else
      let* _ := recast_x GeneralConv Px Pw v in
      let* _ := recast_y GeneralConv Py Pw v in
      if serial Pw v then serial_module else if partner_missing Pw v then Raise ErrComm else general_parameters v.
End Conv.

(** conv_feature.py:85-210: the first worker of P_x ([P_wb_cart], lines 165-166)
    keeps the parameters. *)
Definition feature_module (P : part) (w : window) (groups in_channels out_channels : Z) (use_bias : bool) (v : Z) : result module :=
  if negb (is_active (p_ranks P) v) then Ok []
  else
    let shape := out_channels :: in_channels / groups :: w_kernel w in
    let l := torch_layer shape use_bias in
    if negb (conv_made groups in_channels shape) then Raise ErrTorch
    else if Nat.eqb (length (p_ranks P)) 1 then Ok (aliases l)
    else
      let* Pwb := create_cartesian_topology (p_root P) (incl_ranks (p_ranks P) [0]) [1] in
      if is_active (p_ranks Pwb) v
      then Ok [("weight", Param 2 shape); ("bias", if use_bias then Param 3 [out_channels] else Nothing)]%string
      else Ok [("weight", zero_volume); ("bias", no_bias use_bias)]%string.

(** batchnorm.py:45-101 on a worker of P_x. *)
Definition batchnorm_module (P : part) (num_features : Z) (affine track_running_stats : bool) (v : Z) : result module :=
  match index_in P v with
  | None => Raise ErrInactive
  | Some idx =>
      let* Psum := sum_partition P in
      let shape := internal_shape (length (p_shape P)) (local_num_features P num_features idx) in
      let affine_entries :=
        if affine then
          if is_active (p_ranks Psum) v
          then [("gamma", Param 0 shape); ("beta", Param 1 shape)]%string
          else [("gamma", zero_volume); ("beta", zero_volume)]%string
        else [] in
      let running := if track_running_stats then [("running_mean", Buffer shape); ("running_var", Buffer shape)]%string else [] in
      Ok (running ++ affine_entries)
  end.
