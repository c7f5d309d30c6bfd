(** Model of nn/conv_channel.py and nn/conv_general.py: convolutions whose channels
    (and, in the general layer, features) are distributed.  The padding mode is
    'zeros'; ModelPaddingMode has the others. *)

From Verif Require Import Prelude SpecIndex ModelSlicing ModelDecomposition ModelPartition Ring Tensor ModelCollectives
  ModelUtilities P2P Rounds ModelRepartition ModelHaloMixin ModelHaloExchange ModelFeatureLayer ModelLinear.

(** [list.insert] (conv_channel.py:152 and 174, conv_general.py:162 and 182). *)
Definition insert_at (k : nat) (a : Z) (l : list Z) : list Z := firstn k l ++ a :: skipn k l.

(** conv_channel.py:143-160, conv_general.py:155-170: the checks of a worker of P_x
    and the new P_x, of shape 1 x P_ci x ... *)
Definition recast_x (k : conv_class) (Px Pw : part) (v : Z) : result part :=
  match (if is_active (p_ranks Px) v then conv_check k 1 (p_shape Px) (p_shape Pw) else None) with
  | Some _ => Raise ErrValue
  | None => create_cartesian_topology (p_root Px) (p_ranks Px) (skipn 1 (insert_at 1 1 (p_shape Px)))
  end.

(** conv_channel.py:165-182, conv_general.py:175-190: the same for P_y, of shape
    P_co x 1 x ... *)
Definition recast_y (k : conv_class) (Py Pw : part) (v : Z) : result part :=
  match (if is_active (p_ranks Py) v then conv_check k 0 (p_shape Py) (p_shape Pw) else None) with
  | Some _ => Raise ErrValue
  | None => create_cartesian_topology (p_root Py) (p_ranks Py) (skipn 1 (insert_at 2 1 (p_shape Py)))
  end.

(** conv_general.py:240-283: the workers of P_w whose index satisfies [keep], as a
    partition of the given shape. *)
Definition sub_partition (Pw : part) (keep : list Z -> bool) (shape : list Z) : result part :=
  let numbered := combine (zrange (zprod (p_shape Pw))) (range_index (p_shape Pw)) in
  create_cartesian_topology (p_root Pw)
    (incl_ranks (p_ranks Pw) (map fst (filter (fun ic => keep (snd ic)) numbered))) shape.

(** The tests of conv_general.py:244 and 277. *)
Definition all_zero (l : list Z) : bool := forallb (fun i => i =? 0) l.

(** P_wr, P_b and P_br: conv_general.py:240-249, 255-265, 273-282. *)
Definition weight_roots (Pw : part) : result part :=
  sub_partition Pw (fun c => all_zero (skipn 2 c))
    (firstn 2 (p_shape Pw) ++ repeat 1 (length (skipn 2 (p_shape Pw)))).
(** P_b, conv_general.py:255-265. *)
Definition bias_users (Pw : part) : result part :=
  sub_partition Pw (fun c => nth 1 c 0 =? 0) (firstn 1 (p_shape Pw) ++ [1] ++ skipn 2 (p_shape Pw)).
(** P_br, conv_general.py:273-282. *)
Definition bias_roots (Pw : part) : result part :=
  sub_partition Pw (fun c => all_zero (skipn 1 c))
    (firstn 1 (p_shape Pw) ++ [1] ++ repeat 1 (length (skipn 2 (p_shape Pw)))).

(** conv_channel.py:213-217, conv_general.py:290-294: shape of the weight of the
    worker's torch layer. *)
Definition local_weight_shape (Pw : part) (in_channels out_channels groups : Z) (w : window) (idx : list Z) : list Z :=
  match compute_subshape (firstn 2 (p_shape Pw)) (firstn 2 idx) [out_channels; in_channels] with
  | [local_co; local_ci] => local_co :: local_ci / groups :: w_kernel w
  | _ => []
  end.

Section Conv.
  Context {R : CRing}.
  Notation tensor := (tensor R).

  (** torch.nn.Conv{1,2,3}d on a tensor, with its own padding or without any; torch
      checks the number of channels. *)
  Definition torch_conv (padded : bool) (w : window) (groups : Z) (weight : tensor) (bias : option tensor) (t : tensor) : result tensor :=
    let cout := nth 0 (tshape weight) 0 in
    let f := conv_kernel w cout groups weight bias in
    if nth 1 (tshape t) 0 =? groups * nth 1 (tshape weight) 0
    then if padded then torch_padded w f (fun _ => cout) rzero t else torch_sliding f (fun _ => cout) w t
    else Raise ErrTorch.

  Variables Px Py Pw : part.
  Variables (w : window) (groups : Z) (use_bias : bool).
  Variables (dt dt' dtw dtb : Z -> Z) (rg rg' rgw rgb : Z -> bool).
  Variables weight bias : Z -> tensor.     (* the parameters of every worker *)

  (** conv_channel.py:184, conv_general.py:194 [serial]: a worker outside P_w sees
      its size as -1 (partition.py:100). *)
  Definition serial (v : Z) : bool := is_active (p_ranks Pw) v && Nat.eqb (length (p_ranks Pw)) 1.

  (** When P_w has one worker, that worker takes part in no communication, and
      any other worker of P_x or P_y waits for it: the broadcast of
      conv_general.py:336 or the group creation of x_broadcast. *)
  Definition partner_missing (v : Z) : bool := negb (serial v) && Nat.eqb (length (p_ranks Pw)) 1.

  (** conv_channel.py:333-336, conv_general.py:546-549. *)
  Definition inactive (v : Z) : bool :=
    negb (is_active (p_ranks Px) v || is_active (p_ranks Py) v || is_active (p_ranks Pw) v).

  (** conv_channel.py:209-224 and 343-344: the worker's torch layer. *)
  Definition channel_local (v : Z) (t : tensor) : result tensor :=
    match index_in Pw v with
    | None => Raise ErrInactive
    | Some idx => torch_conv true w groups (weight v) (if (nth 1 idx 0 =? 0) && use_bias then Some (bias v) else None) t
    end.

  (** conv_channel.py:82-249 and 323-348: constructor and forward. *)
  Definition channel_conv_forward (x : Z -> tensor) (v : Z) : result tensor :=
    if inactive v then Ok (x v)
    else
      let* Px' := recast_x ChannelConv Px Pw v in
      let* Py' := recast_y ChannelConv Py Pw v in
      if serial v then torch_conv true w groups (weight v) (if use_bias then Some (bias v) else None) (x v)
      else if partner_missing v then Raise ErrComm
      else work_forward Px' Pw Py' false false false dt dt' rg rg' channel_local x v.

  (** conv_general.py:570-579: the parameters that worker [v] of P_w uses. *)
  Definition general_weight (v : Z) : result tensor :=
    let* Pwr := weight_roots Pw in
    broadcast_layer Pwr Pw false false false false dtw rgw weight v.
  (** conv_general.py:577-579. *)
  Definition general_bias (v : Z) : result (option tensor) :=
    let* Pb := bias_users Pw in
    let* Pbr := bias_roots Pw in
    if (is_active (p_ranks Pb) v || is_active (p_ranks Pbr) v) && use_bias
    then let* b := broadcast_layer Pbr Pb false false false false dtb rgb bias v in Ok (Some b)
    else Ok None.

  (** conv_general.py:584-585: the worker's torch layer. *)
  Definition general_local (v : Z) (t : tensor) : result tensor :=
    let* wt := general_weight v in
    let* b := general_bias v in
    torch_conv false w groups wt b t.

  (** conv_general.py:554-568: what worker [v] broadcasts, from the output of the
      halo layer on the new P_x.  The setup (407-482) is that of the feature
      layer. *)
  Definition general_input (P : part) (shape : Z -> list Z) (x exchanged : Z -> tensor) (v : Z) : tensor :=
    match feature_setup P w shape v with
    | Ok (Some u) => slice_tensor (exchanged v) (u_needed u)
    | _ => x v
    end.

  (** conv_general.py:536-589. *)
  Definition general_conv_forward (shape : Z -> list Z) (x exchanged : Z -> tensor) (v : Z) : result tensor :=
    if inactive v then Ok (x v)
    else
      let* Px' := recast_x GeneralConv Px Pw v in
      let* Py' := recast_y GeneralConv Py Pw v in
      if serial v then torch_conv true w groups (weight v) (if use_bias then Some (bias v) else None) (x v)
      else if partner_missing v then Raise ErrComm
      else work_forward Px' Pw Py' false false false dt dt' rg rg' general_local (general_input Px' shape x exchanged) v.
End Conv.
