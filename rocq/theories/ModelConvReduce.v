(** Model of nn/conv_channel.py and nn/conv_general.py with an arithmetic that is not
    fixed: torch's convolution and MPI_SUM are parameters. *)

From Verif Require Import Prelude SpecIndex ModelSlicing ModelDecomposition ModelPartition Ring Tensor ModelCollectives
  ModelUtilities P2P Rounds ModelRepartition ModelHaloMixin ModelHaloExchange ModelFeatureLayer ModelLinear ModelConv ModelReduce.

Section Conv.
  Context {R : CRing}.
  Notation tensor := (tensor R).
  Variable red : Z -> list Z -> list R -> list Z -> R.
  (** torch.nn.Conv{1,2,3}d on worker [v], with its own padding or without any, from
      weight, bias and input; see [torch_conv]. *)
  Variable torch : Z -> bool -> tensor -> option tensor -> tensor -> result tensor.

  Variables Px Py Pw : part.
  Variables (w : window) (use_bias : bool).
  Variables (dt dt' dtw dtb : Z -> Z) (rg rg' rgw rgb : Z -> bool).
  Variables weight bias : Z -> tensor.

  (** conv_channel.py:209-224 and 343-344; see [channel_local]. *)
  Definition channel_local_by (v : Z) (t : tensor) : result tensor :=
    match index_in Pw v with
    | None => Raise ErrInactive
    | Some idx => torch v true (weight v) (if (nth 1 idx 0 =? 0) && use_bias then Some (bias v) else None) t
    end.

  (** conv_channel.py:82-249 and 323-348; see [channel_conv_forward]. *)
  Definition channel_conv_by (x : Z -> tensor) (v : Z) : result tensor :=
    if inactive Px Py Pw v then Ok (x v)
    else
      let* Px' := recast_x ChannelConv Px Pw v in
      let* Py' := recast_y ChannelConv Py Pw v in
      if serial Pw v then torch v true (weight v) (if use_bias then Some (bias v) else None) (x v)
      else if partner_missing Pw v then Raise ErrComm
      else work_forward_by red Px' Pw Py' false false false dt dt' rg rg' channel_local_by x v.

  (** conv_general.py:584-585; see [general_local]. *)
  Definition general_local_by (v : Z) (t : tensor) : result tensor :=
    let* wt := general_weight Pw dtw rgw weight v in
    let* b := general_bias Pw use_bias dtb rgb bias v in
    torch v false wt b t.

  (** conv_general.py:536-589; see [general_conv_forward]. *)
  Definition general_conv_by (shape : Z -> list Z) (x exchanged : Z -> tensor) (v : Z) : result tensor :=
    if inactive Px Py Pw v then Ok (x v)
    else
      let* Px' := recast_x GeneralConv Px Pw v in
      let* Py' := recast_y GeneralConv Py Pw v in
      if serial Pw v then torch v true (weight v) (if use_bias then Some (bias v) else None) (x v)
      else if partner_missing Pw v then Raise ErrComm
      else work_forward_by red Px' Pw Py' false false false dt dt' rg rg' general_local_by (general_input w Px' shape x exchanged) v.
End Conv.
