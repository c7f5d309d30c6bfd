(** Model of the padding modes of the convolutions: nn/conv_feature.py,
    nn/conv_channel.py and nn/conv_general.py with padding_mode other than
    'zeros'.  The rest of these layers is in ModelFeatureLayer and ModelConv. *)

From Verif Require Import Prelude SpecIndex ModelSlicing ModelDecomposition ModelPartition Ring Tensor ModelCollectives
  ModelUtilities P2P Rounds ModelRepartition ModelHaloMixin ModelHaloExchange ModelFeatureLayer ModelLinear ModelConv.

(** The modes of conv_feature.py:63-65, conv_channel.py:62-64 and
    conv_general.py:66-68. *)
Inductive pad_mode := PadZeros | PadReflect | PadReplicate | PadCircular.

(** [torch.nn.functional.pad] in another mode than 'constant' (called at
    conv_feature.py:388, conv_general.py:565 and by torch's own layers): it accepts
    a list of 2, 4 or 6 numbers, for a tensor with at most two dimensions more
    than the list pads, and at least one more. *)
Definition mode_accepts (len dims : nat) : bool :=
  existsb (fun k => Nat.eqb len (2 * k) && (Nat.eqb dims (k + 1) || Nat.eqb dims (k + 2))) [1; 2; 3]%nat.

(** The entry at position [k] of a line of [n] entries, [k] outside of it: torch's
    definitions of the modes. *)
Definition mode_source (m : pad_mode) (n k : Z) : Z :=
  match m with
  | PadZeros => k
  | PadReflect => if k <? 0 then - k else if n <=? k then 2 * (n - 1) - k else k
  | PadReplicate => Z.max 0 (Z.min (n - 1) k)
  | PadCircular => k mod n
  end.

(** How much torch pads: less than the extent when it reflects, at most the extent
    when it wraps around; never an empty dimension. *)
Definition mode_fits (m : pad_mode) (n l r : Z) : bool :=
  (0 <? n) &&
  match m with
  | PadReflect => (l <? n) && (r <? n)
  | PadCircular => (l <=? n) && (r <=? n)
  | _ => true
  end.

Section Pad.
  Context {R : CRing}.
  Notation tensor := (tensor R).

  (** One dimension of [F.pad] (conv_feature.py:388, conv_general.py:565). *)
  Definition pad_dim_mode (m : pad_mode) (d : nat) (l r : Z) (t : tensor) : tensor :=
    mkt (upd d (nth d (tshape t) 0 + l + r) (tshape t))
        (fun i => tat t (upd d (mode_source m (nth d (tshape t) 0) (nth d i 0 - l)) i)).

  (** All dimensions of [F.pad], conv_feature.py:388, conv_general.py:565. *)
  Fixpoint pad_dims_mode (m : pad_mode) (pad : list Z) (dims : nat) (t : tensor) : option tensor :=
    match pad, dims with
    | [], _ => Some t
    | l :: r :: pad', S d =>
        if mode_fits m (nth d (tshape t) 0) l r then pad_dims_mode m pad' d (pad_dim_mode m d l r t) else None
    | _, _ => None
    end.

  (** [F.pad(t, pad, mode=..., value=0)], with 'constant' for 'zeros'
      (conv_feature.py:387-388, conv_general.py:564-565). *)
  Definition f_pad_mode (m : pad_mode) (pad : list Z) (t : tensor) : option tensor :=
    match m with
    | PadZeros => f_pad rzero pad (length (tshape t)) t
    | _ => if mode_accepts (length pad) (length (tshape t)) then pad_dims_mode m pad (length (tshape t)) t else None
    end.

  Section Layer.
    Variables (m : pad_mode) (P : part) (w : window) (f : @kernel R) (cout : Z -> Z).

    (** conv_feature.py:380-388, conv_general.py:557-565: the padded input. *)
    Definition feature_padded_mode (u : fsetup) (x : tensor) : result tensor :=
      let total := map2 (fun a b => (fst a + fst b, snd a + snd b)) (u_padding u) (u_halo u) in
      if zsum (map (fun p => fst p + snd p) total) =? 0 then Ok x
      else match f_pad_mode m (distdl_padding_to_torch_padding total) x with
           | Some t => Ok t
           | None => Raise ErrTorch
           end.

    (** What worker [v] hands to its halo layer, conv_feature.py:390,
        conv_general.py:567. *)
    Definition halo_input_mode (shape : Z -> list Z) (x : Z -> tensor) (v : Z) : result tensor :=
      let* u := feature_setup P w shape v in
      match u with None => Ok (x v) | Some u => feature_padded_mode u (x v) end.
    (** conv_feature.py:390, conv_general.py:567. *)
    Definition halo_argument_mode (shape : Z -> list Z) (x : Z -> tensor) (v : Z) : tensor :=
      match halo_input_mode shape x v with Ok t => t | Raise _ => x v end.

    (** torch.nn.Conv{1,2,3}d with its own padding (conv_feature.py:125-136,
        conv_channel.py:184-224, conv_general.py:194-205): in a mode other than
        'zeros' it pads its feature dimensions by [F.pad], also by nothing. *)
    Definition torch_padded_mode (t : tensor) : result tensor :=
      match m with
      | PadZeros => torch_padded w f cout rzero t
      | _ => match f_pad_mode m (distdl_padding_to_torch_padding (map (fun p => (p, p)) (w_padding w))) t with
             | Some t' => torch_sliding f cout w t'
             | None => Raise ErrTorch
             end
      end.
  End Layer.

  (** conv_feature.py:357-393 on worker [v], from the output of the halo layer;
      the padding comes before the exchange. *)
  Definition conv_forward_mode (m : pad_mode) (P : part) (w : window) (cout groups : Z) (use_bias : bool) (dt : Z -> Z) (rg : Z -> bool)
      (weight bias : Z -> tensor) (shape : Z -> list Z) (x exchanged : Z -> tensor) (v : Z) : result tensor :=
    let layer wt b := conv_kernel w cout groups wt (if use_bias then Some b else None) in
    if negb (is_active (p_ranks P) v) then Ok (x v)
    else if Nat.eqb (length (p_ranks P)) 1 then torch_padded_mode m w (layer (weight v) (bias v)) (fun _ => cout) (x v)
    else
      let* wt := conv_parameter P dt rg weight v in
      let* b := (if use_bias then conv_parameter P dt rg bias v else Ok (bias v)) in
      let* _ := halo_input_mode m P w shape x v in
      feature_output P w (layer wt b) (fun _ => cout) shape x exchanged v.

  (** torch.nn.Conv{1,2,3}d as built by conv_channel.py:184-224 and
      conv_general.py:194-205; torch pads before it checks the channels. *)
  Definition torch_conv_mode (m : pad_mode) (w : window) (groups : Z) (weight : tensor) (bias : option tensor) (t : tensor) : result tensor :=
    let cout := nth 0 (tshape weight) 0 in
    let f := conv_kernel w cout groups weight bias in
    if nth 1 (tshape t) 0 =? groups * nth 1 (tshape weight) 0
    then torch_padded_mode m w f (fun _ => cout) t
    else Raise ErrTorch.

  Section Channels.
    Variables (m : pad_mode) (Px Py Pw : part).
    Variables (w : window) (groups : Z) (use_bias : bool).
    Variables (dt dt' dtw dtb : Z -> Z) (rg rg' rgw rgb : Z -> bool).
    Variables weight bias : Z -> tensor.

    (** conv_channel.py:209-224 and 343-344: the worker's torch layer. *)
    Definition channel_local_mode (v : Z) (t : tensor) : result tensor :=
      match index_in Pw v with
      | None => Raise ErrInactive
      | Some idx => torch_conv_mode m w groups (weight v) (if (nth 1 idx 0 =? 0) && use_bias then Some (bias v) else None) t
      end.

    (** conv_channel.py:82-249 and 323-348: constructor and forward. *)
    Definition channel_conv_forward_mode (x : Z -> tensor) (v : Z) : result tensor :=
      if inactive Px Py Pw v then Ok (x v)
      else
        let* Px' := recast_x ChannelConv Px Pw v in
        let* Py' := recast_y ChannelConv Py Pw v in
        if serial Pw v then torch_conv_mode m w groups (weight v) (if use_bias then Some (bias v) else None) (x v)
        else if partner_missing Pw v then Raise ErrComm
        else work_forward Px' Pw Py' false false false dt dt' rg rg' channel_local_mode x v.

    (** conv_general.py:536-589; the work layers have padding 0 and mode 'zeros'
        (lines 297-298). *)
    Definition general_conv_forward_mode (shape : Z -> list Z) (x exchanged : Z -> tensor) (v : Z) : result tensor :=
      if inactive Px Py Pw v then Ok (x v)
      else
        let* Px' := recast_x GeneralConv Px Pw v in
        let* Py' := recast_y GeneralConv Py Pw v in
        if serial Pw v then torch_conv_mode m w groups (weight v) (if use_bias then Some (bias v) else None) (x v)
        else if partner_missing Pw v then Raise ErrComm
        else
          let* _ := halo_input_mode m Px' w shape x v in
          work_forward Px' Pw Py' false false false dt dt' rg rg' (general_local Pw w groups use_bias dtw dtb rgw rgb weight bias)
            (general_input w Px' shape x exchanged) v.
  End Channels.
End Pad.
