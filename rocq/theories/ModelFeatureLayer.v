(** Model of nn/conv_feature.py and nn/pooling.py: layers that apply a sliding
    window over the feature dimensions of a partitioned tensor.  Tensors have
    shape (batch, channel, features...).

    What the underlying torch layer computes from a window is a parameter
    ([kernel]); convolution, average and maximum pooling are instances.  The
    padding mode is 'zeros' (conv_feature.py) or a constant (pooling.py). *)

From Verif Require Import Prelude SpecIndex ModelSlicing ModelDecomposition ModelPartition Ring Tensor ModelCollectives
  ModelUtilities P2P Rounds ModelRepartition ModelHaloMixin ModelHaloExchange.

(** conv_feature.py:226-236, pooling.py:139-149 [_expand_parameter] for a number
    ([a], made one-dimensional by [np.atleast_1d]) or a tuple. *)
Definition expand_parameter (nf : nat) (param : list Z) : result (list Z) :=
  match param with
  | [a] => Ok (repeat a nf)
  | _ => if Nat.eqb (length param) nf then Ok param else Raise ErrValue
  end.

(** The constructor's arguments, expanded: conv_feature.py:115-119,
    pooling.py:95-98. *)
Definition expand_window_parameters (nf : nat) (w : window) : result window :=
  let* k := expand_parameter nf (w_kernel w) in
  let* s := expand_parameter nf (w_stride w) in
  let* p := expand_parameter nf (w_padding w) in
  let* d := expand_parameter nf (w_dilation w) in
  Ok (mkwindow k s p d).

(** conv_feature.py:345-355, pooling.py:264-274 [_compute_local_padding] of
    [pad_left_right] (lines 161-162 and 122-123). *)
Definition compute_local_padding (P_shape idx global_padding : list Z) : list (Z * Z) :=
  vec (length P_shape) (fun j =>
    (if nth j idx 0 =? 0 then nth j global_padding 0 else 0,
     if nth j idx 0 =? nth j P_shape 0 - 1 then nth j global_padding 0 else 0)).

(** [shape + np.sum(padding, axis=1)], conv_feature.py:268, pooling.py:179. *)
Definition shape_after_pad (shape : list Z) (padding : list (Z * Z)) : list Z :=
  map2 (fun n p => n + (fst p + snd p)) shape padding.

(** What the setup stores: conv_feature.py:262-306, pooling.py:173-217. *)
Record fsetup := mkfsetup {
  u_padding : list (Z * Z);   (* local_padding *)
  u_halo : list (Z * Z);      (* halo_shape *)
  u_recv : list (Z * Z);
  u_send : list (Z * Z);
  u_needed : list (Z * Z)     (* needed_ranges *)
}.

Section Setup.
  Variables (P : part) (w : window).
  Variable shape : Z -> list Z.      (* shape of the local input of each worker *)

  (** The number of feature dimensions, conv_feature.py:115-119, pooling.py:95-98. *)
  Definition nf : nat := length (w_kernel w).

  (** conv_feature.py:238-306, pooling.py:151-217 [_distdl_module_setup] with the
      local padding of the constructor (155-162 and 116-123); [None] on an
      inactive worker. *)
  Definition feature_setup (v : Z) : result (option fsetup) :=
    match index_in P v with
    | None => Ok None
    | Some idx =>
        let dims := length (p_shape P) in
        let* global_padding := np_pad_left dims 0 (w_padding w) in
        let padding_of i := compute_local_padding (p_shape P) i global_padding in
        let* x_global := assemble_global_shape P shape v in
        let x_global_after_pad := map2 (fun n p => n + 2 * p) x_global global_padding in
        let shapes := compute_subtensor_shapes_unbalanced (p_shape P) (fun i =>
          shape_after_pad (shape (nth (Z.to_nat (cartesian_index_c (p_shape P) i)) (p_ranks P) 0)) (padding_of i)) in
        let* info := compute_exchange_info x_global_after_pad
                       (mkwindow (w_kernel w) (w_stride w) (repeat 0 nf) (w_dilation w))
                       true (p_shape P) idx (Some shapes) in
        match info with
        | None => Ok None
        | Some e => Ok (Some (mkfsetup (padding_of idx) (e_halo e) (e_recv e) (e_send e) (e_needed e)))
        end
    end.
End Setup.

Section Forward.
  Context {R : CRing}.
  Notation tensor := (tensor R).

  (** What the torch layer computes for output channel [c] from a window: the
      values at channel [ch] and kernel offset [t], for all channels; the first
      argument is the number of input channels. *)
  Definition kernel := Z -> Z -> (Z -> list Z -> R) -> R.

  (** Where torch's window of output [o] has its offset [t] (conv_feature.py:138-146, pooling.py:104-112). *)
  Definition window_point (w : window) (o t : list Z) : list Z :=
    vadd (map2 Z.mul (w_stride w) o) (map2 Z.mul (w_dilation w) t).

  (** The torch layer without padding ([padding=0], conv_feature.py:138-146 and
      pooling.py:104-112), [cout] giving the number of output channels.  torch
      refuses an input smaller than the dilated kernel. *)
  Definition torch_sliding (f : kernel) (cout : Z -> Z) (w : window) (t : tensor) : result tensor :=
    match tshape t with
    | b :: c :: xs =>
        let ys := compute_out_shape xs (mkwindow (w_kernel w) (w_stride w) (repeat 0 (length xs)) (w_dilation w)) in
        if forallb (fun n => 0 <? n) ys
        then Ok (mkt (b :: cout c :: ys) (fun i =>
               match i with
               | b' :: c' :: o => f c c' (fun ch t' => tat t (b' :: ch :: window_point w o t'))
               | _ => rzero
               end))
        else Raise ErrTorch
    | _ => Raise ErrTorch
    end.

  (** [t[needed_slices]] with Python's clamping of a slice to the extent. *)
  Definition py_slice (n : Z) (s : Z * Z) : Z * Z := (Z.min (fst s) n, Z.max (Z.min (fst s) n) (Z.min (snd s) n)).
  (** [t[needed_slices]], conv_feature.py:391, pooling.py:299. *)
  Definition slice_tensor (t : tensor) (ranges : list (Z * Z)) : tensor :=
    read_slice t (map2 py_slice (tshape t) ranges).

  Section Layer.
    Variables (P : part) (w : window) (f : kernel) (cout : Z -> Z) (value : R).

    (** conv_feature.py:380-388, pooling.py:289-296: the padded input. *)
    Definition feature_padded (u : fsetup) (x : tensor) : result tensor :=
      let total := map2 (fun a b => (fst a + fst b, snd a + snd b)) (u_padding u) (u_halo u) in
      if zsum (map (fun p => fst p + snd p) total) =? 0 then Ok x
      else match f_pad value (distdl_padding_to_torch_padding total) (length (tshape x)) x with
           | Some t => Ok t
           | None => Raise ErrTorch
           end.

    (** What worker [v] hands to its halo layer; the input itself on an inactive
        worker, which has no halo layer
        (conv_feature.py:390, pooling.py:298). *)
    Definition halo_input (shape : Z -> list Z) (x : Z -> tensor) (v : Z) : result tensor :=
      let* u := feature_setup P w shape v in
      match u with None => Ok (x v) | Some u => feature_padded u (x v) end.

    (** conv_feature.py:390-393, pooling.py:298-302, from the output of the halo
        layer; lines 367-368 and 286-287 on an inactive worker. *)
    Definition feature_output (shape : Z -> list Z) (x exchanged : Z -> tensor) (v : Z) : result tensor :=
      let* u := feature_setup P w shape v in
      match u with
      | None => Ok (x v)
      | Some u => torch_sliding f cout w (slice_tensor (exchanged v) (u_needed u))
      end.

    (** What worker [v] gives to the layer HaloExchange: its argument and, at
        construction (conv_feature.py:297-301, pooling.py:208-212), the plan. *)
    Definition halo_argument (shape : Z -> list Z) (x : Z -> tensor) (v : Z) : tensor :=
      match halo_input shape x v with Ok t => t | Raise _ => x v end.
    (** The plan: conv_feature.py:297-301, pooling.py:208-212. *)
    Definition halo_plan (shape : Z -> list Z) (v : Z) : fsetup :=
      match feature_setup P w shape v with Ok (Some u) => u | _ => mkfsetup [] [] [] [] [] end.

    (** The torch layer with its own padding, used by a convolution on a single
        worker (conv_feature.py:125-136 and 370-371). *)
    Definition torch_padded (t : tensor) : result tensor :=
      match f_pad value (distdl_padding_to_torch_padding ((0, 0) :: (0, 0) :: map (fun p => (p, p)) (w_padding w)))
              (length (tshape t)) t with
      | Some t' => torch_sliding f cout w t'
      | None => Raise ErrTorch
      end.
  End Layer.

  (** torch.nn.Conv{1,2,3}d: output channel [c] belongs to group c / (cout/groups);
      weight of shape (cout, cin/groups, kernel...). *)
  Definition conv_kernel (w : window) (cout groups : Z) (weight : tensor) (bias : option tensor) : kernel :=
    fun cin c g =>
      let cpg := cin / groups in
      let first := c / (cout / groups) * cpg in
      radd (sumf (zrange cpg) (fun j =>
              sumf (indices (w_kernel w)) (fun t => rmul (tat weight (c :: j :: t)) (g (first + j) t))))
           (match bias with Some b => tat b [c] | None => rzero end).

  (** The partition that holds weight and bias: the first worker of P_x,
      conv_feature.py:164-166. *)
  Definition weight_part (P : part) : part := mkpart (p_root P) [hd 0 (p_ranks P)] [1].

  Section Conv.
    Variables (P : part) (w : window) (cout groups : Z) (use_bias : bool).
    Variables (dt : Z -> Z) (rg : Z -> bool).

    (** The weight that worker [v] uses: conv_feature.py:205-210 and 373-378,
        [weight] being the layers' parameters (zero-volume except on the first
        worker). *)
    Definition conv_parameter (param : Z -> tensor) (v : Z) : result tensor :=
      broadcast_layer (weight_part P) P false false false false dt rg param v.

    (** conv_feature.py:357-393 on worker [v], from the output of the halo layer;
        on a single worker the torch layer is called on the input. *)
    Definition conv_forward (weight bias : Z -> tensor) (shape : Z -> list Z) (x exchanged : Z -> tensor) (v : Z) : result tensor :=
      let layer wt b := conv_kernel w cout groups wt (if use_bias then Some b else None) in
      if negb (is_active (p_ranks P) v) then Ok (x v)
      else if Nat.eqb (length (p_ranks P)) 1 then torch_padded w (layer (weight v) (bias v)) (fun _ => cout) rzero (x v)
      else
        let* wt := conv_parameter weight v in
        let* b := (if use_bias then conv_parameter bias v else Ok (bias v)) in
        feature_output P w (layer wt b) (fun _ => cout) shape x exchanged v.
  End Conv.

  (** torch.nn.AvgPool (with [count_include_pad]) and MaxPool: any function of the
      values of one channel in the window. *)
  Definition pool_kernel (h : (list Z -> R) -> R) : kernel := fun _ c g => h (g c).
End Forward.
