(** Model of nn/loss.py. *)

From Verif Require Import Prelude ModelSlicing ModelPartition Ring Tensor ModelCollectives ModelUtilities ModelBatchNorm.

(** The reductions of loss.py:36 and 223. *)
Inductive reduction := RNone | RMean | RSum | RBatchMean.

(** loss.py:36, 41-50 and 223: which reductions a class accepts; [kl] for
    DistributedKLDivLoss. *)
Definition accepts (kl : bool) (r : reduction) : bool :=
  match r with RBatchMean => kl | _ => true end.

(** loss.py:54-55 [P_0]. *)
Definition root_partition (P : part) : result part :=
  create_cartesian_topology (p_root P) (incl_ranks (p_ranks P) [0]) (repeat 1 (length (p_shape P))).

Section Loss.
  Context {R : CRing}.
  Notation tensor := (tensor R).
  Variable A : arith R.
  (** The loss of one element of the input and the target, and its derivative with
      respect to the input (torch.nn.L1Loss and the others with reduction "none"). *)
  Variables (f df : R -> R -> R).
  Variables (P : part) (kl : bool) (r : reduction) (dt : Z -> Z) (rg : Z -> bool).

  (** torch's loss with reduction "none" and "sum", for inputs and targets of equal
      shapes; torch broadcasts others with a warning, which is not modelled. *)
  Definition elementwise (x t : tensor) : result tensor :=
    if zlist_eqb (tshape x) (tshape t) then Ok (mkt (tshape x) (fun i => f (tat x i) (tat t i))) else Raise ErrTorch.
  (** With reduction "sum" unless "none" was asked for, loss.py:43-48 and 163. *)
  Definition local_loss (x t : tensor) : result tensor :=
    let* e := elementwise x t in
    Ok (mkt [] (fun _ => sumf (indices (tshape e)) (tat e))).

  (** loss.py:64, 80-87 and 239-254: what worker [u] contributes, and the factor. *)
  Definition own_count (x : Z -> tensor) (u : Z) : Z :=
    match r with
    | RMean => zprod (tshape (x u))
    | RBatchMean =>
        match index_in P u with
        | Some idx => if forallb (Z.eqb 0) (skipn 1 idx) then nth 0 (tshape (x u)) 0 else 0
        | None => 0
        end
    | _ => 0
    end.
  (** loss.py:80-87 and 239-254: the factor. *)
  Definition normalization_factor (x : Z -> tensor) : Z :=
    match r with
    | RMean | RBatchMean => zsum (map (own_count x) (p_ranks P))
    | _ => 1
    end.

  (** loss.py:171-172: [torch.reshape(local_loss, (1,))] and the reduction. *)
  Definition reshaped (x t : Z -> tensor) (u : Z) : tensor :=
    match local_loss (x u) (t u) with Ok l => mkt [1] (fun _ => tat l []) | Raise _ => mkt [] (fun _ => rzero) end.

  (** loss.py:129-179 [forward] of worker [v].  In the branch of an inactive worker
      [input] is Python's builtin function, which has no attribute [clone]. *)
  Definition loss_forward (x t : Z -> tensor) (v : Z) : result tensor :=
    if negb (accepts kl r) then Raise ErrValue
    else
      let* P0 := root_partition P in
      if negb (is_active (p_ranks P) v) then Raise ErrInactive
      else match r with
      | RNone => elementwise (x v) (t v)
      | _ =>
          let* l := local_loss (x v) (t v) in
          let* g := sum_reduce_layer P P0 false false false true dt rg (reshaped x t) v in
          let g' := if is_active (p_ranks P0) v
                    then mkt [] (fun _ => adiv A (tat g [0]) (rint (normalization_factor x)))
                    else g in
          Ok (snd (zv_forward g'))
      end.

  (** The backward pass from the cotangents [dy] of the outputs: through the
      corrector (zero_volume_corrector.py:62-87), the division and the selection of
      element 0 (loss.py:176-177), the reduction and the local loss. *)
  Definition loss_cotangent (x t : Z -> tensor) (dy : Z -> tensor) (P0 : part) (u : Z) : tensor :=
    if is_active (p_ranks P0) u
    then mkt [1] (fun _ => adiv A (tat (dy u) []) (rint (normalization_factor x)))
    else match sum_reduce_layer P P0 false false false true dt rg (reshaped x t) u with
         | Ok g => match zv_backward (fst (zv_forward g)) (dy u) with Some d => d | None => mkt [] (fun _ => rzero) end
         | Raise _ => mkt [] (fun _ => rzero)
         end.
  (** loss.py:129-179 backwards. *)
  Definition loss_backward (x t dy : Z -> tensor) (v : Z) : result tensor :=
    let* y := loss_forward x t v in
    let* P0 := root_partition P in
    match r with
    | RNone => Ok (mkt (tshape (x v)) (fun i => rmul (tat (dy v) i) (df (tat (x v) i) (tat (t v) i))))
    | _ =>
        let* d := sum_reduce_layer_backward P P0 false false false true dt rg (reshaped x t) (loss_cotangent x t dy P0) v in
        Ok (mkt (tshape (x v)) (fun i => rmul (tat d [0]) (df (tat (x v) i) (tat (t v) i))))
    end.
End Loss.
