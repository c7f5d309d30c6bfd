(** Model of nn/loss.py with an arithmetic that is not fixed: the sums of the torch
    losses, MPI_SUM and the division are parameters. *)

From Verif Require Import Prelude ModelSlicing ModelPartition Ring Tensor ModelCollectives ModelUtilities ModelReduce ModelLoss.

Section Loss.
  Context {R : CRing}.
  Notation tensor := (tensor R).
  Variable red : Z -> list Z -> list R -> list Z -> R.
  (** The torch loss with reduction "sum" on worker [v], loss.py:43-48. *)
  Variable torch : Z -> tensor -> tensor -> result tensor.
  (** The loss of one element, its gradient for a cotangent, and the division of a
      number by a Python integer. *)
  Variables (f : R -> R -> R) (back : R -> R -> R -> R) (divide : R -> Z -> R).
  Variables (P : part) (kl : bool) (r : reduction) (dt : Z -> Z) (rg : Z -> bool).
  Variables x t : Z -> tensor.

  (** loss.py:163 and 171: [torch.reshape(local_loss, (1,))]. *)
  Definition reshaped_by (u : Z) : tensor :=
    match torch u (x u) (t u) with Ok l => mkt [1] (fun _ => tat l []) | Raise _ => mkt [] (fun _ => rzero) end.

  (** loss.py:172. *)
  Definition loss_reduced_by (P0 : part) (v : Z) : result tensor :=
    sum_reduce_layer_by red P P0 false false false true dt rg reshaped_by v.

  (** loss.py:129-179; see [loss_forward]. *)
  Definition loss_forward_by (v : Z) : result tensor :=
    if negb (accepts kl r) then Raise ErrValue
    else
      let* P0 := root_partition P in
      if negb (is_active (p_ranks P) v) then Raise ErrInactive
      else match r with
      | RNone => elementwise f (x v) (t v)
      | _ =>
          let* l := torch v (x v) (t v) in
          let* g := loss_reduced_by P0 v in
          let g' := if is_active (p_ranks P0) v
                    then mkt [] (fun _ => divide (tat g [0]) (normalization_factor P r x))
                    else g in
          Ok (snd (zv_forward g'))
      end.

  (** loss.py:171-179 backwards; see [loss_cotangent]. *)
  Definition loss_cotangent_by (dy : Z -> tensor) (P0 : part) (u : Z) : tensor :=
    if is_active (p_ranks P0) u
    then mkt [1] (fun _ => divide (tat (dy u) []) (normalization_factor P r x))
    else match loss_reduced_by P0 u with
         | Ok g => match zv_backward (fst (zv_forward g)) (dy u) with Some d => d | None => mkt [] (fun _ => rzero) end
         | Raise _ => mkt [] (fun _ => rzero)
         end.
  (** loss.py:129-179 backwards; see [loss_backward].  The backward of the reduction
      (functional/sum_reduce.py:140-230) is a broadcast: nothing is added. *)
  Definition loss_backward_by (dy : Z -> tensor) (v : Z) : result tensor :=
    let* y := loss_forward_by v in
    let* P0 := root_partition P in
    match r with
    | RNone => Ok (mkt (tshape (x v)) (fun i => back (tat (dy v) i) (tat (x v) i) (tat (t v) i)))
    | _ =>
        let* d := sum_reduce_layer_backward P P0 false false false true dt rg reshaped_by (loss_cotangent_by dy P0) v in
        Ok (mkt (tshape (x v)) (fun i => back (tat d [0]) (tat (x v) i) (tat (t v) i)))
    end.
End Loss.
