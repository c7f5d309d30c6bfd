(** Specification vocabulary for sums in machine arithmetic: each term once, in any
    order and bracketing. *)

From Coq Require Import Sorting.Permutation.
From Verif Require Import Prelude SpecIndex ModelSlicing ModelPartition Ring Tensor.

(** The operations of a machine; nothing is assumed of them.  [m_fma a b c] is
    a * b + c. *)
Record machine (R : Type) := mkmachine { m_add : R -> R -> R; m_mul : R -> R -> R; m_fma : R -> R -> R -> R }.
Arguments m_add {R}. Arguments m_mul {R}. Arguments m_fma {R}.

Inductive term (R : Type) := Num (a : R) | Prod (a b : R).
Arguments Num {R}. Arguments Prod {R}.

(** [evaluates M l r]: the machine may compute [r] for the sum of the terms [l].
    Accumulators may start from zero, and zeros may be added. *)
Inductive evaluates {R : CRing} (M : machine R) : list (term R) -> R -> Prop :=
| ev_zero : evaluates M [] rzero
| ev_num a : evaluates M [Num a] a
| ev_prod a b : evaluates M [Prod a b] (m_mul M a b)
| ev_add l1 l2 a b : evaluates M l1 a -> evaluates M l2 b -> evaluates M (l1 ++ l2) (m_add M a b)
| ev_fma a b l c : evaluates M l c -> evaluates M (Prod a b :: l) (m_fma M a b c)
| ev_order l l' a : Permutation l l' -> evaluates M l a -> evaluates M l' a.

(** A reduction that adds what it is given. *)
Definition adds {R : CRing} (M : machine R) (red : Z -> list Z -> list R -> list Z -> R) : Prop :=
  forall v g l i, l <> [] -> evaluates M (map Num l) (red v g l i).

(** The machine that computes in the ring. *)
Definition exact_machine (R : CRing) : machine R := mkmachine R radd rmul (fun a b c => radd (rmul a b) c).

Definition exact_term {R : CRing} (t : term R) : R := match t with Num a => a | Prod a b => rmul a b end.

(** ** Linear layers and their gradients *)
Section Linear.
  Context {R : CRing}.
  Variable M : machine R.

  (** [Y] may be computed for X W^T + b. *)
  Definition linear_terms (n_in : Z) (X W : tensor R) (b : option (tensor R)) (l : list Z) (o : Z) : list (term R) :=
    map (fun f => Prod (tat X (l ++ [f])) (tat W [o; f])) (zrange n_in) ++ match b with Some b => [Num (tat b [o])] | None => [] end.
  Definition linear_by (lead : list Z) (n_in n_out : Z) (X W : tensor R) (b : option (tensor R)) (Y : tensor R) : Prop :=
    tshape Y = lead ++ [n_out] /\
    forall l o, valid_index lead l -> 0 <= o < n_out -> evaluates M (linear_terms n_in X W b l o) (tat Y (l ++ [o])).

  (** [dX], [dW] and [db] may be computed for dY W, dY^T X and the sum of dY. *)
  Definition input_gradient_by (lead : list Z) (n_in n_out : Z) (W dY dX : tensor R) : Prop :=
    tshape dX = lead ++ [n_in] /\
    forall l f, valid_index lead l -> 0 <= f < n_in ->
      evaluates M (map (fun o => Prod (tat dY (l ++ [o])) (tat W [o; f])) (zrange n_out)) (tat dX (l ++ [f])).
  Definition weight_gradient_by (lead : list Z) (n_in n_out : Z) (X dY dW : tensor R) : Prop :=
    tshape dW = [n_out; n_in] /\
    forall o f, 0 <= o < n_out -> 0 <= f < n_in ->
      evaluates M (map (fun l => Prod (tat dY (l ++ [o])) (tat X (l ++ [f]))) (indices lead)) (tat dW [o; f]).
  Definition bias_gradient_by (lead : list Z) (n_out : Z) (dY db : tensor R) : Prop :=
    tshape db = [n_out] /\
    forall o, 0 <= o < n_out -> evaluates M (map (fun l => Num (tat dY (l ++ [o]))) (indices lead)) (tat db [o]).

  (** Arguments of fitting shapes. *)
  Definition linear_arguments (lead : list Z) (n_in n_out : Z) (X W : tensor R) (b : option (tensor R)) : Prop :=
    tshape X = lead ++ [n_in] /\ tshape W = [n_out; n_in] /\ match b with Some b => tshape b = [n_out] | None => True end /\
    nonneg_shape lead /\ 0 <= n_in /\ 0 <= n_out.

  (** Torch layers that compute such results, not necessarily the same ones on all
      workers. *)
  Definition torch_linear_by (torch : Z -> tensor R -> option (tensor R) -> tensor R -> result (tensor R)) : Prop :=
    forall v lead n_in n_out X W b, linear_arguments lead n_in n_out X W b ->
      exists Y, torch v W b X = Ok Y /\ linear_by lead n_in n_out X W b Y.
  Definition torch_linear_back_by (back_x back_w back_b : Z -> tensor R -> tensor R -> tensor R -> result (tensor R)) : Prop :=
    forall v lead n_in n_out X W dY, linear_arguments lead n_in n_out X W None -> tshape dY = lead ++ [n_out] ->
      (exists dX, back_x v W X dY = Ok dX /\ input_gradient_by lead n_in n_out W dY dX) /\
      (exists dW, back_w v W X dY = Ok dW /\ weight_gradient_by lead n_in n_out X dY dW) /\
      (forall b, tshape b = [n_out] -> exists db, back_b v b X dY = Ok db /\ bias_gradient_by lead n_out dY db).
End Linear.
