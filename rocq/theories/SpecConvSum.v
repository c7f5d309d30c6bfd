(** Specification vocabulary for convolutions in machine arithmetic. *)

From Coq Require Import Sorting.Permutation.
From Verif Require Import Prelude SpecIndex SpecHalo ModelSlicing ModelPartition Ring Tensor ModelHaloMixin ModelFeatureLayer PropHaloMixin SpecFeature SpecSum.

(** The window without its padding. *)
Definition bare (w : window) : window := mkwindow (w_kernel w) (w_stride w) (repeat 0 (length (w_kernel w))) (w_dilation w).

Section Conv.
  Context {R : CRing}.
  Variable M : machine R.

  (** Terms to be added; those marked [true] may be left out. *)
  Inductive kept : list (bool * term R) -> list (term R) -> Prop :=
  | kept_nil : kept [] []
  | kept_take m t l l' : kept l l' -> kept ((m, t) :: l) (t :: l')
  | kept_drop t l l' : kept l l' -> kept ((true, t) :: l) l'.

  Definition may_evaluate (l : list (bool * term R)) (r : R) : Prop := exists l', kept l l' /\ evaluates M l' r.

  (** What is added for output [b' c' o]: the products of the weights with the values
      under the window, zero in the padding, where they may be left out; and the
      bias. *)
  Definition window_at (w : window) (o t : list Z) : list Z :=
    vec (length (w_kernel w)) (fun k => nth k (w_stride w) 0 * nth k o 0 - nth k (w_padding w) 0 + nth k (w_dilation w) 0 * nth k t 0).
  Definition conv_terms (w : window) (groups cin cout : Z) (X W : tensor R) (bias : option (tensor R)) (b' c' : Z) (o : list Z) : list (bool * term R) :=
    let cpg := cin / groups in
    flat_map (fun k => map (fun t =>
        let g := b' :: c' / (cout / groups) * cpg + k :: window_at w o t in
        (negb (inside (tshape X) g), Prod (value_at X rzero g) (tat W (c' :: k :: t)))) (indices (w_kernel w))) (zrange cpg)
    ++ match bias with Some v => [(false, Num (tat v [c']))] | None => [] end.

  (** Arguments of a convolution with output extents [ys]. *)
  Definition conv_arguments (w : window) (groups cin cout : Z) (X W : tensor R) (bias : option (tensor R)) (b : Z) (xs ys : list Z) : Prop :=
    0 < groups /\ (groups | cin) /\ (groups | cout) /\ 0 < cin /\ 0 < cout /\ 0 < b /\
    tshape X = b :: cin :: xs /\ length xs = length (w_kernel w) /\ nonneg_shape xs /\ counts xs w ys /\ Forall (fun n => 0 < n) ys /\
    tshape W = cout :: cin / groups :: w_kernel w /\ match bias with Some v => tshape v = [cout] | None => True end.

  (** [Y] may be computed for the convolution. *)
  Definition conv_by (w : window) (groups cin cout : Z) (X W : tensor R) (bias : option (tensor R)) (b : Z) (ys : list Z) (Y : tensor R) : Prop :=
    tshape Y = b :: cout :: ys /\
    forall b' c' o, valid_index (tshape Y) (b' :: c' :: o) ->
      may_evaluate (conv_terms w groups cin cout X W bias b' c' o) (tat Y (b' :: c' :: o)).

  (** torch's convolutions, with padding and without, not necessarily the same on all
      workers. *)
  Definition torch_conv_by (w : window) (groups : Z) (torch : Z -> bool -> tensor R -> option (tensor R) -> tensor R -> result (tensor R)) : Prop :=
    forall v (padded : bool) cin cout X W bias b xs ys,
    let w' := if padded then w else bare w in
    conv_arguments w' groups cin cout X W bias b xs ys ->
    exists Y, torch v padded W bias X = Ok Y /\ conv_by w' groups cin cout X W bias b ys Y.
End Conv.
