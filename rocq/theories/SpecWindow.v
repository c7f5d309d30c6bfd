(** Specification vocabulary for sliding-window layers whose arithmetic is not
    fixed. *)

From Verif Require Import Prelude SpecIndex SpecHalo ModelSlicing ModelPartition Ring Tensor ModelHaloMixin ModelFeatureLayer PropHaloMixin SpecFeature.

Section Windows.
  Context {R : CRing}.

  (** [Q c c' g r]: from the values [g] of a window over [c] channels a layer may
      compute [r] for output channel [c']. *)
  Definition window_relation := Z -> Z -> (Z -> list Z -> R) -> R -> Prop.

  (** It is about existing channels and offsets only. *)
  Definition relation_local (w : window) (Q : window_relation) (cout : Z -> Z) : Prop :=
    forall c c' g g' r, (forall ch t, 0 <= ch < c -> valid_index (w_kernel w) t -> g ch t = g' ch t) ->
      0 <= c' < cout c -> Q c c' g r -> Q c c' g' r.

  (** It is about channel [c'] only. *)
  Definition relation_per_channel (Q : window_relation) (cout : Z -> Z) : Prop :=
    (forall c, cout c = c) /\
    exists q : (list Z -> R) -> R -> Prop, forall c c' g r, Q c c' g r <-> q (g c') r.

  (** A tensor on which a layer has output, of the given extents. *)
  Definition has_output (w : window) (G : tensor R) (b c : Z) (xs ys : list Z) : Prop :=
    tshape G = b :: c :: xs /\ counts xs w ys /\ 0 < b /\ 0 < c /\ Forall (fun n => 0 < n) ys /\
    length xs = length (w_kernel w).

  (** [Y] may be the output of the sequential layer on [G], padded with [value]. *)
  Definition is_windowed (Q : window_relation) (cout : Z -> Z) (value : R) (w : window) (G Y : tensor R) : Prop :=
    exists b c xs ys, has_output w G b c xs ys /\ tshape Y = b :: cout c :: ys /\
      forall b' c' o, valid_index (tshape Y) (b' :: c' :: o) ->
        Q c c' (fun ch t => value_at G value (b' :: ch ::
             vec (length xs) (fun j => nth j (w_stride w) 0 * nth j o 0 - nth j (w_padding w) 0 + nth j (w_dilation w) 0 * nth j t 0)))
          (tat Y (b' :: c' :: o)).

  (** A torch layer of this kind for [c] channels. *)
  Definition computes (Q : window_relation) (cout : Z -> Z) (value : R) (w : window) (c : Z) (layer : tensor R -> result (tensor R)) : Prop :=
    forall e b xs ys, has_output w e b c xs ys -> exists y, layer e = Ok y /\ is_windowed Q cout value w e y.
End Windows.
