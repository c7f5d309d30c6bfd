(** Specification vocabulary for sliding-window layers on tensors of shape
    (batch, channel, features...). *)

From Verif Require Import Prelude SpecIndex SpecLayout SpecHalo Ring Tensor ModelHaloMixin ModelFeatureLayer PropHaloMixin.

(** Extents of the blocks of one dimension after padding the tensor by [p] on both
    sides. *)
Definition pad1 (e : list Z) (p : Z) : list Z :=
  map (fun i => nth (Z.to_nat i) e 0 + (if i =? 0 then p else 0) + (if i =? Z.of_nat (length e) - 1 then p else 0))
      (zrange (Z.of_nat (length e))).

(** The index is inside the shape. *)
Definition inside (shape g : list Z) : bool :=
  Nat.eqb (length shape) (length g) && forallb (fun p => (0 <=? snd p) && (snd p <? fst p)) (combine shape g).

Section Sequential.
  Context {R : CRing}.

  (** The tensor continued by a constant. *)
  Definition value_at (G : tensor R) (value : R) (g : list Z) : R :=
    if inside (tshape G) g then tat G g else value.

  (** [Y] is the output of the sequential layer on [G]: padding [w_padding w] with
      [value] on both sides of every feature dimension, at least one output. *)
  Definition is_sequential (f : kernel) (cout : Z -> Z) (value : R) (w : window) (G Y : tensor R) : Prop :=
    exists b c xs ys,
      tshape G = b :: c :: xs /\ tshape Y = b :: cout c :: ys /\
      counts xs w ys /\ 0 < b /\ 0 < c /\ Forall (fun n => 0 < n) ys /\
      forall b' c' o, valid_index (tshape Y) (b' :: c' :: o) ->
        tat Y (b' :: c' :: o) =
        f c c' (fun ch t => value_at G value (b' :: ch ::
          vec (length xs) (fun j => nth j (w_stride w) 0 * nth j o 0 - nth j (w_padding w) 0
                                    + nth j (w_dilation w) 0 * nth j t 0))).

  (** The kernel looks at existing channels and offsets only. *)
  Definition kernel_local (w : window) (f : @kernel R) (cout : Z -> Z) : Prop :=
    forall c c' g g', (forall ch t, 0 <= ch < c -> valid_index (w_kernel w) t -> g ch t = g' ch t) ->
      0 <= c' < cout c -> f c c' g = f c c' g'.

  (** It treats every channel alone. *)
  Definition per_channel (f : @kernel R) (cout : Z -> Z) : Prop :=
    (forall c, cout c = c) /\ exists h, forall c c' g, f c c' g = h (g c').
End Sequential.

(** One dimension with blocks [e] of the padded input and [ny] outputs, split
    evenly: every block has outputs; the inputs that they read reach no further
    than the adjacent blocks; and there is no room for another output after them
    in the block. *)
Definition dim_within (e : list Z) (ny k s d : Z) : Prop :=
  let y := balanced1 ny (Z.of_nat (length e)) in
  forall i, (i < length e)%nat ->
    let lo := zsum (firstn i e) in
    let hi := zsum (firstn (S i) e) in
    let ylo := zsum (firstn i y) in
    let yhi := zsum (firstn (S i) y) in
    ylo < yhi /\
    hi <= s * yhi + d * (k - 1) /\
    ((0 < i)%nat -> lo - s * ylo <= nth (i - 1) e 0) /\
    ((S i < length e)%nat -> s * (yhi - 1) + d * (k - 1) + 1 - hi <= nth (S i) e 0).

(** All dimensions; in the batch and channel dimensions the window is a single
    element. *)
Definition within (L : layout) (w : window) (ny : list Z) : Prop :=
  let fw := full_window (length L) w in
  forall j, (j < length L)%nat ->
    dim_within (pad1 (nth j L []) (nth j (w_padding fw) 0)) (nth j ny 0)
      (nth j (w_kernel fw) 0) (nth j (w_stride fw) 0) (nth j (w_dilation fw) 0).

(** Common layers: in every dimension the partition has a single worker; or the
    stride is one, the tensor is split evenly, the blocks are at least as wide as
    the kernel and the padding is narrower; or the blocks are equal multiples of
    the stride, which the kernel does not exceed, without padding. *)
Definition dim_common (e : list Z) (k s p d : Z) : Prop :=
  length e = 1%nat \/
  (s = 1 /\ e = balanced1 (zsum e) (Z.of_nat (length e)) /\ p <= d * (k - 1) /\ Forall (fun n => d * (k - 1) + 1 <= n) e) \/
  (p = 0 /\ d * (k - 1) + 1 <= s /\ exists m, 0 < m /\ Forall (fun n => n = s * m) e).

Definition common (L : layout) (w : window) (ny : list Z) : Prop :=
  let fw := full_window (length L) w in
  forall j, (j < length L)%nat ->
    dim_common (nth j L []) (nth j (w_kernel fw) 0) (nth j (w_stride fw) 0) (nth j (w_padding fw) 0) (nth j (w_dilation fw) 0).
