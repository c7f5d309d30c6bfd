(** Specification vocabulary for the padding modes of a convolution. *)

From Verif Require Import Prelude SpecIndex SpecHalo Ring Tensor ModelHaloMixin ModelFeatureLayer PropHaloMixin SpecFeature
  ModelPaddingMode.

(** In a line of [n] entries, continued on both sides, position [k] holds entry
    [e]: the mirror image about the first or last entry, the closest entry, or the
    one a multiple of [n] away. *)
Definition continued (m : pad_mode) (n k e : Z) : Prop :=
  0 <= e < n /\
  match m with
  | PadZeros => e = k
  | PadReflect => e = k \/ e = - k \/ e = 2 * (n - 1) - k
  | PadReplicate => forall e', 0 <= e' < n -> Z.abs (k - e) <= Z.abs (k - e')
  | PadCircular => (n | k - e)
  end.

(** How far a line of [n] entries can be continued. *)
Definition continuable (m : pad_mode) (n p : Z) : Prop :=
  0 < n /\ match m with PadReflect => p < n | PadCircular => p <= n | _ => True end.

(** [Y] is the output of the sequential layer on [G] with the given mode; [g] is
    the window of the continued tensor. *)
Definition is_sequential_mode {R : CRing} (m : pad_mode) (f : kernel) (cout : Z -> Z) (w : window) (G Y : tensor R) : Prop :=
  match m with
  | PadZeros => is_sequential f cout rzero w G Y
  | _ =>
    exists b c xs ys,
      tshape G = b :: c :: xs /\ tshape Y = b :: cout c :: ys /\
      counts xs w ys /\ 0 < b /\ 0 < c /\ Forall (fun n => 0 < n) ys /\
      Forall2 (continuable m) xs (w_padding w) /\
      forall b' c' o g, valid_index (tshape Y) (b' :: c' :: o) ->
        (forall ch t e, 0 <= ch < c -> valid_index (w_kernel w) t -> length e = length xs ->
           (forall j, (j < length xs)%nat ->
              continued m (nth j xs 0)
                (nth j (w_stride w) 0 * nth j o 0 - nth j (w_padding w) 0 + nth j (w_dilation w) 0 * nth j t 0) (nth j e 0)) ->
           g ch t = tat G (b' :: ch :: e)) ->
        tat Y (b' :: c' :: o) = f c c' g
  end.

(** Worker [idx] has the first or the last block of a padded dimension. *)
Definition padded_border (P_shape idx padding : list Z) : Prop :=
  exists j, (j < length padding)%nat /\ 0 < nth j padding 0 /\
    (nth (S (S j)) idx 0 = 0 \/ nth (S (S j)) idx 0 = nth (S (S j)) P_shape 0 - 1).
