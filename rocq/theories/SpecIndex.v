(** Small specification vocabulary for indices and boxes.  It does not use any
    definition of the model. *)

From Verif Require Import Prelude.

(** A multi-index is valid for a shape when every coordinate is in range. *)
Definition valid_index (shape idx : list Z) : Prop :=
  Forall2 (fun n i => 0 <= i < n) shape idx.

(** The half-open box [lo, hi) contains the point [g]. *)
Definition in_box (lo hi g : list Z) : Prop :=
  length lo = length g /\ length hi = length g /\
  forall k, (k < length g)%nat -> nth k lo 0 <= nth k g 0 < nth k hi 0.

(** Pointwise sum of two index vectors (translate a local index). *)
Definition vadd (a b : list Z) : list Z := map2 Z.add a b.
Definition vsub (a b : list Z) : list Z := map2 Z.sub a b.

Definition pos_shape (P : list Z) : Prop := Forall (fun p => 0 < p) P.
Definition nonneg_shape (n : list Z) : Prop := Forall (fun x => 0 <= x) n.

(** Row-major numbering, by the usual stride formula
    i_0 * (n_1 n_2 ...) + i_1 * (n_2 ...) + ... *)
Fixpoint row_major (shape idx : list Z) : Z :=
  match shape, idx with
  | _ :: shape', i :: idx' => i * zprod shape' + row_major shape' idx'
  | _, _ => 0
  end.

(** Column-major numbering: i_0 + n_0 * (i_1 + n_1 * (...)). *)
Fixpoint col_major (shape idx : list Z) : Z :=
  match shape, idx with
  | n :: shape', i :: idx' => i + n * col_major shape' idx'
  | _, _ => 0
  end.
