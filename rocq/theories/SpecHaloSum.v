(** Specification vocabulary for gradients of halo exchanges in machine arithmetic. *)

From Verif Require Import Prelude SpecIndex SpecLayout SpecPartition SpecHalo ModelPartition Ring Tensor SpecSum.

(** The point of the global tensor that local point [q] of the extended block of
    worker [idx] stands for. *)
Definition stands_for (L : layout) (H : halos) (idx q : list Z) : list Z :=
  vadd (vsub (block_lo L idx) (left_halo H idx)) q.

(** [C] lists the entries (worker, local point) that stand for point [g], each once:
    the entry of the block, and its copies in the halos of other blocks. *)
Definition copies (P : part) (L : layout) (H : halos) (g : list Z) (C : list (Z * list Z)) : Prop :=
  NoDup C /\
  forall u q, In (u, q) C <->
    exists idx, worker_at P idx u /\ valid_index (padded_shape L H idx) q /\ stands_for L H idx q = g.

(** The cotangents at these entries. *)
Definition cotangents {R : CRing} (dy : Z -> tensor R) (C : list (Z * list Z)) : list (term R) :=
  map (fun e => Num (tat (dy (fst e)) (snd e))) C.

(** [q] is a point of the block, namely [p], or of its halos. *)
Definition in_bulk (L : layout) (H : halos) (idx p q : list Z) : Prop :=
  valid_index (block_shape L idx) p /\ q = vadd (left_halo H idx) p.

(** No entry of a block is sent to both neighbours in one dimension. *)
Definition dim_apart (e : list Z) (h : list (Z * Z)) : Prop :=
  forall i, 0 < i -> i + 1 < Z.of_nat (length e) ->
    snd (halo_at h (i - 1)) + fst (halo_at h (i + 1)) <= nth (Z.to_nat i) e 0.
Definition halos_apart (L : layout) (H : halos) : Prop := Forall2 dim_apart L H.
