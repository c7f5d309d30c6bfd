(** Specification vocabulary for halos and sliding windows. *)

From Verif Require Import Prelude SpecIndex SpecLayout.

(** Halo widths (left, right): for each dimension, one pair per block. *)
Definition halos := list (list (Z * Z)).

Definition halo_at (h : list (Z * Z)) (i : Z) : Z * Z := nth (Z.to_nat i) h (0, 0).

(** In one dimension with block extents [e]: widths are non-negative, and there
    is no halo across the boundary. *)
Definition dim_halos_ok (e : list Z) (h : list (Z * Z)) : Prop :=
  length h = length e /\
  Forall (fun p => 0 <= fst p /\ 0 <= snd p) h /\
  fst (halo_at h 0) = 0 /\
  snd (halo_at h (Z.of_nat (length e) - 1)) = 0.

Definition halos_ok (L : layout) (H : halos) : Prop := Forall2 dim_halos_ok L H.

(** What a block sends to a neighbour lies inside the block and its halos... *)
Definition dim_fits (e : list Z) (h : list (Z * Z)) : Prop :=
  forall i, 0 <= i -> i + 1 < Z.of_nat (length e) ->
    fst (halo_at h (i + 1)) <= fst (halo_at h i) + nth (Z.to_nat i) e 0 /\
    snd (halo_at h i) <= nth (Z.to_nat (i + 1)) e 0 + snd (halo_at h (i + 1)).

(** ... or even in the block alone: a halo is no wider than the adjacent block. *)
Definition dim_narrow (e : list Z) (h : list (Z * Z)) : Prop :=
  forall i, 0 <= i -> i + 1 < Z.of_nat (length e) ->
    fst (halo_at h (i + 1)) <= nth (Z.to_nat i) e 0 /\
    snd (halo_at h i) <= nth (Z.to_nat (i + 1)) e 0.

Definition halos_fit (L : layout) (H : halos) : Prop := Forall2 dim_fits L H.
Definition halos_narrow (L : layout) (H : halos) : Prop := Forall2 dim_narrow L H.

(** Layers that worker [idx] receives, per dimension (from the left, from the
    right), and layers it sends (to the left, to the right): what its neighbours
    receive from this side. *)
Definition recv_plan (H : halos) (idx : list Z) : list (Z * Z) := map2 halo_at H idx.
Definition send_plan (H : halos) (idx : list Z) : list (Z * Z) :=
  map2 (fun h i => (if 0 <? i then snd (halo_at h (i - 1)) else 0, fst (halo_at h (i + 1)))) H idx.

Definition left_halo (H : halos) (idx : list Z) : list Z := map fst (recv_plan H idx).
Definition right_halo (H : halos) (idx : list Z) : list Z := map snd (recv_plan H idx).

(** The shape of a block with its halos. *)
Definition padded_shape (L : layout) (H : halos) (idx : list Z) : list Z :=
  vadd (vadd (left_halo H idx) (block_shape L idx)) (right_halo H idx).

(** * Sliding windows *)

(** In one dimension with [n] inputs, padded by [p] on both sides: the window of
    output [o] covers the padded inputs s*o + d*t for 0 <= t < k. *)
Definition window_fits (n k s p d o : Z) : Prop := s * o + d * (k - 1) < n + 2 * p.

(** [ny] is the number of windows that fit. *)
Definition window_count (n k s p d ny : Z) : Prop :=
  0 <= ny /\ forall o, 0 <= o -> (o < ny <-> window_fits n k s p d o).
