(** Specification of a block layout: how a global tensor is cut into boxes.

    A layout gives, for each dimension, the list of extents of the successive
    blocks.  Worker [w] (a multi-index) owns, in dimension d, block number
    w_d. *)

From Verif Require Import Prelude SpecIndex.

Definition layout := list (list Z).

Definition layout_ok (L : layout) : Prop := Forall (Forall (fun n => 0 <= n)) L.

(** Number of workers along each dimension. *)
Definition layout_workers (L : layout) : list Z := map (fun e => Z.of_nat (length e)) L.

(** Extents of the assembled global tensor. *)
Definition layout_shape (L : layout) : list Z := map zsum L.

(** The local shape of worker [w], the first global index it owns and the first
    global index after its block. *)
Definition block_shape (L : layout) (w : list Z) : list Z :=
  map2 (fun e i => nth (Z.to_nat i) e 0) L w.
Definition block_lo (L : layout) (w : list Z) : list Z :=
  map2 (fun e i => zsum (firstn (Z.to_nat i) e)) L w.
Definition block_hi (L : layout) (w : list Z) : list Z :=
  map2 (fun e i => zsum (firstn (S (Z.to_nat i)) e)) L w.

(** The layout in which the extents of a dimension differ by at most one and
    the larger blocks come first. *)
Definition balanced1 (n P : Z) : list Z :=
  map (fun i => if i <? n mod P then n / P + 1 else n / P) (zrange P).
Definition balanced (shape P : list Z) : layout := map2 balanced1 shape P.
