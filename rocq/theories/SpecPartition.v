(** Specification vocabulary for partitions and the broadcast rules
    (docs/code_reference/nn/broadcast.rst). *)

From Verif Require Import Prelude SpecIndex ModelPartition.

(** A well-formed Cartesian partition: distinct workers, at least one
    dimension, positive extents, one worker per index. *)
Definition part_ok (P : part) : Prop :=
  NoDup (p_ranks P) /\ p_shape P <> [] /\ pos_shape (p_shape P) /\
  Z.of_nat (length (p_ranks P)) = zprod (p_shape P).

(** Worker [v] sits at Cartesian index [idx]: its rank is the row-major number
    of the index. *)
Definition worker_at (P : part) (idx : list Z) (v : Z) : Prop :=
  valid_index (p_shape P) idx /\
  nth_error (p_ranks P) (Z.to_nat (row_major (p_shape P) idx)) = Some v.

(** Reversal of a shape or index when a partition is transposed. *)
Definition flip (t : bool) (l : list Z) : list Z := if t then rev l else l.

(** The trailing dimensions of [d] that line up with those of [s]. *)
Definition trailing (s d : list Z) : list Z := skipn (length d - length s) d.

(** Broadcast rule: the source has no more dimensions, and in each lined-up
    dimension the extents are equal or the source's is one. *)
Definition bc_compatible (s d : list Z) : Prop :=
  (length s <= length d)%nat /\ Forall2 (fun a b => a = b \/ a = 1) s (trailing s d).

(** Coordinates of a destination worker projected onto the source: zero where
    the source extent is one. *)
Definition project (s idx : list Z) : list Z :=
  map2 (fun a i => if a =? 1 then 0 else i) s (trailing s idx).

(** The destination worker [d] must receive from the source worker [s]. *)
Definition paired (Ps Pd : part) (ts td : bool) (s d : Z) : Prop :=
  exists si di, worker_at Ps si s /\ worker_at Pd di d /\
    flip ts si = project (flip ts (p_shape Ps)) (flip td di).

(** Two indices agree on every axis that is not in [axes]. *)
Definition agree_off (axes : list Z) (i j : list Z) : Prop :=
  forall k, (k < length i)%nat -> ~ In (Z.of_nat k) axes -> nth k i 0 = nth k j 0.

(** The extents along the axes in [axes], one elsewhere. *)
Definition reduced_shape (axes s : list Z) : list Z :=
  map (fun k => if in_dec Z.eq_dec (Z.of_nat k) axes then nth k s 0 else 1) (seq 0 (length s)).

(** At most one extent differs from one. *)
Definition at_most_one_nontrivial (s : list Z) : Prop :=
  forall j1 j2, nth j1 s 1 <> 1 -> nth j2 s 1 <> 1 -> j1 = j2.
