(** Model of [MPICartesianPartition.create_cartesian_subtopology_partition]
    (partition.py:990-1022). *)

From Verif Require Import Prelude ModelSlicing ModelPartition.

(** The argument [remain_shape]: a list of booleans or a list of integers
    (partition.py:990 and 1013). *)
Inductive flags := Bools (l : list bool) | Ints (l : list Z).

(** What mpi4py passes to MPI_Cart_sub (partition.py:1012): nonzero is true. *)
Definition remain_dims (f : flags) : list bool :=
  match f with Bools l => l | Ints l => map (fun z => negb (z =? 0)) l end.

(** [self.shape[remain_shape]] of numpy (partition.py:1017): a list of booleans is
    a mask, a list of integers is a list of positions (negative ones count from
    the end). *)
Definition index_shape (shape : list Z) (f : flags) : result (list Z) :=
  let n := Z.of_nat (length shape) in
  match f with
  | Bools l => if Nat.eqb (length l) (length shape) then Ok (select l shape) else Raise ErrIndex
  | Ints l => rmap (fun z => if (- n <=? z) && (z <? n) then Ok (nth (Z.to_nat (z mod n)) shape 0) else Raise ErrIndex) l
  end.

(** The coordinates of a worker of the subgrid through [idx]: those of [k] in the
    remaining dimensions, those of [idx] in the others (MPI_Cart_sub). *)
Fixpoint merge (keep : list bool) (k idx : list Z) : list Z :=
  match keep, idx with
  | true :: keep', _ :: idx' => match k with a :: k' => a :: merge keep' k' idx' | [] => [] end
  | false :: keep', i :: idx' => i :: merge keep' k idx'
  | _, _ => []
  end.

(** MPI_Cart_sub (called at partition.py:1012): the subgrid of the worker at
    [idx], numbered in row-major order of the remaining dimensions.  mpi4py checks
    the number of flags. *)
Definition cart_sub (P : part) (keep : list bool) (idx : list Z) : result (list Z) :=
  if Nat.eqb (length keep) (length (p_shape P)) then
    let* rs := rmap (fun k => cart_rank (p_shape P) (merge keep k idx)) (range_index (select keep (p_shape P))) in
    Ok (incl_ranks (p_ranks P) rs)
  else Raise ErrValue.

(** partition.py:990-1022; [None] is the partition of an inactive worker (lines
    1019-1021). *)
Definition create_cartesian_subtopology (P : part) (f : flags) (v : Z) : result (option part) :=
  match index_in P v with
  | None => Ok None
  | Some idx =>
      let* ranks := cart_sub P (remain_dims f) idx in
      let* shape := index_shape (p_shape P) f in
      Ok (Some (mkpart (p_root P) ranks shape))
  end.
