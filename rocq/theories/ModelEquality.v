(** Comparison of the partition objects of ModelLifetime.v. *)

From Verif Require Import Prelude ModelLifetime.

Section Compare.
  (** What MPI stores for the handles: the members of a group, in order, and the
      worker's rank in a communicator. *)
  Variables (members : nat -> list Z) (rank_in : nat -> Z).
  Variable h : heap.

  (** MPI.PROC_NULL, partition.py:106 and compare.py:24-25. *)
  Definition proc_null : Z := -1.

  (** compare.py:16-17: a handle that was freed is null. *)
  Definition null_comm (c : option nat) : bool := negb (live_comm h c).
  (** compare.py:20-21. *)
  Definition null_group (g : option nat) : bool := negb (live_group h g).

  (** partition.py:100, 106 and 140: the attribute [rank]. *)
  Definition rank_of (o : pobj) : Z := match o_comm o with Some c => rank_in c | None => proc_null end.

  (** compare.py:4-7: MPI_IDENT for communicators is the same handle. *)
  Definition identical_comm (c c' : option nat) : bool :=
    if null_comm c || null_comm c' then false
    else match c, c' with Some a, Some b => Nat.eqb a b | _, _ => false end.
  (** compare.py:10-13: MPI_IDENT for groups is the same members in the same order. *)
  Definition identical_group (g g' : option nat) : bool :=
    if null_group g || null_group g' then false
    else match g, g' with Some a, Some b => if list_eq_dec Z.eq_dec (members a) (members b) then true else false | _, _ => false end.

  (** partition.py:149-177 [__eq__]. *)
  Definition equal (i j : nat) : bool :=
    let o := obj h i in
    let o' := obj h j in
    if null_comm (o_comm o) || null_comm (o_comm o') || null_group (o_group o) || null_group (o_group o')
       || (rank_of o =? proc_null) || (rank_of o' =? proc_null) then false
    else identical_comm (o_comm o) (o_comm o') && identical_group (o_group o) (o_group o') && (rank_of o =? rank_of o').

  (** broadcast.py:95-100 and sum_reduce.py:94-99; [size] is P_x.size. *)
  Definition identity_layer (i j : nat) (size : Z) (transpose_src transpose_dest : bool) : bool :=
    equal i j && ((size =? 1) || Bool.eqb transpose_src transpose_dest).
End Compare.
