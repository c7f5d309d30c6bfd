(** The collective calls made by each worker while creating broadcast or
    reduction partitions (partition.py:440-577 and 622-757). *)

From Verif Require Import Prelude ModelPartition Collective.

(** Communicators involved: the root communicator restricted to the union's
    group (creation of the union's communicator), the union's communicator, and
    the new groups, named by their union ranks (partition.py:474, 358-438). *)
Inductive xcomm : Type :=
| XRoot
| XUnion
| XGroup (g : list Z).

(** Communicators are compared as by partition.py:149-177. *)
Definition xcomm_eq_dec (a b : xcomm) : {a = b} + {a <> b}.
Proof. decide equality. apply (list_eq_dec Z.eq_dec). Defined.

(** partition.py:759-836: one Allgather and four Bcasts per [broadcast_data]. *)
Definition broadcast_data_calls : list xcomm := [XUnion; XUnion; XUnion; XUnion; XUnion].

(** Calls of worker [v], given the outcome [r] of its local computation: union
    creation (475), two [broadcast_data] (485, 491), the checks (495-513), two
    [allgather_data] (534, 550), the groups (570-572, 404-436) and the release of
    the union's communicator (575; collective, partition.py:130). *)
Definition cross_calls (active : bool) (r : result cross) : list xcomm :=
  if negb active then [] else
  [XRoot] ++ broadcast_data_calls ++ broadcast_data_calls ++
  match r with
  | Raise _ => []
  | Ok x => [XUnion; XUnion] ++ map XGroup (x_calls x) ++ [XUnion]
  end.

(** partition.py:440-577. *)
Definition broadcast_calls (P_src P_dest : part) (ts td : bool) (v : Z) : list xcomm :=
  cross_calls (is_active (p_ranks P_src) v || is_active (p_ranks P_dest) v)
              (create_broadcast_partition_to P_src P_dest ts td v).

(** partition.py:622-757. *)
Definition reduction_calls (P_src P_dest : part) (ts td : bool) (v : Z) : list xcomm :=
  cross_calls (is_active (p_ranks P_src) v || is_active (p_ranks P_dest) v)
              (create_reduction_partition_to P_src P_dest ts td v).

(** Members of the communicators: MPI_Comm_create_group and the collectives are
    collective over the group. *)
Definition xmembers (union : list Z) (c : xcomm) : list Z :=
  match c with
  | XRoot | XUnion => union
  | XGroup g => incl_ranks union g
  end.
