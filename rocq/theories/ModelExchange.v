(** The order in which the workers of a Broadcast or SumReduce layer enter and
    await collective operations: group creation, structure exchange
    (backends/mpi/tensor_comm.py:11-94), forward and backward
    (functional/broadcast.py, functional/sum_reduce.py), release of the groups
    (nn/broadcast.py:141-165, nn/sum_reduce.py:140-164), and the assembly of the
    global structure (tensor_comm.py:97-146).

    Communicators: those of the group creation ([xcomm]) and the created groups,
    named by their workers.  A communicator created again by a later setup has
    the same members and is given the same name. *)

From Verif Require Import Prelude ModelPartition ModelGroupCreation ModelCollectives Collective Phases.

Section Exchange.
  Variables s r : option (list Z).       (* P_send and P_recv of this worker *)

  (** Enter a collective operation without waiting, tensor_comm.py:20-44. *)
  Definition post1 (o : option (list Z)) : list (instr (list Z)) :=
    match o with Some g => [Post g] | None => [] end.
  (** Wait for operation number [n] on a partition, tensor_comm.py:66-77. *)
  Definition wait1 (o : option (list Z)) (n : nat) : list (instr (list Z)) :=
    match o with Some g => [Wait g n] | None => [] end.

  (** Lines 20-44 (four Iallreduce), 51-73 (two Iallreduce, the third awaited for
      the dimension, then the fourth), 77 (Waitall). *)
  Definition structure_prog : list (instr (list Z)) :=
    post1 s ++ post1 s ++ post1 s ++ post1 s ++
    (if same_comm s r then []
     else post1 r ++ post1 r ++ post1 r ++ wait1 r 3 ++ post1 r) ++
    wait1 s 1 ++ wait1 s 2 ++ wait1 s 3 ++ wait1 s 4 ++
    (if same_comm s r then [] else wait1 r 1 ++ wait1 r 2 ++ wait1 r 4).

  (** functional/broadcast.py:107-129: Ibcast on P_send; Ibcast on P_recv and its
      Wait; Waitall.  functional/sum_reduce.py:205-228 is the same with the roles
      of P_send and P_recv exchanged. *)
  Definition ibcast_prog : list (instr (list Z)) :=
    post1 s ++ (if same_comm s r then [] else post1 r ++ wait1 r 1) ++ wait1 s 1.

  (** functional/sum_reduce.py:103-124: Ireduce on P_send, Ireduce on P_recv if it
      is another partition, Waitall.  functional/broadcast.py:197-218 is the same
      with the roles exchanged. *)
  Definition ireduce_prog : list (instr (list Z)) :=
    post1 s ++ (if same_comm s r then [] else post1 r) ++
    wait1 s 1 ++ (if same_comm s r then [] else wait1 r 1).

  (** nn/broadcast.py:158-159, nn/sum_reduce.py:157-158: release of P_send and then of P_recv (the same
      object if they are equal).  [sync]: whether MPI_Comm_free waits for the
      other members, which MPI permits but does not require. *)
  Definition teardown_prog (sync : bool) : list (instr (list Z)) :=
    let w o := if sync then wait1 o 1 else [] in
    post1 s ++ w s ++ (if same_comm s r then [] else post1 r ++ w r).
End Exchange.

(** Communicators of partition.py:440-757 and the groups of nn/broadcast.py:126-128. *)
Definition lcomm : Type := xcomm + list Z.
(** Communicators are compared as by partition.py:149-177. *)
Definition lcomm_eq_dec (a b : lcomm) : {a = b} + {a <> b}.
Proof. decide equality; [apply xcomm_eq_dec|apply (list_eq_dec Z.eq_dec)]. Defined.

(** Their workers, partition.py:358-438. *)
Definition lmembers (union : list Z) : lcomm -> list Z :=
  msum (xmembers union) (fun g => g).

(** What a layer object goes through: setup on its first input or after a
    change of the input's structure, forward passes, backward passes, teardown
    (nn/module.py:36-56). *)
Inductive lphase : Type := LSetup | LForward | LBackward | LTeardown.

Section LayerPrograms.
  Variable create : Z -> result cross.
  Variable calls : Z -> list xcomm.
  Variables Px Py : part.
  Variables same ts td sync : bool.
  Variables fwd bwd : option (list Z) -> option (list Z) -> list (instr (list Z)).

  (** nn/broadcast.py:93-101, 122-136, 197-211: no communication in the identity
      case and on workers outside both partitions. *)
  Definition quiet (v : Z) : bool :=
    is_identity same Px ts td v ||
    negb (is_active (p_ranks Px) v || is_active (p_ranks Py) v).

  (** A program on the groups of worker [v], nn/broadcast.py:126-128. *)
  Definition on_groups (f : option (list Z) -> option (list Z) -> list (instr (list Z))) (v : Z)
    : list (instr lcomm) :=
    map (instr_map inr) (f (send_groups create v) (recv_groups create v)).

  (** nn/broadcast.py:103-139 (setup), 184-211 (forward and its backward), 141-165 (teardown). *)
  Definition phase_prog (ph : lphase) (v : Z) : list (instr lcomm) :=
    if quiet v then [] else
    match ph with
    | LSetup => seqp lcomm_eq_dec (map (instr_map inl) (bprog xcomm_eq_dec calls v))
                                  (on_groups structure_prog v)
    | LForward => on_groups fwd v
    | LBackward => on_groups bwd v
    | LTeardown => on_groups (fun s r => teardown_prog s r sync) v
    end.

  (** A history of the layer object, the same on all workers
      (nn/module.py:36-56). *)
  Definition layer_prog (history : list lphase) : Z -> list (instr lcomm) :=
    run_phases lcomm_eq_dec (map phase_prog history).
End LayerPrograms.

(** nn/broadcast.py:103-211. *)
Definition broadcast_prog (Px Py : part) (same ts td sync : bool) : list lphase -> Z -> list (instr lcomm) :=
  layer_prog (create_broadcast_partition_to Px Py ts td) (broadcast_calls Px Py ts td)
    Px Py same ts td sync ibcast_prog (fun s r => ireduce_prog r s).

(** nn/sum_reduce.py:102-206. *)
Definition sum_reduce_prog (Px Py : part) (same ts td sync : bool) : list lphase -> Z -> list (instr lcomm) :=
  layer_prog (create_reduction_partition_to Px Py ts td) (reduction_calls Px Py ts td)
    Px Py same ts td sync ireduce_prog (fun s r => ibcast_prog r s).

(** Assembly of the global structure: per dimension Cart_sub on P_in (113), an
    Allreduce on the sub-communicator (117) and its release (121); then on P_out
    three [broadcast_data] (136, 139, 143) (tensor_comm.py:104-146). *)
Inductive acomm : Type := AIn | ASub (i : nat) (g : list Z) | AOut.
(** Communicators are compared as by partition.py:149-177. *)
Definition acomm_eq_dec (a b : acomm) : {a = b} + {a <> b}.
Proof. decide equality; [apply (list_eq_dec Z.eq_dec)|apply Nat.eq_dec]. Defined.

(** tensor_comm.py:113-121. *)
Definition assemble_dim_calls (P_in : part) (i : nat) (v : Z) : list acomm :=
  if is_active (p_ranks P_in) v then
    match cart_sub_ranks P_in i v with
    | Ok g => [AIn; ASub i g; ASub i g]
    | Raise _ => []
    end
  else [].

(** tensor_comm.py:134-145. *)
Definition assemble_out_calls (out : list Z) (v : Z) : list acomm :=
  if is_active out v then repeat AOut 15 else [].

(** The workers of the communicators of tensor_comm.py:113-145. *)
Definition amembers (P_in : part) (out : list Z) (c : acomm) : list Z :=
  match c with AIn => p_ranks P_in | ASub _ g => g | AOut => out end.

(** tensor_comm.py:97-146. *)
Definition assemble_prog (P_in : part) (out : list Z) : Z -> list (instr acomm) :=
  run_phases acomm_eq_dec
    (map (fun i => bprog acomm_eq_dec (assemble_dim_calls P_in i)) (seq 0 (length (p_shape P_in)))
     ++ [bprog acomm_eq_dec (assemble_out_calls out)]).
