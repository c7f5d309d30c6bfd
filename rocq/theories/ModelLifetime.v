(** Partition objects of one worker, with the MPI handles they hold.

    mpi4py objects are compared and freed by handle; [Free] sets the handle of the
    Python object to the null handle, and so does it for every partition that
    refers to the same Python object.  A reference to a freed handle is therefore
    a null reference. *)

From Verif Require Import Prelude.

Inductive fault :=
| Exception         (* raise Exception() *)
| NullHandle.       (* mpi4py raises: operation on a null communicator or group *)

(** partition.py:77-115: [None] is MPI.COMM_NULL or MPI.GROUP_NULL.  [o_active] is
    the attribute [active]. *)
Record pobj := mkobj { o_comm : option nat; o_group : option nat; o_root : option nat; o_active : bool }.

(** The partitions created so far, the number of communicators and of groups
    created, and those freed.  Communicator 0 is MPI.COMM_WORLD. *)
Record heap := mkheap {
  objs : list pobj;
  comms : nat;
  groups : nat;
  freed_comms : list nat;
  freed_groups : list nat
}.
(** Before any call of partition.py:76-111. *)
Definition start : heap := mkheap [] 1 0 [] [].

(** A program step: the new heap and whether it ended with an exception
    (Python). *)
Definition stepped : Type := heap * option fault.

(** Whether a handle was freed, partition.py:133 and 136. *)
Definition mem (n : nat) (l : list nat) : bool := existsb (Nat.eqb n) l.
(** A communicator that is not null, partition.py:131-132. *)
Definition live_comm (h : heap) (c : option nat) : bool :=
  match c with Some n => negb (mem n (freed_comms h)) | None => false end.
(** A group that is not null, partition.py:135. *)
Definition live_group (h : heap) (g : option nat) : bool :=
  match g with Some n => negb (mem n (freed_groups h)) | None => false end.

(** MPI creates a communicator, e.g. partition.py:210, 243, 273, 411 and 1013. *)
Definition new_comm (h : heap) : nat * heap :=
  (comms h, mkheap (objs h) (S (comms h)) (groups h) (freed_comms h) (freed_groups h)).
(** MPI creates a group, e.g. partition.py:95, 208, 241, 274, 354 and 1014. *)
Definition new_group (h : heap) : nat * heap :=
  (groups h, mkheap (objs h) (comms h) (S (groups h)) (freed_comms h) (freed_groups h)).

(** partition.py:77-115 [__init__] with a group; the new partition is the last
    object.  Without a root, the communicator is the root (line 85). *)
Definition new_obj (h : heap) (c g r : option nat) : heap :=
  mkheap (objs h ++ [mkobj c g r (match c with Some _ => true | None => false end)])
         (comms h) (groups h) (freed_comms h) (freed_groups h).

(** partition.py:77-101 with a communicator only: [Get_group]. *)
Definition from_comm (h : heap) (c : nat) : heap :=
  let (g, h) := new_group h in new_obj h (Some c) (Some g) (Some c).

(** Partition object number [i] of partition.py:76-111. *)
Definition obj (h : heap) (i : nat) : pobj := nth i (objs h) (mkobj None None None false).

(** partition.py:117-148 [deactivate]. *)
Definition deactivate (h : heap) (i : nat) : stepped :=
  let o := obj h i in
  if o_active o then
    let fc := match o_comm o with
              | Some (S n) => if live_comm h (o_comm o) then [S n] else []
              | _ => []                                       (* null, or COMM_WORLD *)
              end in
    let fg := match o_group o with Some g => if live_group h (o_group o) then [g] else [] | None => [] end in
    (mkheap (upd i (mkobj None None (o_root o) false) (objs h)) (comms h) (groups h)
            (fc ++ freed_comms h) (fg ++ freed_groups h), None)
  else (h, None).

(** partition.py:185-212 [create_partition_inclusive]; [member] tells whether the
    worker is among the ranks. *)
Definition inclusive (h : heap) (i : nat) (member : bool) : stepped :=
  let o := obj h i in
  if negb (live_group h (o_group o)) then (h, Some NullHandle) else          (* Incl *)
  let (g, h) := new_group h in
  if negb (live_comm h (o_comm o)) then (h, Some NullHandle) else            (* Create_group *)
  if member then let (c, h) := new_comm h in (new_obj h (Some c) (Some g) (o_root o), None)
  else (new_obj h None (Some g) (o_root o), None).

(** partition.py:214-245 [create_partition_union]. *)
Definition union (h : heap) (i j : nat) (member : bool) : stepped :=
  let o := obj h i in
  let o' := obj h j in
  if negb (live_comm h (o_root o) && live_comm h (o_root o') &&
           match o_root o, o_root o' with Some a, Some b => Nat.eqb a b | _, _ => false end)
  then (h, Some Exception) else                                              (* line 238 *)
  if negb (live_group h (o_group o) && live_group h (o_group o')) then (h, Some NullHandle) else
  let (g, h) := new_group h in
  if member then let (c, h) := new_comm h in (new_obj h (Some c) (Some g) (o_root o), None)
  else (new_obj h None (Some g) (o_root o), None).

(** partition.py:247-284 [create_cartesian_topology_partition]; [fits] tells
    whether the new group equals the old one. *)
Definition cartesian (h : heap) (i : nat) (fits : bool) : stepped :=
  let o := obj h i in
  if o_active o then
    if negb (live_comm h (o_comm o)) then (h, Some NullHandle) else
    let (c, h) := new_comm h in
    let (g, h) := new_group h in
    if negb fits then (h, Some Exception) else                               (* line 277 *)
    (new_obj h (Some c) (Some g) (o_root o), None)
  else (new_obj h None (o_group o) (o_root o), None).                        (* line 284 *)

(** partition.py:990-1022 [create_cartesian_subtopology_partition]. *)
Definition subtopology (h : heap) (i : nat) : stepped :=
  let o := obj h i in
  if o_active o then
    if negb (live_comm h (o_comm o)) then (h, Some NullHandle) else
    let (c, h) := new_comm h in
    let (g, h) := new_group h in
    (new_obj h (Some c) (Some g) (o_root o), None)
  else (new_obj h None None (o_root o), None).

(** partition.py:579-620 [create_allreduction_partition]: a temporary partition,
    released at line 618. *)
Definition allreduction (h : heap) (i : nat) : stepped :=
  let o := obj h i in
  if negb (o_active o) then (new_obj h None None None, None) else            (* 594-598 *)
  let base := length (objs h) in
  match inclusive h i true with
  | (h, Some f) => (h, Some f)
  | (h, None) =>
      match cartesian h base true with
      | (h, Some f) => (h, Some f)
      | (h, None) => deactivate h base
      end
  end.

(** What the worker finds in partition.py:440-577 or 622-757: a mismatch (lines
    496, 512), or whether it has a send and a receive group, and whether these are
    identical. *)
Inductive cross_case := Mismatch | Groups (send recv same : bool).

(** partition.py:440-577 [create_broadcast_partition_to] and 622-757
    [create_reduction_partition_to], with 394-438; the last objects are P_send and
    P_recv, or the single object that is both (line 437). *)
Definition cross (h : heap) (i j : nat) (k : cross_case) : stepped :=
  if negb (o_active (obj h i) || o_active (obj h j)) then                    (* 474-480 *)
    (new_obj (new_obj h None None None) None None None, None)
  else
    let u := length (objs h) in
    match union h i j true with
    | (h, Some f) => (h, Some f)
    | (h, None) =>
        match k with
        | Mismatch => (h, Some Exception)                                    (* 496, 512 *)
        | Groups false false _ => (h, Some Exception)                        (* 434: send_ranks[0] *)
        | Groups send recv same =>
            let root := o_root (obj h u) in
            (* line 351, for the send and for the receive group *)
            let (gs, h) := if send then let (g, h) := new_group h in (Some g, h) else (None, h) in
            let (gr, h) := if recv then let (g, h) := new_group h in (Some g, h) else (None, h) in
            let same := send && recv && same in
            let h :=
              if same then let (c, h) := new_comm h in new_obj h (Some c) gs root       (* 434-437 *)
              else
                let (cs, h) := if send then let (c, h) := new_comm h in (Some c, h) else (None, h) in
                let (cr, h) := if recv then let (c, h) := new_comm h in (Some c, h) else (None, h) in
                let h := if send then new_obj h cs gs root else new_obj h None None None in
                if recv then new_obj h cr gr root else new_obj h None None None in
            deactivate h u                                                   (* 575, 755 *)
        end
    end.

Inductive op :=
| OWorld                              (* MPIPartition(MPI.COMM_WORLD) *)
| OComm                               (* MPIPartition(comm), a new communicator of the user *)
| OInclusive (i : nat) (member : bool)
| OUnion (i j : nat) (member : bool)
| OCartesian (i : nat) (fits : bool)
| OSubtopology (i : nat)
| OAllreduction (i : nat)
| OCross (i j : nat) (k : cross_case)
| ODeactivate (i : nat).

(** One call on the partitions [i], [j] created earlier
    (partition.py:76-284, 358-757, 990-1022). *)
Definition do_op (h : heap) (o : op) : stepped :=
  match o with
  | OWorld => (from_comm h 0, None)
  | OComm => let (c, h) := new_comm h in (from_comm h c, None)
  | OInclusive i m => inclusive h i m
  | OUnion i j m => union h i j m
  | OCartesian i f => cartesian h i f
  | OSubtopology i => subtopology h i
  | OAllreduction i => allreduction h i
  | OCross i j k => cross h i j k
  | ODeactivate i => deactivate h i
  end.

(** A program: calls in sequence; the program catches exceptions
    (partition.py:76-284, 358-757, 990-1022). *)
Definition do_ops (h : heap) (os : list op) : heap := fold_left (fun h o => fst (do_op h o)) os h.
