(** Model of src/distdl/backends/mpi/partition.py.

    A worker is identified by its rank in the root communicator.  A partition is
    the list of these ranks in rank order, together with its Cartesian shape and
    an identifier of its root communicator.  MPI groups are lists of ranks of
    the root communicator; [Incl], [Union] and [Create_cart] (without
    reordering) are modelled by their effect on such lists.  Data exchanged by
    [Bcast]/[Allgather] is modelled by evaluating the senders' local
    computation. *)

From Verif Require Import Prelude ModelSlicing.

Inductive error : Type :=
| ErrRoot       (* create_partition_union: different roots, line 239 *)
| ErrNoData     (* broadcast_data: root rank is not in P_data, line 805 *)
| ErrDim        (* lines 496 and 678 *)
| ErrMatch      (* lines 512 and 691 *)
| ErrIndex      (* IndexError of numpy: np.where(...)[0][0] or ranks[0] on an empty array *)
| ErrSlice      (* ValueError of numpy: assignment of a 0-length array to [-0:] *)
| ErrAxis       (* create_allreduction_partition, line 603 *)
| ErrGroup      (* create_cartesian_topology_partition, line 277 *)
| ErrInactive   (* cartesian_index / neighbor_ranks on an inactive worker, lines 1039 and 1060 *)
| ErrCoords     (* MPI_Cart_rank with coordinates outside a non-periodic topology *)
| ErrComm       (* a collective call with a missing participant or unequal buffers *)
| ErrValue       (* ValueError raised by a layer *)
| ErrTorch.     (* an exception raised by a torch function *)

(** The outcome of a call, e.g. of partition.py:440-577: a value or an exception. *)
Inductive result (A : Type) : Type :=
| Ok (a : A)
| Raise (e : error).
Arguments Ok {A} a.
Arguments Raise {A} e.

(** Python's sequencing: an exception ends a function, e.g. at partition.py:238-239. *)
Definition rbind {A B} (r : result A) (k : A -> result B) : result B :=
  match r with Ok a => k a | Raise e => Raise e end.
Notation "'let*' x ':=' e1 'in' e2" := (rbind e1 (fun x => e2))
  (at level 200, x name, e1 at level 100, e2 at level 200).

(** A list comprehension whose body may raise (e.g. partition.py:612). *)
Fixpoint rmap {A B} (f : A -> result B) (l : list A) : result (list B) :=
  match l with
  | [] => Ok []
  | a :: r => let* b := f a in let* bs := rmap f r in Ok (b :: bs)
  end.

(** The attributes of partition.py:76-111 and 935-962. *)
Record part := mkpart {
  p_root : Z;             (* identifies the root communicator *)
  p_ranks : list Z;       (* root ranks of the workers, in rank order *)
  p_shape : list Z        (* Cartesian shape *)
}.

(** partition.py:98, 104: the rank of a worker in a partition, [None] when
    inactive ([MPI.PROC_NULL]). *)
Definition rank_in (ranks : list Z) (v : Z) : option Z :=
  option_map Z.of_nat (find_idx (Z.eqb v) ranks).

(** [active], partition.py:92 and 102. *)
Definition is_active (ranks : list Z) (v : Z) : bool :=
  match rank_in ranks v with Some _ => true | None => false end.

(** MPI_Cart_coords (row-major, as MPI prescribes): used by partition.py:1041. *)
Fixpoint cart_coords (shape : list Z) (rank : Z) : list Z :=
  match shape with
  | [] => []
  | _ :: rest => rank / zprod rest :: cart_coords rest (rank mod zprod rest)
  end.

(** MPI_Cart_rank on a non-periodic topology: used by partition.py:612, 1071. *)
Definition cart_rank (shape idx : list Z) : result Z :=
  if forallb (fun ni => (0 <=? snd ni) && (snd ni <? fst ni)) (combine shape idx)
  then Ok (cartesian_index_c shape idx) else Raise ErrCoords.

(** partition.py:1024-1041 [cartesian_index] of this worker; [None] if inactive
    (partition.py:960-962). *)
Definition index_in (P : part) (v : Z) : option (list Z) :=
  option_map (cart_coords (p_shape P)) (rank_in (p_ranks P) v).

(** partition.py:185-212 [create_partition_inclusive]: [Group.Incl]. *)
Definition incl_ranks (ranks sel : list Z) : list Z :=
  map (fun r => nth (Z.to_nat r) ranks 0) sel.

(** partition.py:241: MPI_Group_union: first group in order, then the elements of
    the second that are not in the first, in order. *)
Definition group_union (g1 g2 : list Z) : list Z :=
  g1 ++ filter (fun v => negb (existsb (Z.eqb v) g1)) g2.

(** partition.py:214-245 [create_partition_union]. *)
Definition create_partition_union (P Q : part) : result (list Z) :=
  if p_root P =? p_root Q then Ok (group_union (p_ranks P) (p_ranks Q)) else Raise ErrRoot.

(** partition.py:247-284 [create_cartesian_topology_partition]: MPI_Cart_create
    keeps the first prod(shape) workers, and the group must be unchanged. *)
Definition create_cartesian_topology (root : Z) (ranks shape : list Z) : result part :=
  if zprod shape =? Z.of_nat (length ranks) then Ok (mkpart root ranks shape) else Raise ErrGroup.

(** [np.where(l == x)[0]] (numpy, partition.py:339 and 344). *)
Fixpoint where_eq_from (k : Z) (x : Z) (l : list Z) : list Z :=
  match l with
  | [] => []
  | y :: l' => if y =? x then k :: where_eq_from (k + 1) x l' else where_eq_from (k + 1) x l'
  end.
(** partition.py:339 and 344. *)
Definition where_eq (x : Z) (l : list Z) : list Z := where_eq_from 0 x l.

(** partition.py:759-836 [broadcast_data]: [self] has the workers [ranks];
    [data_ranks] are the workers of P_data and [data v] is the value held by
    worker [v].  The rank map is gathered from all workers; the first worker of
    [ranks] with P_data rank [root] provides the data. *)
Definition broadcast_data {A} (ranks data_ranks : list Z) (data : Z -> A) (root : Z) : result A :=
  let rank_map := map (fun u => match rank_in data_ranks u with Some r => r | None => -1 end) ranks in
  match where_eq root rank_map with
  | [] => Raise ErrNoData
  | data_root :: _ => Ok (data (nth (Z.to_nat data_root) ranks 0))
  end.

(** [a[mask]] of numpy, the mask given as booleans per position (the code uses
    [np.where] positions in increasing order, which selects the same). *)
Fixpoint select {A} (mask : list bool) (l : list A) : list A :=
  match mask, l with
  | b :: mask', a :: l' => if b then a :: select mask' l' else select mask' l'
  | _, _ => []
  end.

(** [[::-1]] if transposed, partition.py:503-504. *)
Definition maybe_rev {A} (t : bool) (l : list A) : list A := if t then rev l else l.

(** Left-padding, [x = fill*ones(n); x[-len(l):] = l].  With [len(l) = 0] the
    slice [-0:] is the whole array and numpy refuses the assignment (unless
    n = 0). *)
Definition pad_left (n : nat) (fill : Z) (l : list Z) : result (list Z) :=
  match l with
  | [] => if Nat.eqb n 0 then Ok [] else Raise ErrSlice
  | _ => Ok (repeat fill (n - length l) ++ l)
  end.

(** partition.py:525-532, 542-548, 703-709 and 720-728: the Fortran order if transposed, else the C order. *)
Definition flat_index (transposed : bool) (shape idx : list Z) : Z :=
  if transposed then cartesian_index_f shape idx else cartesian_index_c shape idx.

(** partition.py:286-356 [_build_cross_partition_groups], on ranks of the union.
    [None] is the null group. *)
Definition build_cross_partition_groups (active : bool) (root_index : Z)
    (src_indices dest_indices : list Z) : result (option (list Z)) :=
  if active then
    let dest_ranks := where_eq root_index dest_indices in
    match where_eq root_index src_indices with
    | [] => Raise ErrIndex
    | root_rank :: _ =>
        Ok (Some (root_rank :: filter (fun r => negb (r =? root_rank)) dest_ranks))
    end
  else Ok None.

(** partition.py:358-438 [_create_send_recv_partitions]: the sequence of
    [Create_group] calls (each on a list of union ranks) made by the worker. *)
Definition create_send_recv_calls (send recv : option (list Z)) : result (list (list Z)) :=
  match send, recv with
  | Some gs, Some gr =>
      if negb (zlist_eqb gs gr) then
        match gs, gr with
        | s0 :: _, r0 :: _ => if r0 <? s0 then Ok [gr; gs] else Ok [gs; gr]
        | _, _ => Raise ErrIndex
        end
      else Ok [gs]
  | Some gs, None => Ok [gs]
  | None, Some gr => Ok [gr]
  | None, None => Raise ErrIndex
  end.

(** What partition.py:440-577 and 622-757 return, and the calls of 402-438. *)
Record cross := mkcross {
  x_send : option (list Z);      (* root ranks of P_send, or None *)
  x_recv : option (list Z);      (* root ranks of P_recv, or None *)
  x_calls : list (list Z)        (* groups created, in program order, as union ranks *)
}.

(** The flat index a source worker computes in [create_broadcast_partition_to]
    (partition.py:521-532), -1 when inactive. *)
Definition bc_src_flat (P_src : part) (transpose_src : bool) (src_shape : list Z)
    (mask : list bool) (n : nat) (u : Z) : result Z :=
  match index_in P_src u with
  | None => Ok (-1)
  | Some c =>
      let* cart := pad_left n 0 (maybe_rev transpose_src c) in
      Ok (flat_index transpose_src (select mask src_shape) (select mask cart))
  end.

(** partition.py:539-548, the destination's flat index. *)
Definition bc_dest_flat (P_dest : part) (transpose_dest : bool) (dest_shape : list Z)
    (mask : list bool) (u : Z) : result Z :=
  match index_in P_dest u with
  | None => Ok (-1)
  | Some c =>
      Ok (flat_index transpose_dest (select mask dest_shape)
            (select mask (maybe_rev transpose_dest c)))
  end.

(** [allgather_data] (partition.py:838-864): the values of all workers, in rank
    order.  An exception on any worker is an exception here. *)
Definition allgather {A} (f : Z -> result A) (ranks : list Z) : result (list A) := rmap f ranks.

(** partition.py:440-577 [create_broadcast_partition_to], as executed by worker
    [v]. *)
Definition create_broadcast_partition_to (P_src P_dest : part)
    (transpose_src transpose_dest : bool) (v : Z) : result cross :=
  (* 473-479 *)
  let active := is_active (p_ranks P_src) v || is_active (p_ranks P_dest) v in
  if negb active then Ok (mkcross None None []) else
  let* union := create_partition_union P_src P_dest in
  (* 482-492 *)
  let* P_src_shape := broadcast_data union (p_ranks P_src) (fun _ => p_shape P_src) 0 in
  let* P_dest_shape := broadcast_data union (p_ranks P_dest) (fun _ => p_shape P_dest) 0 in
  let src_dim := length P_src_shape in
  let dest_dim := length P_dest_shape in
  (* 495-497 *)
  if (dest_dim <? src_dim)%nat then Raise ErrDim else
  (* 502-504 *)
  let* src_shape := pad_left dest_dim 1 (maybe_rev transpose_src P_src_shape) in
  let dest_shape := maybe_rev transpose_dest P_dest_shape in
  (* 509-513 *)
  if existsb (fun sd => negb (fst sd =? snd sd) && negb (fst sd =? 1)) (combine src_shape dest_shape)
  then Raise ErrMatch else
  (* 516 *)
  let mask := map2 Z.eqb src_shape dest_shape in
  (* 521-534 *)
  let* src_flat_index := bc_src_flat P_src transpose_src src_shape mask dest_dim v in
  let* src_flat_indices := allgather (bc_src_flat P_src transpose_src src_shape mask dest_dim) union in
  (* 539-550 *)
  let* dest_flat_index := bc_dest_flat P_dest transpose_dest dest_shape mask v in
  let* dest_flat_indices := allgather (bc_dest_flat P_dest transpose_dest dest_shape mask) union in
  (* 557-568 *)
  let* send := build_cross_partition_groups (is_active (p_ranks P_src) v) src_flat_index
                 src_flat_indices dest_flat_indices in
  let* recv := build_cross_partition_groups (is_active (p_ranks P_dest) v) dest_flat_index
                 src_flat_indices dest_flat_indices in
  (* 570-577 *)
  let* calls := create_send_recv_calls send recv in
  Ok (mkcross (option_map (incl_ranks union) send) (option_map (incl_ranks union) recv) calls).

(** partition.py:700-709, the source's flat index in a reduction. *)
Definition rd_src_flat (P_src : part) (transpose_src : bool) (src_shape : list Z)
    (mask : list bool) (u : Z) : result Z :=
  match index_in P_src u with
  | None => Ok (-1)
  | Some c =>
      if transpose_src
      then Ok (cartesian_index_f (select mask src_shape) (select mask (rev c)))
      else Ok (cartesian_index_c (select mask src_shape) (select mask c))
  end.

(** [x = zeros(n); x[:len(l)] = l] (numpy, partition.py:721). *)
Definition pad_right (n : nat) (fill : Z) (l : list Z) : list Z :=
  l ++ repeat fill (n - length l).

(** partition.py:716-728, the destination's flat index in a reduction. *)
Definition rd_dest_flat (P_dest : part) (transpose_dest : bool) (dest_shape : list Z)
    (mask : list bool) (n : nat) (u : Z) : result Z :=
  match index_in P_dest u with
  | None => Ok (-1)
  | Some c =>
      if transpose_dest
      then Ok (cartesian_index_f (select mask dest_shape) (select mask (rev (pad_right n 0 c))))
      else
        let* cart := pad_left n 0 c in
        Ok (cartesian_index_c (select mask dest_shape) (select mask cart))
  end.

(** partition.py:622-757 [create_reduction_partition_to], as executed by worker
    [v]. *)
Definition create_reduction_partition_to (P_src P_dest : part)
    (transpose_src transpose_dest : bool) (v : Z) : result cross :=
  (* 655-661 *)
  let active := is_active (p_ranks P_src) v || is_active (p_ranks P_dest) v in
  if negb active then Ok (mkcross None None []) else
  let* union := create_partition_union P_src P_dest in
  (* 664-674 *)
  let* P_src_shape := broadcast_data union (p_ranks P_src) (fun _ => p_shape P_src) 0 in
  let* P_dest_shape := broadcast_data union (p_ranks P_dest) (fun _ => p_shape P_dest) 0 in
  let src_dim := length P_src_shape in
  let dest_dim := length P_dest_shape in
  (* 677-679 *)
  if (src_dim <? dest_dim)%nat then Raise ErrDim else
  (* 681-683 *)
  let src_shape := maybe_rev transpose_src P_src_shape in
  let* dest_shape := pad_left src_dim 1 (maybe_rev transpose_dest P_dest_shape) in
  (* 688-692 *)
  if existsb (fun sd => negb (fst sd =? snd sd) && negb (snd sd =? 1)) (combine src_shape dest_shape)
  then Raise ErrMatch else
  (* 695 *)
  let mask := map2 Z.eqb src_shape dest_shape in
  (* 700-711 *)
  let* src_flat_index := rd_src_flat P_src transpose_src src_shape mask v in
  let* src_flat_indices := allgather (rd_src_flat P_src transpose_src src_shape mask) union in
  (* 716-730 *)
  let* dest_flat_index := rd_dest_flat P_dest transpose_dest dest_shape mask src_dim v in
  let* dest_flat_indices := allgather (rd_dest_flat P_dest transpose_dest dest_shape mask src_dim) union in
  (* 737-748 *)
  let* send := build_cross_partition_groups (is_active (p_ranks P_src) v) src_flat_index
                 dest_flat_indices src_flat_indices in
  let* recv := build_cross_partition_groups (is_active (p_ranks P_dest) v) dest_flat_index
                 dest_flat_indices src_flat_indices in
  (* 750-757 *)
  let* calls := create_send_recv_calls send recv in
  Ok (mkcross (option_map (incl_ranks union) send) (option_map (incl_ranks union) recv) calls).

(** partition.py:579-620 [create_allreduction_partition], as executed by worker
    [v]; [Ok None] is the null partition of an inactive worker. *)
Definition create_allreduction_partition (P_src : part) (axes_reduce : list Z) (v : Z)
  : result (option part) :=
  match index_in P_src v with
  | None => Ok None
  | Some index =>
      (* 601-603 *)
      if existsb (fun d => Z.of_nat (length (p_shape P_src)) <=? d) axes_reduce
      then Raise ErrAxis else
      (* 606 *)
      let allreduce_shape :=
        map (fun k => if in_dims (Z.of_nat k) axes_reduce then nth k (p_shape P_src) 0 else 1)
            (seq 0 (length (p_shape P_src))) in
      (* 611-612 *)
      let index_filter := assemble_index_filter index axes_reduce true in
      let* allreduce_ranks :=
        rmap (cart_rank (p_shape P_src)) (filtered_range_index (p_shape P_src) index_filter) in
      (* 614-615 *)
      let base := incl_ranks (p_ranks P_src) allreduce_ranks in
      let* P := create_cartesian_topology (p_root P_src) base allreduce_shape in
      Ok (Some P)
  end.

(** partition.py:1043-1075 [neighbor_ranks]: per dimension (left, right), [None]
    for MPI.PROC_NULL. *)
Definition neighbor_ranks (P : part) (active : bool) (rank : Z)
  : result (list (option Z * option Z)) :=
  if negb active then Raise ErrInactive else
  let index := cart_coords (p_shape P) rank in
  rmap (fun i =>
          let lindex := upd i (nth i index 0 - 1) index in
          let rindex := upd i (nth i index 0 + 1) index in
          let* lrank := (if -1 =? nth i lindex 0 then Ok None
                         else let* r := cart_rank (p_shape P) lindex in Ok (Some r)) in
          let* rrank := (if nth i (p_shape P) 0 =? nth i rindex 0 then Ok None
                         else let* r := cart_rank (p_shape P) rindex in Ok (Some r)) in
          Ok (lrank, rrank))
       (seq 0 (length (p_shape P))).
