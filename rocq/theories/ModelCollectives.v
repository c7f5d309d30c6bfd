(** Model of the data movement of Broadcast, SumReduce and AllSumReduce:
    backends/mpi/tensor_comm.py, backends/mpi/functional/{broadcast,sum_reduce,
    all_sum_reduce}.py, nn/{broadcast,sum_reduce,all_sum_reduce}.py.

    A function of the model is what worker [v] computes, given the data of all
    workers as functions of the worker ([x : Z -> tensor]).  Groups are lists of
    workers in rank order; the communicator made from a group is identified
    with it.  The value a collective operation delivers is computed from what
    all members of the communicator contribute; a member that does not enter the
    operation, or unequal buffer shapes, are errors ([ErrComm]).  (MPI compares
    only element counts; equal shapes are what the code intends.)  In which order
    the operations are entered and awaited is modelled in ModelExchange.v. *)

From Verif Require Import Prelude ModelPartition Ring Tensor.

(** utilities/torch.py:16-40 TensorStructure.  The element type is given by its
    integer code (utilities/dtype.py). *)
Record tstruct := mkst { st_shape : list Z; st_dtype : Z; st_rg : bool }.

(** partition.py:149-177 [__eq__] on send and receive partitions: null ones are
    never equal; two created from the same group are the same object. *)
Definition same_comm (a b : option (list Z)) : bool :=
  match a, b with Some g, Some h => zlist_eqb g h | _, _ => false end.

(** Whether a worker's partition [a] is the communicator [g]
    (functional/broadcast.py:110-126). *)
Definition on_comm (a : option (list Z)) (g : list Z) : bool := same_comm a (Some g).

(** Contributions of all members of a communicator, in rank order
    (MPI_Iallreduce, MPI_Ireduce). *)
Definition contributions {A} (g : list Z) (contrib : Z -> option A) : result (list A) :=
  rmap (fun m => match contrib m with Some a => Ok a | None => Raise ErrComm end) g.

(** MPI_Iallreduce with MPI_MAX on one integer. *)
Definition iallreduce_max (g : list Z) (contrib : Z -> option Z) : result Z :=
  let* l := contributions g contrib in
  match l with [] => Raise ErrComm | a :: r => Ok (fold_right Z.max a r) end.

(** The same on integer arrays, elementwise
    (MPI_Iallreduce, tensor_comm.py:42-44 and 70-73). *)
Definition iallreduce_max_array (g : list Z) (contrib : Z -> option (list Z)) : result (list Z) :=
  let* l := contributions g contrib in
  match l with
  | [] => Raise ErrComm
  | a :: r => if forallb (fun b => Nat.eqb (length b) (length a)) r
              then Ok (fold_right (map2 Z.max) a r) else Raise ErrComm
  end.

Section Structure.
  Variable st : Z -> tstruct.                  (* input structure of every worker *)
  Variables snd_p rcv_p : Z -> option (list Z). (* P_send and P_recv of every worker *)

  (** tensor_comm.py:20-44, 51-73: what worker [m] contributes on communicator
      [g]: a sender its own data, a receiver that is not a sender there -1. *)
  Definition st_contrib {A} (g : list Z) (own : tstruct -> A) (init : A) (m : Z) : option A :=
    if on_comm (snd_p m) g then Some (own (st m))
    else if on_comm (rcv_p m) g then Some init else None.

  (** tensor_comm.py:11-94 [broadcast_tensor_structure] on worker [v]; [Ok None]
      is the empty structure. *)
  Definition broadcast_tensor_structure (v : Z) : result (option tstruct) :=
    match rcv_p v with
    | Some g =>
        if same_comm (snd_p v) (rcv_p v) then Ok (Some (st v))          (* 86-89 *)
        else
          let* d := iallreduce_max g (st_contrib g st_dtype (-1)) in       (* 56-58 *)
          let* rg := iallreduce_max g (st_contrib g (fun s => if st_rg s then 1 else 0) (-1)) in (* 60-62 *)
          let* dim := iallreduce_max g (st_contrib g (fun s => Z.of_nat (length (st_shape s))) (-1)) in (* 66-68 *)
          let* sh := iallreduce_max_array g
                       (st_contrib g st_shape (repeat (-1) (Z.to_nat dim))) in (* 70-73 *)
          Ok (Some (mkst sh d (negb (rg =? 0))))                         (* 81-84 *)
    | None => Ok None
    end.
End Structure.

(** tensor_comm.py:97-146 [assemble_global_tensor_structure], the shape:
    per dimension an Allreduce(SUM) of the local extents over the workers that
    differ from this one only in that dimension
    ([create_cartesian_subtopology_partition], MPI_Cart_sub). *)
Definition cart_sub_ranks (P : part) (i : nat) (v : Z) : result (list Z) :=
  match index_in P v with
  | None => Raise ErrInactive
  | Some idx =>
      let* rs := rmap (fun k => cart_rank (p_shape P) (upd i k idx)) (zrange (nth i (p_shape P) 0)) in
      Ok (incl_ranks (p_ranks P) rs)
  end.

(** tensor_comm.py:104-132. *)
Definition assemble_global_shape (P : part) (shape : Z -> list Z) (v : Z) : result (list Z) :=
  rmap (fun i => let* sub := cart_sub_ranks P i v in Ok (zsum (map (fun u => nth i (shape u) 0) sub)))
       (seq 0 (length (p_shape P))).

(** Lines 134-145: workers of P_out obtain the structure from the first worker
    of P_in. *)
Definition assemble_global_structure (P_in P_out : part) (st : Z -> tstruct) (v : Z)
  : result (option tstruct) :=
  if is_active (p_ranks P_out) v then
    let* sh := broadcast_data (p_ranks P_out) (p_ranks P_in)
                 (fun u => assemble_global_shape P_in (fun w => st_shape (st w)) u) 0 in
    let* sh := sh in
    let* d := broadcast_data (p_ranks P_out) (p_ranks P_in) (fun u => st_dtype (st u)) 0 in
    let* rg := broadcast_data (p_ranks P_out) (p_ranks P_in)
                 (fun u => if st_rg (st u) then 1 else 0) 0 in
    Ok (Some (mkst sh d (negb (rg =? 0))))
  else if is_active (p_ranks P_in) v then
    let* sh := assemble_global_shape P_in (fun w => st_shape (st w)) v in
    Ok (Some (mkst sh (st_dtype (st v)) (st_rg (st v))))
  else Ok None.

Section Functions.
  Context {R : CRing}.
  Notation tensor := (tensor R).

  (** utilities/torch.py:5-13 [zero_volume_tensor], with the batch size
      [input.shape[0]] when it is preserved (functional/broadcast.py:101-104). *)
  Definition zero_volume (preserve_batch : bool) (input_shape : list Z) : result tensor :=
    if preserve_batch then
      match input_shape with
      | [] => Raise ErrIndex
      | b :: _ => Ok (mkt [b; 0] (fun _ => rzero))
      end
    else Ok (mkt [0] (fun _ => rzero)).

  (** MPI_Ibcast with root 0 into a buffer of the given shape: the tensor that
      the first member of the communicator sends. *)
  Definition ibcast (g : list Z) (root_data : Z -> option tensor) (buf : list Z) : result tensor :=
    match g with
    | [] => Raise ErrComm
    | r :: _ =>
        match root_data r with
        | None => Raise ErrComm
        | Some t => if zlist_eqb (tshape t) buf then Ok t else Raise ErrComm
        end
    end.

  (** MPI_Ireduce / MPI_Iallreduce with MPI_SUM into a buffer of the given
      shape. *)
  Definition ireduce (g : list Z) (contrib : Z -> option tensor) (buf : list Z) : result tensor :=
    let* l := contributions g contrib in
    if forallb (fun t => zlist_eqb (tshape t) buf) l
    then Ok (mkt buf (fun i => sumf l (fun t => tat t i))) else Raise ErrComm.

  Section PerGroup.
    Variables snd_p rcv_p : Z -> option (list Z).
    Variable preserve_batch : bool.
    Variable in_shape : Z -> list Z.      (* input_tensor_structure.shape *)
    Variable out_shape : Z -> list Z.     (* output_tensor_structure.shape *)

    (** functional/broadcast.py:32-131 [BroadcastFunction.forward]. *)
    Definition broadcast_forward (x : Z -> tensor) (v : Z) : result tensor :=
      let* zv := zero_volume preserve_batch (tshape (x v)) in          (* 101-104 *)
      match rcv_p v with
      | None => Ok zv
      | Some g =>
          if same_comm (snd_p v) (rcv_p v) then Ok (x v)                (* 117-118 *)
          else ibcast g (fun r => if on_comm (snd_p r) g then Some (x r) else None)
                 (out_shape v)                                          (* 119-126 *)
      end.

    (** functional/broadcast.py:134-231 [BroadcastFunction.backward]. *)
    Definition broadcast_backward (dy : Z -> tensor) (v : Z) : result tensor :=
      let* zv := zero_volume preserve_batch (tshape (dy v)) in          (* 192-195 *)
      match snd_p v with
      | None => Ok zv
      | Some g =>
          let contrib m :=
            if on_comm (rcv_p m) g then Some (dy m)                     (* 203-208 *)
            else if on_comm (snd_p m) g then Some (tzeros (in_shape m)) (* 212-216 *)
            else None in
          let buf := if same_comm (snd_p v) (rcv_p v) then out_shape v else in_shape v in
          let* s := ireduce g contrib buf in
          if hd v g =? v then Ok s                                      (* 221-229 *)
          else if same_comm (snd_p v) (rcv_p v) then Ok (tzeros buf)    (* not the root: buffer untouched *)
          else Raise ErrComm                                            (* MPI_IN_PLACE off the root *)
      end.

    (** functional/sum_reduce.py:32-137 [SumReduceFunction.forward]. *)
    Definition sum_reduce_forward (x : Z -> tensor) (v : Z) : result tensor :=
      let* zv := zero_volume preserve_batch (tshape (x v)) in           (* 98-101 *)
      match rcv_p v with
      | None => Ok zv
      | Some g =>
          let contrib m :=
            if on_comm (snd_p m) g then Some (x m)                      (* 110-115 *)
            else if on_comm (rcv_p m) g then Some (tzeros (out_shape m)) (* 118-122 *)
            else None in
          let buf := if same_comm (snd_p v) (rcv_p v) then in_shape v else out_shape v in
          let* s := ireduce g contrib buf in
          if hd v g =? v then Ok s                                      (* 127-135 *)
          else if same_comm (snd_p v) (rcv_p v) then Ok (tzeros buf)
          else Raise ErrComm
      end.

    (** functional/sum_reduce.py:140-230 [SumReduceFunction.backward]. *)
    Definition sum_reduce_backward (dy : Z -> tensor) (v : Z) : result tensor :=
      let* zv := zero_volume preserve_batch (tshape (dy v)) in          (* 200-203 *)
      match snd_p v with
      | None => Ok zv
      | Some g =>
          if same_comm (snd_p v) (rcv_p v) then Ok (dy v)               (* 216-217 *)
          else ibcast g (fun r => if on_comm (rcv_p r) g then Some (dy r) else None)
                 (in_shape v)                                           (* 219-225 *)
      end.
  End PerGroup.

  (** functional/all_sum_reduce.py:32-91; the backward (94-142) is the same code
      on the cotangent. *)
  Definition all_sum_reduce_forward (grp : Z -> option (list Z)) (in_shape : Z -> list Z)
      (x : Z -> tensor) (v : Z) : result tensor :=
    match grp v with
    | None => Ok (mkt [0] (fun _ => rzero))
    | Some g => ireduce g (fun m => if on_comm (grp m) g then Some (x m) else None) (in_shape v)
    end.

  (** functional/all_sum_reduce.py:94-142. *)
  Definition all_sum_reduce_backward := all_sum_reduce_forward.

  (** The groups that the workers obtain in a layer's setup
      (nn/broadcast.py:126-128, nn/sum_reduce.py:125-127). *)
  Definition send_groups (create : Z -> result cross) (v : Z) : option (list Z) :=
    match create v with Ok c => x_send c | Raise _ => None end.
  (** nn/broadcast.py:126-128, nn/sum_reduce.py:125-127. *)
  Definition recv_groups (create : Z -> result cross) (v : Z) : option (list Z) :=
    match create v with Ok c => x_recv c | Raise _ => None end.

  (** nn/broadcast.py:93-101, nn/sum_reduce.py:92-100: the identity case.  [same]
      says whether P_x and P_y are the same partition (identical communicators);
      inactive workers never find them equal. *)
  Definition is_identity (same : bool) (Px : part) (ts td : bool) (v : Z) : bool :=
    same && is_active (p_ranks Px) v &&
    ((Z.of_nat (length (p_ranks Px)) =? 1) || (ts && td || negb ts && negb td)).

  (** [output_tensor_structure.shape], functional/broadcast.py:122. *)
  Definition shape_of_struct (o : option tstruct) : list Z :=
    match o with Some s => st_shape s | None => [] end.

  (** nn/broadcast.py:132-136, nn/sum_reduce.py:131-135: the shape on worker [u]. *)
  Definition out_structs (create : Z -> result cross) (st : Z -> tstruct) (u : Z) : list Z :=
    match broadcast_tensor_structure st (send_groups create) (recv_groups create) u with
    | Ok o => shape_of_struct o | Raise _ => [] end.

  Section Layer.
    Variable create : Z -> result cross.
    Variables Px Py : part.
    Variable same ts td preserve_batch : bool.
    Variable dt : Z -> Z.             (* element type of every worker's input *)
    Variable rg : Z -> bool.          (* its requires_grad *)

    (** nn/broadcast.py:132, nn/sum_reduce.py:131: TensorStructure(input[0]). *)
    Definition structs_of (x : Z -> tensor) (u : Z) : tstruct := mkst (tshape (x u)) (dt u) (rg u).

    (** Setup and then forward of a layer: nn/broadcast.py:103-139 and 184-211;
        nn/sum_reduce.py:102-138 and 183-206. *)
    Definition layer_forward (fn : (Z -> option (list Z)) -> (Z -> option (list Z)) -> bool ->
        (Z -> list Z) -> (Z -> list Z) -> (Z -> tensor) -> Z -> result tensor)
        (x : Z -> tensor) (v : Z) : result tensor :=
      if is_identity same Px ts td v then Ok (x v)
      else if negb (is_active (p_ranks Px) v || is_active (p_ranks Py) v) then Ok (x v)
      else
        let* c := create v in
        let st := structs_of x in
        let* out := broadcast_tensor_structure st (send_groups create) (recv_groups create) v in
        fn (send_groups create) (recv_groups create) preserve_batch
           (fun u => tshape (x u)) (out_structs create st) x v.

    (** The backward pass of the layer: [clone] passes the cotangent through;
        otherwise the function's backward with the structures saved in the
        context by the forward pass on [x]
        (functional/broadcast.py:134-231, functional/sum_reduce.py:140-230). *)
    Definition layer_backward (fn : (Z -> option (list Z)) -> (Z -> option (list Z)) -> bool ->
        (Z -> list Z) -> (Z -> list Z) -> (Z -> tensor) -> Z -> result tensor)
        (x dy : Z -> tensor) (v : Z) : result tensor :=
      if is_identity same Px ts td v then Ok (dy v)
      else if negb (is_active (p_ranks Px) v || is_active (p_ranks Py) v) then Ok (dy v)
      else
        let* c := create v in
        fn (send_groups create) (recv_groups create) preserve_batch
           (fun u => tshape (x u)) (out_structs create (structs_of x)) dy v.
  End Layer.

  (** nn/broadcast.py:103-139 and 184-211. *)
  Definition broadcast_layer (Px Py : part) (same ts td pb : bool) dt rg :=
    layer_forward (create_broadcast_partition_to Px Py ts td) Px Py same ts td pb dt rg
      (fun s r b i o => broadcast_forward s r b o).
  (** functional/broadcast.py:134-231, for that layer. *)
  Definition broadcast_layer_backward (Px Py : part) (same ts td pb : bool) dt rg :=
    layer_backward (create_broadcast_partition_to Px Py ts td) Px Py same ts td pb dt rg
      broadcast_backward.
  (** nn/sum_reduce.py:102-138 and 183-206. *)
  Definition sum_reduce_layer (Px Py : part) (same ts td pb : bool) dt rg :=
    layer_forward (create_reduction_partition_to Px Py ts td) Px Py same ts td pb dt rg
      sum_reduce_forward.
  (** functional/sum_reduce.py:140-230, for that layer. *)
  Definition sum_reduce_layer_backward (Px Py : part) (same ts td pb : bool) dt rg :=
    layer_backward (create_reduction_partition_to Px Py ts td) Px Py same ts td pb dt rg
      (fun s r b i o => sum_reduce_backward s r b i).

  (** nn/all_sum_reduce.py:43-52: the axes. *)
  Definition all_sum_reduce_axes (dim : Z) (axes_reduce axes_keep : option (list Z)) : result (list Z) :=
    match axes_reduce, axes_keep with
    | None, None => Raise ErrValue
    | Some _, Some _ => Raise ErrValue
    | Some a, None => Ok a
    | None, Some k => Ok (filter (fun d => negb (existsb (Z.eqb d) k)) (zrange dim))
    end.

  (** nn/all_sum_reduce.py:97: the group of every worker. *)
  Definition allreduce_groups (Px : part) (axes : list Z) (v : Z) : option (list Z) :=
    match create_allreduction_partition Px axes v with
    | Ok (Some P) => Some (p_ranks P)
    | _ => None
    end.

  (** nn/all_sum_reduce.py:69-103, 147-168: setup and forward.  Setup happens in
      the forward pre-hook, so the backward pass needs no setup but sees the
      same groups. *)
  Definition all_sum_reduce_layer (Px : part) (axes_reduce axes_keep : option (list Z))
      (x : Z -> tensor) (v : Z) : result tensor :=
    let* axes := all_sum_reduce_axes (Z.of_nat (length (p_shape Px))) axes_reduce axes_keep in
    if negb (is_active (p_ranks Px) v) then Ok (x v)
    else if Z.of_nat (length (p_ranks Px)) =? 1 then Ok (x v)
    else
      let* g := create_allreduction_partition Px axes v in
      all_sum_reduce_forward (allreduce_groups Px axes) (fun u => tshape (x u)) x v.

  (** functional/all_sum_reduce.py:94-142, for that layer. *)
  Definition all_sum_reduce_layer_backward (Px : part) (axes_reduce axes_keep : option (list Z))
      (x dy : Z -> tensor) (v : Z) : result tensor :=
    let* axes := all_sum_reduce_axes (Z.of_nat (length (p_shape Px))) axes_reduce axes_keep in
    if negb (is_active (p_ranks Px) v) then Ok (dy v)
    else if Z.of_nat (length (p_ranks Px)) =? 1 then Ok (dy v)
    else
      let* g := create_allreduction_partition Px axes v in
      all_sum_reduce_backward (allreduce_groups Px axes) (fun u => tshape (x u)) dy v.
End Functions.
