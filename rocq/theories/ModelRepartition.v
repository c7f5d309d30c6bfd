(** Model of nn/repartition.py and backends/mpi/functional/repartition.py.

    Workers are named by their ranks in the root communicator; [partner] entries
    are ranks in the union, as in the code.  dtypes and devices are not
    modelled. *)

From Verif Require Import Prelude ModelSlicing ModelDecomposition ModelPartition Ring Tensor
  ModelCollectives ModelBuffer P2P Rounds.

(** An entry of [P_x_to_y_overlaps]/[P_y_to_x_overlaps]: (sl, sh, partner), or
    (None, None, None) (nn/repartition.py:230-247 and 263-277). *)
Definition ov : Type := option (list slice * list Z * partner).

(** The entry as backends/mpi/repartition.py:25-50 looks at it. *)
Definition ov_overlap (o : ov) : overlap :=
  match o with
  | Some (_, sh, p) => (true, sh, p)
  | None => (false, [], PNone)
  end.

Section Setup.
  Variables Px Py : part.

  (** What nn/repartition.py:91-127 stores. *)
  Record rinit := mkrinit {
    i_union : list Z;
    i_xshape : list Z;
    i_yshape : list Z;
    i_xranks : list Z;
    i_yranks : list Z
  }.

  (** [P.rank if P.active else -1] of every worker of the union, nn/repartition.py:120-127. *)
  Definition gathered_ranks (u ranks : list Z) : list Z :=
    map (fun w => match rank_in ranks w with Some r => r | None => -1 end) u.

  (** nn/repartition.py:93-127, the end of [__init__], on worker [v]; [None]: the
      worker is in neither partition. *)
  Definition repartition_init (v : Z) : result (option rinit) :=
    if negb (is_active (p_ranks Px) v || is_active (p_ranks Py) v) then Ok None else
    let* u := create_partition_union Px Py in
    let* sx := broadcast_data u (p_ranks Px) (fun _ => p_shape Px) 0 in
    let* sy := broadcast_data u (p_ranks Py) (fun _ => p_shape Py) 0 in
    if negb (Nat.eqb (length sx) (length sy)) then Raise ErrDim else
    Ok (Some (mkrinit u sx sy (gathered_ranks u (p_ranks Px)) (gathered_ranks u (p_ranks Py)))).

  Variable shape : Z -> list Z.      (* shape of the local input of each worker *)

  (** backends/mpi/tensor_comm.py:104-132 on a worker of P_x: [local.shape[i]] for each
      dimension i of the partition is an IndexError when the tensor has fewer
      dimensions.  When another worker of P_x raises, the collective calls are
      not completed. *)
  Definition assembled_shape (u : Z) : result (list Z) :=
    let dim := length (p_shape Px) in
    if (length (shape u) <? dim)%nat then Raise ErrIndex else
    if existsb (fun w => (length (shape w) <? dim)%nat) (p_ranks Px) then Raise ErrComm else
    assemble_global_shape Px shape u.

  (** nn/repartition.py:158-162 with backends/mpi/tensor_comm.py:97-140: a worker of P_x may
      itself raise; other workers wait for the first worker of P_x. *)
  Definition global_shape (i : rinit) (v : Z) : result (list Z) :=
    let* own := (if is_active (p_ranks Px) v then assembled_shape v else Ok []) in
    let* r := broadcast_data (i_union i) (p_ranks Px) assembled_shape 0 in
    match r with Ok s => Ok s | Raise _ => Raise ErrComm end.

  (** backends/mpi/tensor_decomposition.py:35-53: a worker of P_x stores its
      shape in a row with as many entries as P_x has dimensions; numpy refuses
      more.  (Fewer have been refused by [assembled_shape].)  When a worker of P_x
      raises, the collective calls are not completed. *)
  Definition bad_row (w : Z) : bool :=
    negb (Nat.eqb (length (shape w)) (length (p_shape Px))).

  (** backends/mpi/tensor_decomposition.py:35-53, called at nn/repartition.py:188-201. *)
  Definition x_shapes (v : Z) : result warray :=
    if is_active (p_ranks Px) v && bad_row v then Raise ErrSlice else
    if existsb bad_row (p_ranks Px) then Raise ErrComm else
    Ok (compute_subtensor_shapes_unbalanced (p_shape Px)
          (fun idx => shape (nth (Z.to_nat (cartesian_index_c (p_shape Px) idx)) (p_ranks Px) 0))).

  (** What nn/repartition.py:156-277 stores. *)
  Record rsetup := mkrsetup {
    s_init : rinit;
    s_xy : list ov;           (* P_x_to_y_overlaps *)
    s_yx : list ov;           (* P_y_to_x_overlaps *)
    s_xlocal : list Z;        (* input_tensor_structure.shape *)
    s_ylocal : list Z         (* output_tensor_structure.shape *)
  }.

  (** nn/repartition.py:227-247 and 260-277, one round of the loops: the overlap
      of my box with another worker's, and who that is. *)
  Definition overlap_entry (my_start my_stop other_start other_stop : list Z) (self : bool)
      (ranks : list Z) (rank : Z) : result ov :=
    match compute_subtensor_intersection_slice my_start my_stop other_start other_stop with
    | None => Ok None
    | Some sl =>
        let sh := compute_nd_slice_shape sl in
        if self then Ok (Some (sl, sh, PSelf))
        else match where_eq rank ranks with
             | [] => Raise ErrIndex
             | p :: _ => Ok (Some (sl, sh, PRank p))
             end
    end.

  (** [active and np.all(index == other.index)], nn/repartition.py:234 and 267. *)
  Definition is_self (idx : list Z) (own : option (list Z)) : bool :=
    match own with Some j => zlist_eqb idx j | None => false end.

  (** Python's [enumerate] of the workers, nn/repartition.py:221 and 254. *)
  Definition enumerate {A} (l : list A) : list (Z * A) := combine (zrange (Z.of_nat (length l))) l.

  (** nn/repartition.py:156-277, [_distdl_module_setup] on worker [v] of the union. *)
  Definition repartition_setup (i : rinit) (v : Z) : result rsetup :=
    (* 158-162 *)
    let* xg := global_shape i v in
    (* 164-167 *)
    let ylocal := match index_in Py v with
                  | Some j => compute_subshape (p_shape Py) j xg
                  | None => []
                  end in
    (* 169-177 *)
    if negb (Nat.eqb (length (i_xshape i)) (length xg)) then Raise ErrValue else
    if negb (Nat.eqb (length (i_yshape i)) (length xg)) then Raise ErrValue else
    (* 179-182 *)
    if existsb (fun p => negb (fst p =? snd p) && (fst p =? 1)) (combine xg (i_yshape i))
    then Raise ErrValue else
    (* 188-201 *)
    let* xs := x_shapes v in
    let ys := compute_subtensor_shapes_balanced xg (i_yshape i) in
    (* 206-210 *)
    let dx := length (i_xshape i) in
    let dy := length (i_yshape i) in
    let x_start := compute_subtensor_start_indices dx xs in
    let x_stop := compute_subtensor_stop_indices dx xs in
    let y_start := compute_subtensor_start_indices dy ys in
    let y_stop := compute_subtensor_stop_indices dy ys in
    (* 215-247 *)
    let* xy := (match index_in Px v with
                | Some j =>
                    rmap (fun ri => overlap_entry (x_start j) (x_stop j) (y_start (snd ri)) (y_stop (snd ri))
                                      (is_self (snd ri) (index_in Py v)) (i_yranks i) (fst ri))
                         (enumerate (range_index (i_yshape i)))
                | None => Ok []
                end) in
    (* 248-277 *)
    let* yx := (match index_in Py v with
                | Some j =>
                    rmap (fun ri => overlap_entry (y_start j) (y_stop j) (x_start (snd ri)) (x_stop (snd ri))
                                      (is_self (snd ri) (index_in Px v)) (i_xranks i) (fst ri))
                         (enumerate (range_index (i_xshape i)))
                | None => Ok []
                end) in
    Ok (mkrsetup i xy yx (shape v) ylocal).

  (** Construction and first setup; [Ok None]: the worker is in neither
      partition (nn/repartition.py:61-284). *)
  Definition repartition_prepare (v : Z) : result (option rsetup) :=
    let* i := repartition_init v in
    match i with
    | None => Ok None
    | Some i => let* s := repartition_setup i v in Ok (Some s)
    end.
End Setup.

Section Function.
  Context {R : CRing}.
  Notation tensor := (tensor R).
  Variables Px Py : part.
  Variable preserve_batch : bool.
  Variable setup : Z -> option rsetup.      (* of every worker *)

  (** What a worker holds during a call; [r_hist] collects the results
      (tensor, requires_grad) of the calls
      (functional/repartition.py:103-212). *)
  Record rst := mkrst {
    r_in : tensor;
    r_rg : bool;             (* requires_grad of the input *)
    r_flag : bool;           (* input_requires_grad, kept in ctx *)
    r_out : tensor;
    r_outrg : bool;
    r_hist : list (tensor * bool)
  }.
  (** What is sent: the requires-grad status (functional/repartition.py:112-128) or a tensor (158-168). *)
  Definition rmsg : Type := (bool + tensor)%type.
  Notation action := (@action rst rmsg).

  (** functional/repartition.py:128. *)
  Definition set_flag (b : bool) (s : rst) : rst :=
    mkrst (r_in s) (r_rg s) b (r_out s) (r_outrg s) (r_hist s).
  (** functional/repartition.py:133-139 and 174. *)
  Definition set_out (t : tensor) (b : bool) (s : rst) : rst :=
    mkrst (r_in s) (r_rg s) (r_flag s) t b (r_hist s).

  (** [t[sl]] and [np.copyto(t[sl], m)] for slices inside the tensor (C05).  A
      source of another shape is an error of numpy or MPI; in the model nothing
      is copied then, so that the theorems on the result exclude it. *)
  Definition in_slice (sl : list slice) (i : list Z) : bool :=
    Nat.eqb (length sl) (length i) &&
    forallb (fun p => (fst (fst p) <=? snd p) && (snd p <? snd (fst p))) (combine sl i).
  (** [t[sl]], functional/repartition.py:162. *)
  Definition read_slice (t : tensor) (sl : list slice) : tensor :=
    mkt (compute_nd_slice_shape sl) (fun i => tat t (map2 (fun s k => fst s + k) sl i)).
  (** [np.copyto(t[sl], m)], functional/repartition.py:203. *)
  Definition write_slice (t : tensor) (sl : list slice) (m : tensor) : tensor :=
    if zlist_eqb (tshape m) (compute_nd_slice_shape sl) then
      mkt (tshape t)
          (fun i => if in_slice sl i then tat m (map2 (fun s k => k - fst s) sl i) else tat t i)
    else t.

  (** The workers of P_union, nn/repartition.py:91-94. *)
  Definition union : list Z := group_union (p_ranks Px) (p_ranks Py).
  (** A tag of the model for the Bcast of functional/repartition.py:112-128, which has none. *)
  Definition btag : Z := -1.

  (** functional/repartition.py:112-128: the first worker of the union broadcasts
      the requires-grad status.  The Bcast is modelled in its most synchronising
      form: every worker of the union hears from every other one. *)
  Definition bcast_round (v : Z) : list action :=
    if is_active union v then
      let others := filter (fun u => negb (u =? v)) union in
      [ALocal (fun s => set_flag (match rank_in (p_ranks Px) v with
                                  | Some 0 => r_rg s | _ => false end) s)] ++
      map (fun u => ARecv u btag (fun m s =>
             match m with
             | inl b => if u =? nth 0 union 0 then set_flag b s else s
             | inr _ => s
             end)) others ++
      map (fun u => ASend u btag (fun s => inl (r_flag s))) others
    else [].

  (** Lines 143-154 (tag 111) and 281-292 (tag 113): one receive, or a null
      request, per entry.  [buff is None] exactly when [needs_buffer] is false
      (backends/mpi/repartition.py:36-55). *)
  Definition recv_action (tag : Z) (o : ov) : action :=
    if needs_buffer (ov_overlap o) then
      match o with
      | Some (sl, sh, PRank p) =>
          ARecv (nth (Z.to_nat p) union 0) tag (fun m s =>
            match m with
            | inr t => set_out (write_slice (r_out s) sl t) (r_outrg s) s
            | inl _ => s
            end)
      | _ => ANull
      end
    else ANull.

  (** Lines 158-168 and 296-306. *)
  Definition send_action (tag : Z) (o : ov) : action :=
    if needs_buffer (ov_overlap o) then
      match o with
      | Some (sl, sh, PRank p) =>
          ASend (nth (Z.to_nat p) union 0) tag (fun s => inr (read_slice (r_in s) sl))
      | _ => ANull
      end
    else ANull.

  (** The first entry marked "self", lines 179-187 and 315-323. *)
  Definition self_slice (l : list ov) : option (list slice) :=
    match find (fun o => match o with Some (_, _, PSelf) => true | _ => false end) l with
    | Some (Some (sl, _, _)) => Some sl
    | _ => None
    end.

  (** functional/repartition.py:179-187 and 315-323. *)
  Definition self_copy (src dst : list ov) (s : rst) : rst :=
    match self_slice src, self_slice dst with
    | Some ssl, Some dsl => set_out (write_slice (r_out s) dsl (read_slice (r_in s) ssl)) (r_outrg s) s
    | _, _ => s
    end.

  (** utilities/torch.py:5-13; an input without dimensions (an IndexError of
      [input.shape[0]]) is not modelled. *)
  Definition default_out (s : rst) : tensor :=
    match zero_volume preserve_batch (tshape (r_in s)) with
    | Ok t => t
    | Raise _ => mkt [0] (fun _ => rzero)
    end.

  (** functional/repartition.py:130-212 (forward) after the branch of nn/repartition.py:345-346. *)
  Definition forward_round (v : Z) : list action :=
    match setup v with
    | None => [ALocal (fun s => set_out (r_in s) (r_rg s) s)]
    | Some d =>
        let xa := is_active (p_ranks Px) v in
        let ya := is_active (p_ranks Py) v in
        [ALocal (fun s => set_out (default_out s) false s)] ++
        (if ya then map (recv_action 111) (s_yx d) else []) ++
        (if xa then map (send_action 111) (s_xy d) else []) ++
        (if ya then [ALocal (fun s => set_out (mkt (s_ylocal d) (fun _ => rzero)) (r_flag s) s)] else []) ++
        (if xa && ya then [ALocal (self_copy (s_xy d) (s_yx d))] else [])
    end.

  (** functional/repartition.py:266-350 (backward).  Outside both partitions the
      backward of [clone]. *)
  Definition backward_round (v : Z) : list action :=
    match setup v with
    | None => [ALocal (fun s => set_out (r_in s) (r_rg s) s)]
    | Some d =>
        let xa := is_active (p_ranks Px) v in
        let ya := is_active (p_ranks Py) v in
        [ALocal (fun s => set_out (default_out s) false s)] ++
        (if xa then map (recv_action 113) (s_xy d) else []) ++
        (if ya then map (send_action 113) (s_yx d) else []) ++
        (if xa then [ALocal (fun s => set_out (mkt (s_xlocal d) (fun _ => rzero)) (r_flag s) s)] else []) ++
        (if ya && xa then [ALocal (self_copy (s_yx d) (s_xy d))] else [])
    end.

  (** A history of calls of one layer: the arguments on every worker
      (nn/repartition.py:328-359). *)
  Inductive call :=
  | CForward (x : Z -> tensor) (rg : Z -> bool)
  | CBackward (dy : Z -> tensor).

  (** The arguments of a call, nn/repartition.py:328. *)
  Definition load_round (x : Z -> tensor) (rg : Z -> bool) (v : Z) : list action :=
    [ALocal (fun s => mkrst (x v) (rg v) (r_flag s) (r_out s) (r_outrg s) (r_hist s))].
  (** Its result, nn/repartition.py:348-359. *)
  Definition store_round (v : Z) : list action :=
    [ALocal (fun s => mkrst (r_in s) (r_rg s) (r_flag s) (r_out s) (r_outrg s)
                            (r_hist s ++ [(r_out s, r_outrg s)]))].

  (** One call, nn/repartition.py:328-359. *)
  Definition call_rounds (c : call) : list (@round rst rmsg) :=
    match c with
    | CForward x rg => [load_round x rg; bcast_round; forward_round; store_round]
    | CBackward dy => [load_round dy (fun _ => false); backward_round; store_round]
    end.

  (** Several calls of nn/repartition.py:328-359. *)
  Definition history_rounds (cs : list call) : list (@round rst rmsg) := flat_map call_rounds cs.
End Function.

(** The setups of all workers, none where the layer was refused
    (nn/repartition.py:132-284). *)
Definition setup_of (Px Py : part) (shape : Z -> list Z) (v : Z) : option rsetup :=
  match repartition_prepare Px Py shape v with Ok o => o | Raise _ => None end.
